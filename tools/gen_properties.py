#!/usr/bin/env python3
"""Writes /verif/properties.jsonl (kept as a script so that the list stays consistent)."""
import json
P = []
def p(title, statement, quantifier, why, anchors):
    P.append(dict(id="C%02d" % (len(P)+1), title=title, statement=statement,
                  quantifier=quantifier, why_tests_cant=why, anchors=anchors))

MESH = "src/mesh/planar_hexagonal_mesh.cpp"
FIN = "src/mesh/mpas_mesh.cpp"
MOD = "src/model/shallow_water_model.cpp"
AUX = "src/model/shallow_water_auxstate.cpp"
DIA = "src/model/shallow_water_diagnostics.cpp"
RK4 = "src/time_integration/rk4.cpp"
LSRK = "src/time_integration/lsrk.cpp"
TT = "src/model/tendency_terms/"
AV = "src/model/auxiliary_vars/"

p("Mesh construction is memory safe, race free and deterministic",
  "Constructing PlanarHexagonalMesh(nx, ny, dc, nlayers) with nx, ny >= 1 and 3*nx*ny representable as Int never indexes an array outside its extents, never overflows Int, never makes two concurrently executing iterations of one parallel_for touch the same element with one of them writing, and leaves the same contents in every connectivity and metric array whatever order the iterations are executed or interleaved in.",
  "all nx, ny, dc, nlayers in range and every interleaving of the individual loads and stores of all iterations of every parallel_for of the constructor",
  "Races and out-of-bounds indices depend on mesh size and thread schedule; a test runs a handful of sizes under one schedule.",
  [MESH+": PlanarHexagonalMesh::compute_mesh_arrays", FIN+": MPASMesh::finalize_mesh", "src/common.hpp: omega_parallel_for"])
p("Integer limits of the constructor are exactly the Int range of the edge count",
  "For nx, ny >= 1 the sizes m_ncells, m_nedges, m_nvertices are nx*ny, 3*nx*ny, 2*nx*ny, and the signed arithmetic that computes them is defined exactly when 3*nx*ny <= 2^31-1; beyond that the constructor has undefined behaviour.",
  "all positive 32 bit nx, ny", "The overflow only happens for meshes far larger than any test allocates.",
  [MESH+": PlanarHexagonalMesh::PlanarHexagonalMesh"])
p("Every edge is shared by exactly two cell sides",
  "In the built mesh every edge e occurs exactly twice among all pairs (cell, local edge): once as local edge 0..2 of m_cells_on_edge(e,1) and once as local edge 3..5 of m_cells_on_edge(e,0); conversely each of the six edges listed for a cell has that cell as one of its two cells.",
  "every nx, ny >= 1, every edge and every cell", "Incidence is a global bijection over all mesh sizes; tests only look at convergence rates.",
  [MESH+": edge_on_cell, compute_mesh_arrays"])
p("Edge signs orient every edge out of one cell and into the other",
  "For nx, ny >= 2, m_edge_sign_on_cell is +1 exactly at local edges 3..5 and -1 at local edges 0..2, so the two sides of an edge always carry opposite signs. (For nx = 1 or ny = 1 a cell is its own neighbour and both sides carry +1.)",
  "every nx, ny >= 2, every cell and local edge; and the degenerate sizes", "Must hold at the periodic seam of every mesh size.",
  [FIN+": finalize_cell", MESH+": edge_on_cell"])
p("Vertex incidence is consistent",
  "Every vertex has three distinct edges and three distinct cells; each edge listed for a vertex has that vertex as one of its two (distinct) end points, each (edge, end point) pair is listed exactly once over all vertices, each cell listed for a vertex lists that vertex as one of its six corners, and m_edge_sign_on_vertex is -1 at the edge's end point 0 and +1 at its end point 1.",
  "every nx, ny >= 2, every vertex, edge and cell", "A global bijection over unbounded mesh sizes including the periodic seam.",
  [MESH+": vertex_on_cell, compute_mesh_arrays", FIN+": finalize_vertex"])
p("kite_index_on_cell inverts cells_on_vertex",
  "For nx, ny >= 2, every cell c and corner j: m_cells_on_vertex(m_vertices_on_cell(c,j), m_kite_index_on_cell(c,j)) = c, and no other slot of that vertex holds c.",
  "every nx, ny >= 2, every cell and corner", "The search loop keeps the last match, so correctness needs uniqueness on every mesh size.",
  [FIN+": finalize_cell"])
p("Cell adjacency is reciprocal exactly when ny is even",
  "For nx, ny >= 2, the neighbour lists satisfy 'm_cells_on_cell(m_cells_on_cell(c,j), (j+3) mod 6) = c for all c, j' if and only if ny is even. With odd ny (as in test/double_vortex with its default arguments, ny = 29) the lists are not reciprocal at the seam.",
  "every nx, ny >= 2, every cell and neighbour number", "Depends on the parity of ny and on the seam rows only.",
  [MESH+": cell_on_cell", "test/double_vortex.cpp: run"])
p("Geometry of the torus is consistent with the connectivity (even ny)",
  "For even ny the centre of m_cells_on_edge(e,1) equals the centre of m_cells_on_edge(e,0) plus dc*(cos m_angle_edge, sin m_angle_edge) modulo the periods, the edge point is the midpoint of the two centres modulo the periods, the corner m_vertices_on_edge(e,1) equals m_vertices_on_edge(e,0) plus dv*(-sin, cos) modulo the periods, and every vertex is at distance dc/sqrt(3) from its three cells modulo the periods.",
  "every nx >= 2, even ny >= 2, dc > 0, every edge and vertex", "Must hold at every seam cell of every mesh size, in exact real arithmetic.",
  [MESH+": compute_cell_arrays, compute_edge_arrays"])
p("Areas partition the domain",
  "The kite areas of a vertex sum to its triangle area, the six kites of a cell sum to the cell area, and total cell area = total triangle area = period_x * period_y = sum over edges of dc*dv/2.",
  "every nx, ny >= 1 and dc", "Exact real identities over all sizes.",
  [MESH+": compute_cell_arrays, compute_vertex_arrays"])
p("Tangential weights are antisymmetric",
  "If edge e' occurs in the list of e with weight w through a shared cell then e occurs in the list of e' through the same cell with weight -w.",
  "every nx, ny >= 2 and every pair of neighbouring edges", "All 30 hand written table rows must be consistent with each other on every mesh.",
  [MESH+": m_edges_on_edge, m_weights_on_edge tables"])
p("Tangential reconstruction is exact for uniform vector fields",
  "For any constant vector (U,V), with input_e = U cos(angle_e) + V sin(angle_e), the weighted sum over m_edges_on_edge is exactly -U sin(angle_e) + V cos(angle_e).",
  "every mesh, every edge, every (U,V) in the reals", "Exact identity in real arithmetic for all vectors; the test only measures a convergence rate.",
  [MESH+": weights tables, scale_weights", "test/operator_convergence.cpp: error_reconstruction"])
p("Discrete curl of a gradient vanishes exactly when ny is even",
  "With G_e = (phi(cell1)-phi(cell0))/dc_e the circulation of G around every vertex is 0 for every cell field phi if and only if ny is even.",
  "every nx >= 2, ny >= 1, every cell field and vertex", "Quantifies over all fields; breaks only at the seam for odd ny.",
  [MESH+": edges_on_vertex, cells_on_edge", FIN])
p("Discrete divergence of a rotated gradient vanishes (even ny)",
  "With R_e = (psi(vertex1)-psi(vertex0))/dv_e the divergence of R in every cell is 0 for every vertex field psi when ny is even.",
  "every nx >= 2, even ny, every vertex field and cell", "Quantifies over all fields and seam cells.",
  [MESH+": vertices_on_edge, edges_on_cell", FIN])
p("Curl of the reconstructed tangential flow is the kite-weighted divergence (even ny)",
  "For every edge field u, the circulation around a vertex of the reconstructed tangential field equals minus the kite-area weighted sum of the divergences of u in the three cells of the vertex (so geostrophically balanced linear modes are steady).",
  "every nx >= 2, even ny, every edge field and vertex", "Identity over arbitrary fields at every vertex.",
  [MESH+": weights tables"])
p("Layer padding",
  "m_nlayers is the least multiple of the vector length that is >= the requested nlayers, m_nlayers_vec * vector_length = m_nlayers, and (kchunk,kvec) -> kchunk*vector_length+kvec enumerates each layer exactly once.",
  "every nlayers >= 1 and vector length >= 1", "Ranges over all layer counts and vector lengths.",
  [MESH+": PlanarHexagonalMesh::PlanarHexagonalMesh", "src/common.hpp: vector_length"])
p("compute_tendency is memory safe, race free and deterministic",
  "On a built mesh, ShallowWaterModel::compute_tendency with tend and state distinct performs no out-of-bounds access, no Int overflow and no data race in any of its parallel_for launches, for every build flavour (scalar or explicit SIMD with lane count = vector_length, fused or split kernels), every parameter set and add mode, and its result does not depend on the schedule.",
  "all meshes, states, parameters, add modes, build flavours and all interleavings", "Schedules and sizes cannot be enumerated.",
  [MOD+": compute_tendency", AUX+": compute"])
p("NO_SIMD together with KOKKOS_SIMD is unsafe",
  "If the explicit SIMD kernels are built with vector_length different from the lane count (OMEGA_NO_SIMD and OMEGA_KOKKOS_SIMD both on, lanes > 1), every mesh and every layer count makes compute_tendency access memory out of bounds.",
  "every mesh, layer count and lane count > 1", "Tests are built in one configuration.",
  ["src/common.hpp: vector_length", AV+"kinetic_aux.hpp", "CMakeLists.txt"])
p("Vectorised kernels compute the per-layer scalar formula bit for bit",
  "In the scalar build, the value compute_tendency leaves in layer k of every cell/edge/tracer is given by a formula that does not mention vector_length, in the same operation order, for any interpretation of the floating point operations (in particular IEEE binary64).",
  "all vector lengths, states and floating point semantics", "Ranges over all vector lengths and all values including NaN and infinities.",
  [TT, AV])
p("Explicit SIMD kernels agree with the scalar kernels except hyperviscosity",
  "Over the reals the KOKKOS_SIMD kernels leave the same tendencies as the scalar kernels whenever hyperviscosity is off or vector_length = 1; with hyperviscosity on and vector_length > 1 there are states where they differ (lane 0 of the Laplacian is broadcast in compute_vel_del2_rvort).",
  "all meshes, states, parameters and vector lengths", "The two builds are never compared by the tests, which use one layer.",
  [TT+"vel_hyperdiff_edge.hpp: compute_vel_del2_rvort (OMEGA_KOKKOS_SIMD)"])
p("Fused and split kernel launches agree bit for bit",
  "Building with OMEGA_NO_INNER_IF leaves exactly the same tendencies as the default build, for any floating point semantics.",
  "all meshes, states, parameters, add modes, floating point semantics", "The two builds are never compared.",
  [MOD+": compute_h_tendency, compute_vn_tendency, compute_tr_tendency"])
p("Layers are independent",
  "In the scalar build the tendencies of layer k depend only on layer k of the state: two states that agree in layer k get identical tendencies in layer k, so garbage (NaN included) in padding layers cannot leak into requested layers.",
  "all pairs of states agreeing in a layer, any floating point semantics", "A noninterference property over pairs of runs.",
  [MOD, AUX])
p("AddMode contract",
  "With AddMode::replace the resulting tendency does not depend on the previous contents of tend; with AddMode::increment the result is (over the reals) the previous contents plus the replace-mode result. This holds for every component whose tendency is enabled.",
  "all states, previous tendencies, parameters", "Quantifies over all previous contents.",
  ["src/model/shallow_water_model.hpp: AddMode", MOD])
p("Disabled tendencies are never reset",
  "With m_disable_h_tendency, replace mode leaves the previous contents of tend.m_h_cell in place; a model with an additional_tendency then accumulates it, and one RK4 step with constant forcing does not advance h by dt*forcing.",
  "all previous contents; existence of the failing history", "Needs the combination of a disabled term, a user hook and several stages.",
  [MOD+": compute_tendency", RK4])
p("Thickness tendency conserves mass",
  "For every state the area weighted sum over cells of the thickness tendency is 0 in every layer.",
  "all nx, ny >= 2, all states (no positivity needed), all layers", "Exact identity over all fields.",
  [TT+"thickness_hadv_cell.hpp"])
p("Mass is conserved by any number of steps of either stepper",
  "mass_integral is unchanged (over the reals) by any sequence of RK4Stepper or LSRKStepper steps with any time steps.",
  "all initial states, all dt sequences, any number of steps, all schedules", "Histories of unbounded length.",
  [RK4, LSRK, DIA+": mass_integral"])
p("Tracer content is conserved by any number of steps",
  "For every tracer and layer the area weighted sum of m_tr_cell is unchanged by any sequence of steps of either stepper, with advection, diffusion and hyperdiffusion on or off.",
  "all states with h != 0 at the stages, all parameters, any number of steps", "Histories of unbounded length over all states.",
  [TT+"tracer_hadv_cell.hpp", TT+"tracer_diff_cell.hpp", TT+"tracer_hyperdiff_cell.hpp"])
p("Total circulation is a constant of the mesh",
  "circulation_integral of every state equals m_nlayers * f0 * period_x * period_y, whatever the velocities.",
  "all states and meshes", "Exact identity over all states.",
  [DIA+": circulation_integral"])
p("Inviscid dynamics conserves energy",
  "Without viscosity, the derivative of energy_integral along the computed tendency is 0 for every state with nonzero vertex thickness.",
  "all nx, ny >= 2 and all states", "Exact cancellation between four terms for arbitrary fields; the test only bounds the drift of one run.",
  [MOD+": compute_vn_tendency", TT+"pv_flux_edge.hpp", TT+"ke_grad_edge.hpp", TT+"ssh_grad_edge.hpp", DIA+": energy_integral"])
p("The potential vorticity flux does no work",
  "For every state the sum over edges of dc*dv*(mean thickness)*(normal velocity)*(PV flux term) is 0 in each layer.",
  "all states", "Exact identity over all fields.",
  [TT+"pv_flux_edge.hpp"])
p("Lake at rest is steady",
  "If vn = 0 everywhere and h is the same nonzero constant per layer (and, where tracer diffusion is on, each tracer is constant per layer), every enabled tendency is exactly 0 over the reals and any number of steps of a stepper whose disabled tendencies hold zeros leaves the state unchanged.",
  "all meshes, all parameters, all constants, any number of steps", "Must hold for every mesh, parameter set and history.",
  [MOD, TT])
p("Uniform flow without rotation is steady",
  "If h is constant and vn is the normal component of a uniform velocity and f0 = 0 then all thickness and velocity tendencies are 0.",
  "all nx, ny >= 2, all (U,V), all h != 0, all viscosities", "Exact identity for all vectors.",
  [MOD, TT])
p("Uniform concentration is preserved",
  "If every tracer equals q times the thickness then its tendency equals q times the thickness tendency, and after any step of either stepper it still equals q times the thickness, whatever the diffusivities.",
  "all states with nonzero stage thickness, all q, all parameters, any number of steps", "A relational invariant over arbitrary histories.",
  [TT+"tracer_hadv_cell.hpp", AV+"tracer_aux.hpp"])
p("Tracer diffusion never increases tracer variance",
  "With nonnegative edge thickness and diffusivity, the area weighted sum of concentration times the diffusion tendency is <= 0, with equality only if neighbouring concentrations agree across every edge of positive thickness.",
  "all states", "Inequality over all fields.",
  [TT+"tracer_diff_cell.hpp"])
p("Viscosity and hyperviscosity never increase kinetic energy of the velocity field",
  "sum over edges of dc*dv*vn*(viscous tendency) <= 0 and sum of dc*dv*vn*(hyperviscous tendency) <= 0 for every velocity field, in the scalar build and in the explicit SIMD build with one lane. With explicit SIMD and more than one lane the hyperviscous part fails: there are velocity fields whose energy it increases.",
  "all velocity fields, nx, ny >= 2, nonnegative viscosities", "Inequality over all fields.",
  [TT+"vel_diff_edge.hpp", TT+"vel_hyperdiff_edge.hpp"])
p("The hyperviscosity length clamp is inert on hexagonal meshes",
  "max(dv_edge, 0.25*dc_edge) = dv_edge for every edge of every PlanarHexagonalMesh with dc > 0, and after every evaluation of the tendency with hyperviscosity the vector Laplacian left in the work array is the one computed with the unclamped edge length.",
  "all meshes, states, kernels and schedules", "All sizes and spacings.",
  [TT+"vel_hyperdiff_edge.hpp: compute_vel_del2"])
p("Positive thickness keeps every divisor nonzero",
  "If h > 0 in all cells of a layer then the edge thickness and vertex thickness computed from it are averages lying between the minimum and maximum of the adjacent cells, hence every division performed by compute_tendency in that layer has a nonzero divisor.",
  "all states with h > 0", "All fields.",
  [AV+"vorticity_aux.hpp", AV+"thickness_aux.hpp", AV+"tracer_aux.hpp"])
p("Optional terms are inert unless their coefficient is positive",
  "If visc_del2, visc_del4, eddy_diff2 or eddy_diff4 is <= 0 the corresponding term contributes nothing: the result is the same as for coefficient 0.",
  "all states and nonpositive coefficients", "All parameter values.",
  [MOD+": ShallowWaterModel::ShallowWaterModel"])
p("Exchanging mean and flux thickness is harmless",
  "m_mean_h_edge and m_flux_h_edge always hold identical values after the auxiliary computation, so the exchanged names in compute_tr_tendency do not change any result.",
  "all states", "All states.",
  [MOD+": compute_tr_tendency", AV+"thickness_aux.hpp"])
p("RK4Stepper is the classical Runge-Kutta method",
  "do_step(t,dt,state) sets state to y + dt/6*(k1+2k2+2k3+k4) with k1 = T(t,y), k2 = T(t+dt/2, y+dt/2 k1), k3 = T(t+dt/2, y+dt/2 k2), k4 = T(t+dt, y+dt k3) where T is the tendency including the additional_tendency hook, for thickness, velocity and tracers simultaneously, independent of the previous contents of the stepper's work arrays.",
  "all states, t, dt, forcings, parameters and schedules", "Functional equality for all inputs.",
  [RK4])
p("LSRKStepper is the 2N-storage scheme with its coefficient table",
  "do_step performs, for stage s, p := a_s p + T(t + c_s dt, y); y := y + dt b_s p for all prognostic variables with the published coefficients for nstages = 5 and forward Euler for nstages = 1.",
  "all states, t, dt, forcings, parameters and schedules", "Functional equality for all inputs.",
  [LSRK])
p("LSRK steps are history independent over the reals",
  "Because a_0 = 0 the result of do_step does not depend on the tendency left over from earlier steps.",
  "all previous contents of the work arrays", "Pairs of histories.",
  [LSRK])
p("A NaN in the LSRK work array never goes away in IEEE arithmetic",
  "In binary64 the same stepper object poisons every later step: if the leftover tendency of an entry is NaN, the state entry is NaN after any later do_step even if the state passed in is finite.",
  "all finite states, schedules and dt", "Needs a specific history (reuse of a stepper after blow up).",
  [LSRK])
p("LSRKStepper with an unsupported stage count does nothing",
  "For nstages >= 0 other than 1 and 5 do_step returns with the state unchanged (all coefficients are 0).",
  "all nstages, states and dt", "All stage counts.",
  [LSRK+": LSRKStepper::LSRKStepper"])
p("RK4 satisfies the order conditions",
  "The coefficients used by RK4Stepper satisfy all eight order conditions up to order four, and a step is exact for pure forcing that is a polynomial in time of degree at most 3.",
  "all cubic forcings, t, dt", "Exact over all polynomials.",
  [RK4])
p("LSRK5 satisfies the order conditions to 1e-25",
  "The five-stage coefficients satisfy all order conditions up to order four with residual below 1e-25, and the stage times c_s equal the row sums of the equivalent tableau up to 1e-25.",
  "all eight conditions", "A typo in one of the 26-digit coefficient pairs below the test tolerance would go unnoticed.",
  [LSRK])
p("Stage times stay inside the step",
  "Every time passed to additional_tendency during do_step(t, dt) lies in [t, t+dt] for dt >= 0.",
  "all t, dt >= 0", "All times.",
  [RK4, LSRK])
p("Disabled prognostic variables stay frozen",
  "With m_disable_h_tendency (resp. vn) and no additional tendency, any number of steps of a freshly constructed stepper leaves m_h_cell (resp. m_vn_edge) exactly unchanged over the reals; with ntracers = 0 no tracer element is accessed.",
  "all states, any number of steps", "Histories.",
  [MOD+": compute_tendency", RK4, LSRK])
p("Steps do not modify the mesh or the parameters",
  "No step of either stepper changes any mesh array or the Coriolis arrays; only the state passed in and the work arrays are written.",
  "all steps, all schedules", "Frame property over all executions.",
  [RK4, LSRK, MOD])
p("Diagnostics are schedule independent over the reals and count padding layers",
  "energy_integral and mass_integral equal the exact sums over all cells and all m_nlayers layers (including padding) for every reduction order Kokkos may choose.",
  "all states, all reduction trees and orders", "Reduction orders cannot be enumerated.",
  [DIA])
p("Results do not depend on f0 when the velocity tendency is disabled",
  "With m_disable_vn_tendency the thickness and tracer results of a step are the same for every value of f0 (which ShallowWaterParams leaves uninitialised), and m_drag_coeff never influences any result.",
  "all pairs of parameter sets differing in f0", "Noninterference over pairs of runs.",
  ["src/model/shallow_water_params.hpp: m_f0, m_drag_coeff", MOD])
p("Uniform flow on a rotating plane oscillates inertially, with the exact RK4 amplification",
  "For uniform flow (U,V) of uniform nonzero thickness the velocity tendency is exactly the normal component of (f0 V, -f0 U) and the thickness tendency is 0. One RK4Stepper step multiplies the velocity by the degree four Taylor polynomial of the rotation by f0*dt and keeps it uniform, so the speed never grows over any number of steps if |f0 dt| <= sqrt 8, and grows if |f0 dt| is larger.",
  "all meshes with nx, ny >= 2, all U, V, thicknesses, coefficients of viscosity, time steps and numbers of steps", "A test integrates one case for a fixed time; exactness and the stability limit are statements about all step sizes.",
  [TT+"pv_flux_edge.hpp", MESH+": m_weights_on_edge", RK4+": RK4Stepper::do_step"])
p("Whole programs are free of undefined behaviour and deterministic",
  "A program in the shape of benchmark/benchmark.cpp and the tests (construct mesh, model, state and stepper, fill the state from initial functions, then do any list of steps with either stepper) never accesses memory out of bounds, never races, terminates and leaves the same memory for every schedule. After the set-up the state holds the initial functions at the cell and edge points, with vn the component along the edge normal.",
  "all setups, initial functions, steppers, step lists and schedules, in any arithmetic", "All schedules and all inputs.",
  ["benchmark/benchmark.cpp: run", "test/double_vortex.cpp: run", "src/model/shallow_water_state.hpp: ShallowWaterState::ShallowWaterState"])
p("The time loop reaches timeend exactly",
  "numberofsteps = ceil(timeend / dt) and dt = timeend / numberofsteps give steps of at most the requested length, starting at 0, adjacent to each other and ending at timeend.",
  "all timeend, dt > 0 (exact arithmetic)", "All pairs.",
  ["test/double_vortex.cpp: run", "test/nonlinear_swe_convergence.cpp: run"])
p("The conservation checks of the double vortex program",
  "In exact arithmetic the relative changes of mass and circulation double_vortex checks at the end are well defined and 0 for every resolution, number of steps and step size, so these checks never throw. In binary64 the checks do not throw either if the final value is a NaN, whatever the tolerance.",
  "all nx, step lists, vector lengths; all initial values and tolerances", "The test runs one resolution; the blindness to NaN is invisible in a passing run.",
  ["test/double_vortex.cpp: run", DIA])
p("The double vortex initial state is balanced and periodic on its mesh",
  "The initial velocity is in geostrophic balance with the initial thickness and divergence free everywhere. The initial state has the periods of the mesh it is put on (true in x, refuted in y for every nx: the mesh is higher than m_ly, so the thickness jumps across the periodic boundary).",
  "all points, all nx", "Identities over all points.",
  ["test/double_vortex.cpp: DoubleVortex", MESH+": PlanarHexagonalMesh"])
p("The manufactured solution solves the forced shallow water equations",
  "h, vx, vy of nonlinear_swe_convergence satisfy the thickness and both momentum equations exactly with the forcing h_tend, vx_tend, vy_tend, and all six functions have the periods of the mesh for every resolution.",
  "all x, y, t, all resolutions", "A wrong forcing changes the convergence rate only when it exceeds the discretisation error.",
  ["test/nonlinear_swe_convergence.cpp: ManufacturedSolution"])
p("The exact solutions of the tracer tests solve their equations",
  "The functions the tracer tests compare with solve the advection equation in flux form, the diffusion equation with coefficient diff2 and the biharmonic equation with coefficient diff4. The thickness of the advection test does not solve the thickness equation.",
  "all x, y, t", "Identities over all points.",
  ["test/tracer_advection_convergence.cpp", "test/tracer_diffusion_convergence.cpp", "test/tracer_hyperdiffusion_convergence.cpp"])
p("The reference fields of operator_convergence are correct",
  "The exact gradient, divergence and curl are the derivatives of the fields the operators are applied to, and all have the periods Lx and Ly.",
  "all Lx, Ly > 0, all points", "Identities over all points.",
  ["test/operator_convergence.cpp"])
p("The tendency is the discrete shallow water equations",
  "compute_tendency leaves in the tendency arrays exactly the discrete thickness, momentum and tracer equations written with the discrete divergence, gradient, curl, mean and potential vorticity flux, including the viscous, diffusive and forcing terms, the disable switches and the add mode.",
  "all builds, meshes, states, parameters, add modes and schedules, exact arithmetic", "Every term and every combination of switches for every state.",
  [MOD+": compute_tendency", TT])
p("The operators approximate the differential operators",
  "On the values of a smooth field at the mesh points, gradient, edge mean, divergence and tangential reconstruction differ from the exact quantities by at most a constant times dc^2, and the curl by an explicit first order term (opposite at even and odd vertices) plus a constant times dc^2. The constants do not depend on the mesh.",
  "all smooth periodic fields, all constructed meshes with an even number of rows, all spacings, exact arithmetic", "operator_convergence measures the rate for one field on a few meshes.",
  [MESH, "test/operator_convergence.cpp"])
p("The tendency approximates the shallow water equations",
  "If the state samples smooth fields with thickness bounded away from zero, the inviscid thickness, velocity and tracer tendencies (with forcing and tracer diffusion) differ from the right hand sides of the continuous equations by at most a constant times dc^2, independent of the mesh.",
  "all smooth periodic fields, all meshes with an even number of rows, all parameters, builds and schedules, exact arithmetic", "Convergence tests look at one solution and need the error of the time stepping to be small.",
  [MOD+": compute_tendency", TT, "test/nonlinear_swe_convergence.cpp"])
p("The viscous term approximates the Laplacian of the velocity",
  "The viscous operator on samples of a smooth velocity tends to the normal component of the Laplacian as dc goes to 0. Refuted: it tends to the Laplacian minus a quarter of uyy - uxx + 2 vxy, with a sign that depends on the edge direction; for (cos kx, 0) it is at least 6/5 of the Laplacian on x facing edges of every mesh with 20 or more columns.",
  "all smooth periodic velocity fields, all meshes with an even number of rows, exact arithmetic", "No test measures the convergence of the viscous term.",
  ["src/model/tendency_terms/vel_diff_edge.hpp", AUX])
p("The model is translation equivariant",
  "On a translated state compute_tendency gives the translated tendency and any run of either stepper gives the translated state, bit for bit. The translations move every cell by a columns and b rows (on the torus a shift by (a + b/2) dc and b sqrt(3)/2 dc). With an odd number of rows only b = 0 is a symmetry; with b != 0 the claim is refuted on a 2 x 3 mesh.",
  "all a, b, states, parameters without position dependent forcing, builds, meshes, schedules, runs and arithmetics", "All states and shifts; a wrong index at the periodic boundary disturbs only flow that crosses it.",
  [MOD+": compute_tendency", MESH, "src/time_integration"])
p("Tracers are passive and independent",
  "The thickness, the velocity and every tracer end up bit for bit the same whatever other tracers are carried along: tracers may be added, dropped, permuted or duplicated.",
  "all tracer counts and maps between them, states, parameters, forcings, builds, meshes, schedules, runs and arithmetics", "All tracer counts and states.",
  [MOD+": compute_tendency", TT, "src/time_integration"])
p("The hyperviscous term approximates the biharmonic operator",
  "The hyperviscous operator on samples of a smooth velocity tends to the normal component of the biharmonic operator as dc goes to 0. Refuted: it diverges like 1/dc^2; dc^2 times it tends to 6 (uyy - uxx + 2 vxy) with a sign that depends on the edge direction, and for (cos kx, 0) the hyperviscous tendency is at least nx^2/12 times the exact one on the x facing edges.",
  "all smooth periodic velocity fields, all meshes with an even number of rows, all builds, exact arithmetic", "No test measures the convergence of the hyperviscous term; a stable run with too much dissipation looks plausible.",
  ["src/model/tendency_terms/vel_hyperdiff_edge.hpp", AUX])
p("Vorticity, potential vorticity and irrotational flow",
  "Without viscosity the vorticity of the velocity tendency is the curl of the potential vorticity flux alone: pressure and kinetic energy make no vorticity. A state with uniform potential vorticity has a tendency that keeps it uniform, as does one step of either stepper while the vertex thickness stays nonzero. Without rotation an irrotational state stays irrotational through every run, whatever the thickness and viscosity.",
  "all states, parameters, unforced models, builds, meshes with an even number of rows, schedules and runs, exact arithmetic", "All states and run lengths; a diagnostic would only see rounding sized noise or its growth.",
  [MOD+": compute_tendency", TT, AUX, "src/time_integration"])
p("Tracers superpose",
  "A tracer that starts as a linear combination of two other tracers has the same combination of their tendencies and stays that combination through any run of either stepper.",
  "all combinations, states, thicknesses, velocities, parameters, forcings, builds, meshes, schedules and runs, exact arithmetic", "All states and combinations.",
  [MOD+": compute_tendency", TT, "src/time_integration"])
p("Diffusion at rest obeys the maximum principle",
  "In a fluid at rest with uniform thickness the tracer stays between the bounds of its initial values through any run of either stepper whose step sizes satisfy 0 <= 4 kappa dt <= dc^2, without hyperdiffusion. For every larger step size one forward Euler step makes some nonnegative tracer negative; with advection every step size does (refuted there).",
  "all tracer fields, bounds, thicknesses, diffusivities, step sequences, stage counts, builds, meshes with at least two rows and columns, schedules, exact arithmetic", "All fields and run lengths; an overshoot can need one particular field.",
  ["src/model/tendency_terms/tracer_diff_cell.hpp", "src/time_integration", "test/tracer_diffusion_convergence.cpp"])
p("Plane waves of a tracer at rest decay as the discrete dispersion relation says",
  "A program that starts at rest with a uniform thickness and a plane wave in a tracer multiplies the wave in every step by the stability polynomial of the stepper at dt times (kappa2 Lam - kappa4 Lam^2), where Lam is the eigenvalue of the discrete Laplacian. Lam lies between -6/dc^2 and 0 and within dc^2 |k|^4 / 16 of -|k|^2, above it.",
  "all wave vectors that fit in the domain, amplitudes, phases, thicknesses, coefficients, step sequences, steppers, builds, meshes with an even number of rows, schedules, exact arithmetic", "All wave vectors and run lengths; a test looks at one wave.",
  ["src/model/tendency_terms/tracer_diff_cell.hpp", "src/model/tendency_terms/tracer_hyperdiff_cell.hpp", "src/time_integration", "test/tracer_diffusion_convergence.cpp"])
p("No plane wave of a tracer grows below the step size limit",
  "With dt (6 kappa2/dc^2 + 36 kappa4/dc^4) at most 2.78 (RK4), 4.5 (five stage LSRK) or 2 (one stage LSRK) no plane wave of a tracer in a fluid at rest exceeds its initial amplitude. The step size dc^4/(8 kappa4) of the hyperdiffusion test meets this with LSRK but not with RK4, where a short wave is multiplied by 8.52 in every step (refuted there).",
  "all wave vectors, coefficients, step sequences, builds, meshes with an even number of rows, schedules, exact arithmetic", "An unstable short wave starts from rounding errors and shows only after many steps.",
  ["src/time_integration", "test/tracer_hyperdiffusion_convergence.cpp", "src/model/tendency_terms/tracer_hyperdiff_cell.hpp"])
p("The tracer diffusion and hyperdiffusion tests pass",
  "On every n by n mesh with an even n >= 16 the programs end with a pointwise error of at most 11/n^2 (diffusion) and 21/n^2 (hyperdiffusion), the error norm has one possible value for every order of the reductions, and the rate computed from the meshes n and 2n is within 0.05 of 2, so check_rate succeeds.",
  "all even n >= 16, builds, schedules, reduction orders, values of the uninitialised Coriolis parameter, exact arithmetic", "The tests run for n = 16 only, in one build and schedule.",
  ["test/tracer_diffusion_convergence.cpp: run, main, check_rate", "test/tracer_hyperdiffusion_convergence.cpp: run, main, check_rate"])
p("Tracers in a steady flow are advanced by one linear operator",
  "If thickness and velocity have no tendency (fluid at rest, uniform flow, or both tendencies disabled), there is one linear operator per layer that gives the tracer tendency of all tracers; a run leaves thickness and velocity unchanged and every step applies the stability polynomial of the stepper (the Taylor polynomial of degree 4 for RK4, 1 + z for one stage LSRK) to dt times this operator.",
  "all steady states, tracers, parameters, step sequences, steppers, stage counts, builds, meshes, schedules, exact arithmetic", "All tracers and run lengths.",
  [MOD+": compute_tendency", TT, "src/time_integration"])
p("Plane waves of a tracer in a uniform flow follow the discrete dispersion relation",
  "A program that starts with uniform thickness and velocity (U, V) and tracers that are sums of plane waves keeps thickness and velocity and multiplies every wave in every step by the stability polynomial at dt (rate - i om). om is within dc^2 speed K^3 / 8 of the exact frequency U k1 + V k2 and at most speed K and 4/3 speed / dc.",
  "all velocities, finite sums of waves that fit in the domain, diffusivities, step sequences, steppers, builds, meshes with an even number of rows, schedules, without Coriolis force or with disabled velocity tendency, exact arithmetic", "All waves and run lengths; a test looks at one tracer.",
  ["src/model/tendency_terms/tracer_hadv_cell.hpp", "src/model/tendency_terms", "src/time_integration", "test/tracer_advection_convergence.cpp"])
p("Advection is stable under the CFL condition",
  "With dt (4/3) speed / dc at most 2 sqrt 2 (RK4) or 3.16 (five stage LSRK) the tracer in a uniform flow stays below the sum of the initial amplitudes of its waves (for LSRK up to a factor 1 + 2e-23 per step). With one stage LSRK every step size amplifies a wave in every step (refuted there).",
  "all velocities, sums of waves, step sequences, builds, meshes with an even number of rows, schedules, exact arithmetic", "An instability starts from rounding errors and shows only after many steps.",
  ["src/time_integration", "src/model/tendency_terms/tracer_hadv_cell.hpp"])
p("Advection by a uniform flow converges to the exact solution",
  "Under the CFL condition the tracer after N steps differs from the initial tracer moved along by the flow by at most the sum over its waves of amplitude times T (dc^2 speed K^3 / 8 + dt^4 (speed K)^5 / 100), plus 1e-22 per step for LSRK.",
  "all velocities, finite sums of waves, step sizes, numbers of steps, RK4 and five stage LSRK, builds, meshes with an even number of rows, schedules, exact arithmetic", "A convergence test looks at one field and one sequence of meshes.",
  ["test/tracer_advection_convergence.cpp", "src/model", "src/time_integration", MESH])
p("The operator convergence test passes, and its errors are known",
  "Each level of the test runs without data races or accesses outside a view and its four maximum reductions return a number. On every n by n mesh with an even n >= 48 the errors of gradient, divergence and tangential reconstruction are within 3 per cent below 7/12 pi^3/n^2, (21+14 sqrt 3)/36 pi^3/n^2 and (69+4 sqrt 3)/72 pi^2/n^2; the error of the curl is within 2 per cent of (12+sqrt 3)/18 pi^2/n, so the curl is first order only. The rates computed from the meshes n and 2n are within 0.05 of 2, 2, 1 and 2, so check_rate succeeds.",
  "safety: all arithmetics, mesh sizes, builds, schedules and reduction orders; errors and verdict: all even n >= 48, builds, schedules, reduction orders, exact arithmetic", "The test checks the last rate of one sequence of meshes, in one build and schedule.",
  ["test/operator_convergence.cpp: error_gradient, error_divergence, error_curl, error_reconstruction, run, check_rate", MESH])
p("Small disturbances of the fluid at rest obey the linear shallow water equations",
  "The fluid at rest with uniform layers has no tendency and stays. The derivative of a run with respect to a disturbance of it is obtained by applying, in every step, the stability polynomial of the stepper to dt times the linear shallow water operator of the mesh (rotation, gravity, both viscosities); the same for the tendency and for whole programs that start with thickness H + x eta and velocity x (vx, vy).",
  "all disturbances, nonzero layer thicknesses, parameters, step sequences, steppers, builds, meshes, schedules, exact arithmetic", "A derivative is a statement about infinitely many runs; all disturbances and run lengths.",
  [MOD+": compute_tendency", AUX, TT, "src/time_integration"])
p("No small disturbance of the fluid at rest gains energy under the CFL condition",
  "Without viscosity and with |dt| (sqrt(6 g Hmax)/dc + |f|) at most sqrt 8 in every step, the energy of a disturbance does not grow with RK4 and at most by the factor 1 + 1e-22 per step with five stage LSRK. With one stage LSRK every disturbance that is not stationary gains energy in every step, however short (refuted there).",
  "all disturbances, rotations, layer thicknesses, step sequences, builds, meshes with at least two columns and an even number of rows, schedules, exact arithmetic", "An instability starts from rounding errors and shows only after many steps.",
  ["src/time_integration", MOD, TT])
p("Geostrophic balance is exactly stationary and potential vorticity stays",
  "Without viscosity a disturbance with velocity the rotated gradient of a stream function of the vertices and thickness -f/g times its mean over the vertices of each cell does not change in any run. The potential vorticity zeta - (f/H) eta of any disturbance does not change at any vertex of any layer.",
  "all stream functions, disturbances, layer thicknesses, step sequences of any size, steppers, builds, meshes with at least two columns and an even number of rows, schedules, exact arithmetic", "All flows and run lengths; a wrong weight makes balanced flows drift slowly.",
  [MESH, MOD, TT, "src/time_integration"])
p("Gravity waves follow the discrete dispersion relation and converge",
  "Without rotation and viscosity every step multiplies the complex amplitude of a gravity wave by the stability polynomial at -i om dt with om^2 = -g H Lam, Lam the eigenvalue of the discrete Laplacian. Programs that start at rest with thickness H + x cos(k.r + theta) end, to first order in x, within T (dc^2 sqrt(gH) K^3/16 + dt^4 (sqrt(gH) K)^5/100) of the exact standing wave, plus 1e-22 per step for LSRK, under the CFL condition dt sqrt(6 g H)/dc <= 2 sqrt 2 (RK4) or 3.16 (five stage LSRK).",
  "all waves that fit in the domain, thicknesses, gravities, step sizes, numbers of steps, builds, meshes with at least two columns and an even number of rows, schedules, exact arithmetic", "A convergence test looks at one wave and one sequence of meshes.",
  ["src/model", "src/time_integration", MESH])
p("The tangential reconstruction never gains energy",
  "The tangential velocity reconstructed by the weights of the mesh has at most the sum of squares of the normal velocity it is made from.",
  "all velocity fields, meshes with an even number of rows, builds, exact arithmetic", "All velocity fields.",
  [MESH])
p("Rounding creates or destroys at most a few units in the last place of mass per cell and step",
  "In binary64, as long as the thicknesses of a layer stay finite and at most Hb and its velocities at most Vb, the total thickness of the layer (summed exactly) changes in n steps of size at most Db by at most n ncells 2^-53 Hb (4 + 29 Db Vb/dc) with RK4 and n ncells 2^-53 Hb (5 + 353 Db Vb/dc) with five stage LSRK; the computed tendencies add up to at most 25 ncells 2^-53 Hb Vb/dc. When the velocity is not advanced the bounds on the intermediate states follow from the first state.",
  "all states, step sequences, parameters, builds, meshes with at least two rows and columns, schedules; binary64 arithmetic with dc between 2^-200 and 2^200, any platform cos, sin and pi", "Rounding errors depend on every bit of the state; a test compares one run with a tolerance found by trial.",
  [MOD+": compute_tendency", TT, AUX, "src/time_integration"])
p("A lake at rest stays at rest bit for bit in floating point",
  "In binary64, when every cell of a layer holds the same thickness and every velocity is a zero, every later state holds the same bits in every cell and a zero (of either sign) at every edge, after any steps of RK4 or LSRK. Tracers that are uniform in a layer keep their bits too (a zero stays a zero), with diffusion and hyperdiffusion.",
  "all thicknesses per layer, dc between 2^-100 and 2^100, parameters up to 2^100, step sizes up to 2^200, tracers, builds, mesh sizes, schedules; binary64 arithmetic, any platform cos, sin and pi", "The claim is about every bit of every thickness, mesh size and parameter; a reordered or contracted expression would break it for some of them only.",
  [MOD+": compute_tendency", TT, AUX, "src/time_integration"])
p("Tracers carried by any steady flow converge to the transport equation",
  "A tracer carried by a flow that is not advanced, over any positive thickness, differs after N steps from the solution of u_t + (uU)_x + (uV)_y = 0 by at most C (dc^2 + dt^4) in the root mean square over the cells of a layer (plus C 1e-25 for LSRK), under dt vmax <= dc. C is an explicit formula in bounds on the data; such bounds exist at all spacings at once for every smooth flow and solution, in particular for every smooth tracer in a uniform velocity over any smooth thickness.",
  "all smooth flows, thicknesses varying by a factor of at most 4 over dc, solutions, step sizes, numbers of steps, RK4 and five stage LSRK, builds, meshes with at least two columns and an even number of rows, schedules, exact arithmetic", "A convergence test looks at one flow and one sequence of meshes; stability of centred transport over variable thickness is not visible in short runs.",
  ["src/model", "src/time_integration", MESH])
p("The error of the tracer advection test decreases like 1/n^2",
  "On every n by n mesh with an even n >= 8 the program of the test ends with a root mean square error of at most C/n^2, with C an explicit formula in bounds on the data of the test, and the error it reports has one possible value for every order of the reduction.",
  "all even n >= 8, builds, schedules, reduction orders, values of the uninitialised Coriolis parameter, exact arithmetic", "The test runs for n = 50 and n = 100 only, in one build and schedule.",
  ["test/tracer_advection_convergence.cpp: run"])
p("Inertia-gravity waves and geostrophic adjustment follow the rotating equations",
  "With rotation, every step multiplies the complex amplitude of an inertia-gravity wave by the stability polynomial at -i om dt, om^2 = f^2 Mu - g H Lam with Mu and Lam explicit in the wave number, and keeps its potential vorticity. The frequencies are never above the exact ones, at most the factor 1 - 5/24 dc^2 K^2 below (in om^2) and never zero. Programs that start at rest with thickness H + x cos(k.r + theta) end, to first order in x, within 5/6 dc^2 K^2 + T (5/24 dc^2 K^2 Om + dt^4 Om^5/100) of the exact adjustment (f^2 + g H K^2 cos(Om T))/Om^2, Om^2 = f^2 + g H K^2, plus 1e-22 per step for LSRK, under dt (sqrt(6 g H)/dc + |f|) <= 2 sqrt 2 (RK4) or 3.16 (five stage LSRK).",
  "all waves that fit in the domain, rotations, thicknesses, gravities, step sizes, numbers of steps, builds, meshes with at least two columns and an even number of rows, schedules, exact arithmetic", "The adjusted state is reached through waves of every frequency; a test looks at one wave, one rotation and one sequence of meshes.",
  [MESH, MOD, TT, "src/time_integration"])
p("A run has no preferred units, layers or build",
  "Two programs that solve the same problem in different units (lengths times L > 0, times times T <> 0, thicknesses times H <> 0, each tracer times a factor; gravity, rotation, viscosities, diffusivities, forcing, initial data and steps converted) end in the same state in these units, in every layer. From arbitrary states, if every layer of one state equals some layer of another this remains so after every run, whatever the numbers of layers, vector lengths and builds (with hyperviscosity in a vectorised build, if the first layer of each vector corresponds too). With T = -1 this is reversibility: reversing velocities and rotation runs the inviscid model backwards step by step.",
  "all pairs of setups related by a change of units, builds, numbers of layers, steppers, stage counts, step sequences, initial data, meshes, schedules; exact arithmetic", "A term with a missing length or time factor is invisible in a test that uses one set of units; the claim compares all of them.",
  [MESH, MOD, TT, AUX, "src/time_integration"])
p("The convergence tests have one verdict",
  "For each mesh size the nonlinear and the tracer advection convergence test end without undefined behaviour, with the same root mean square error e in every layer, build and schedule; the function run returns sqrt(nlayers) e (nlayers is 1 rounded up to the vector length) for every order of the reduction, and the rate that main compares with 2 is the same number for all of them, and for every value of the Coriolis parameter that the advection test leaves uninitialised.",
  "all mesh sizes, build configurations, vector lengths, schedules, reduction orders, values of the uninitialised parameter; exact arithmetic", "The test runs in one build and schedule; that it would report the same elsewhere is a claim about all of them.",
  ["test/nonlinear_swe_convergence.cpp: run, main", "test/tracer_advection_convergence.cpp: run, main"])
p("A run has no preferred orientation",
  "If one program is the mirror image of another (x, y or both reversed, so also a half turn; velocity and force components change sign accordingly, the rotation changes sign if one axis is reversed), the final states are mirror images: to each cell belongs a cell at the mirrored position with the same thickness and tracers in the other run, to each edge one at the mirrored position whose velocity is the same up to the orientation of its normal. In particular symmetric flows stay symmetric.",
  "all periodic initial data and forcing, parameters, steppers, stage counts, step sequences, builds, numbers of layers, meshes with at least two columns and an even number of rows, schedules; exact arithmetic", "A sign error at one kind of edge or one reconstruction weight is small in a smooth test; the claim compares every flow with its mirror image.",
  [MESH, MOD, TT, AUX, "src/time_integration"])
p("Runs converge to the solution of the discrete equations as the time step goes to zero",
  "If functions of time (thickness, velocity, tracers on all cells, edges and layers, thickness positive) have on [0, T] the time derivatives that compute_tendency computes from them, all terms and forcing included, then for some C and all N >= C every run of N steps of size T/N from their values at time 0 ends with every value within C/N of the functions at time T. For the five stage LSRK stepper the derivatives are w times the tendencies, |w - 1| <= 1e-25, w being the sum of its rounded weights.",
  "all solutions with positive thickness, times, parameters, forcings with a bounded rate of change, RK4, one and five stage LSRK, builds, meshes, schedules, numbers of steps; exact arithmetic", "A test compares runs with a few step sizes; that the limit exists, and is the solution of the equations coded in the tendencies, is a claim about all of them.",
  [MOD+": compute_tendency", TT, "src/time_integration"])
p("The RK4 stepper converges with order four on the full discrete equations",
  "If functions of time (thickness, velocity, tracers, thickness positive) have on [0, T] the time derivatives that compute_tendency computes from them, all terms and forcing included, and the forcing has four time derivatives, the fourth bounded, then for some C and all N >= C every run of N RK4 steps of size T/N from their values at time 0 ends with every value within C/N^4 of the functions at time T.",
  "all solutions with positive thickness (no smoothness of the solution is assumed), times, parameters, smooth forcings, builds, meshes, schedules, numbers of steps; exact arithmetic", "A convergence test estimates an order from a few runs of one case; the order holds for all solutions only if all eight order conditions hold and every stage sees the right state at the right time.",
  [MOD+": compute_tendency", TT, "src/time_integration"])
p("The discrete equations have exactly one solution from every state with positive thickness",
  "From every state with positive thickness there are functions of time, with those values at time 0 and positive thickness on some [0, T], whose time derivatives are what compute_tendency computes from them; two such solutions that agree at time 0 agree on the whole interval. Hence, with no assumption on solutions, there are a time T and fields such that all RK4 runs to T from that state with N >= C steps end within C/N^4 of those fields.",
  "all states with positive thickness, parameters, forcings with bounded rate of change (four derivatives for the statement about runs), builds, meshes, schedules, numbers of steps; exact arithmetic", "Existence, uniqueness and limits over all step sizes cannot be observed in finitely many runs.",
  [MOD+": compute_tendency", TT, "src/time_integration"])
p("The energy change of a run is an error of the time stepping only",
  "Without viscosity and forcing, the total energy that energy_integral returns is constant along every solution of the discrete equations, and N steps of size T/N from a state with positive thickness change it by at most C/N^4 with RK4 (C/N with the LSRK steppers) for some C and all N >= C; for RK4 some such T exists for every state with positive thickness.",
  "all states and solutions with positive thickness, meshes with at least two cells in each direction, builds, parameters without viscosity, schedules, numbers of steps; exact arithmetic", "A test sees a small change of energy; that all of it vanishes with the time step, at fourth order, is a claim about all step sizes and states.",
  [MOD+": compute_tendency, energy_integral", TT, "src/time_integration"])
p("RK4 runs depend continuously on the initial state, uniformly in the number of steps",
  "Along a solution of the discrete equations with positive thickness on [0, T]: for some C and all N >= C, N RK4 steps of size T/N from a state within e <= 1/C of the solution's initial values end within C (e + 1/N^4) of the solution at T, and two such runs from states that differ by at most d end in states that differ by at most C d.",
  "all solutions with positive thickness, initial states within 1/C of theirs, parameters, smooth forcings, builds, meshes, schedules, numbers of steps; exact arithmetic", "A test compares two runs; that the amplification of a perturbation is bounded independently of the number of steps and of the perturbation is a claim about all of them.",
  [MOD+": compute_tendency", TT, "src/time_integration: RK4"])
p("Runs without viscosity, diffusion and forcing can be undone by running with reversed velocities and rotation",
  "Without viscosity, diffusion and forcing: run N RK4 steps of size T/N, reverse all velocities and the sign of f0, run N more steps of the same size, reverse the velocities again. For some C and all N >= C the result differs from the initial state by at most C/N^4 in every thickness, velocity and tracer value; from every state with positive thickness this holds for some T > 0, and for every T up to which the discrete equations have a solution with positive thickness.",
  "all states with positive thickness, parameters without viscosity and diffusion, builds (the way back may use another one), meshes, schedules, numbers of steps; exact arithmetic", "A test can undo one run; that nothing in the tendencies has a preferred direction of time, so that the discrepancy vanishes with the fourth power of the step, is a claim about all states and step sizes.",
  [MOD+": compute_tendency", TT, "src/time_integration: RK4"])
p("Advection conserves the variance of tracer concentrations, diffusion reduces it",
  "With concentration r = q/h, the rate of change of the area integral of h r^2 that the computed tendencies imply is exactly minus twice the diffusivity times the sum over edges of dc dv h (grad r)^2, for every velocity. Along every solution of the discrete equations the integral never increases and is constant without diffusion; N steps of size T/N increase it by at most C/N^4 with RK4 and C/N with the LSRK steppers (and without diffusion decrease it by no more), for some C and all N >= C.",
  "all states, tracers, layers, velocities, parameters without hyperdiffusion and mass source and with the thickness tendency enabled, meshes with at least two cells in each direction, builds, schedules, numbers of steps; the statements about solutions and runs for positive thickness; exact arithmetic", "The identity needs the thickness in the flux, the means of the concentration on edges and the divergence to fit together for all fields; a test sees one flow, in which a small spurious source of variance is not distinguishable from truncation error.",
  [MOD+": compute_tendency (tracer advection and diffusion)", TT, "src/time_integration"])
p("Hyperdiffusion reduces the variance of tracers where the thickness is uniform, but not in general",
  "In a layer of uniform thickness the hyperdiffusion part of the tracer tendency never increases the variance of the concentration, and with a positive coefficient and thickness leaves it unchanged only if the concentration is the same on both sides of every edge. For varying thickness this fails: on every mesh with at least four columns and for every positive coefficient there are states at rest, with positive thickness and bounded nonnegative concentrations, in which hyperdiffusion increases the variance of every tracer in every layer.",
  "all concentrations, states, tracers, layers, modes, parameters, builds, schedules, meshes with at least two rows and columns (at least four columns for the refutation); exact arithmetic", "The hyperdiffusion test of the project has uniform thickness. Both a sign for all fields and the existence of a field with the wrong sign on every mesh are beyond it.",
  ["src/model/tendency_terms/tracer_hyperdiff_cell.hpp", AUX+": tracer del2", MOD+": compute_tracer_tendency"])
p("Tracer diffusion converges with second order in every cell",
  "A program started at rest with uniform thickness, whose initial tracer is the initial value of a periodic solution of the diffusion equation with bounded derivatives, run for any number of steps with RK4, forward Euler or five stage LSRK and a time step with 4 kappa dt <= dc^2, ends with every cell within kappa T M (57 dc^2 + 8 slack) of the solution at the final time T, where M bounds the derivatives of the solution up to order five and slack is 0 for RK4 and Euler and 1e-25 for five stage LSRK (its coefficients are decimal fractions).",
  "all solutions, meshes with at least two columns and an even number of rows, spacings, diffusivities, time steps within the bound, numbers of steps, tracers, layers, other parameters, builds, schedules; exact arithmetic", "The test of the project measures an average error for one wave and two meshes. An estimate of the largest error that holds for all solutions and meshes is not a matter of samples.",
  ["src/model/tendency_terms/tracer_diff_cell.hpp", MOD+": compute_tracer_tendency", "src/time_integration/rk4.cpp", "src/time_integration/lsrk.cpp", "test/tracer_diffusion_convergence.cpp"])
p("Rounding creates or destroys tracer only at the level of the last bits",
  "In binary64 arithmetic, with advection, diffusion and hyperdiffusion of a tracer in any combination, the total of the tracer over a layer drifts per step by at most ncells 2^-53 Hb Rb (4 + 11 Db rate) with RK4 and ncells 2^-53 Hb Rb (5 + 128 Db rate) with five stage LSRK, where Hb, Vb, Rb bound thickness, speed and concentration, Db the step, and rate = 4 Vb/dc + 8 K2/dc^2 + 64 K4/dc^4, as long as these bounds hold during the run; with the thickness and velocity equations disabled, bounds on the initial state suffice for an explicit number of steps, nothing becomes infinite or NaN, and the bounds persist.",
  "all initial states within the bounds, diffusivities up to 2^100, dc between 2^-100 and 2^100, step sizes, numbers of steps, mesh sizes, tracers, layers, builds, schedules; binary64 arithmetic, any platform cos, sin and pi", "The tests compare totals with a tolerance for a few runs; how much tracer rounding can create in any run follows only from an error analysis of every operation.",
  ["src/model/tendency_terms/tracer_hadv_cell.hpp", "src/model/tendency_terms/tracer_diff_cell.hpp", "src/model/tendency_terms/tracer_hyperdiff_cell.hpp", MOD+": compute_tracer_tendency", "src/time_integration/rk4.cpp", "src/time_integration/lsrk.cpp"])
p("In double precision, tracer diffusion follows the diffusion equation up to an explicit bound",
  "Run in binary64 arithmetic, fluid at rest, a thickness that is uniform in each layer, diffusion the only tracer term switched on besides the vanishing advection, and a fixed time step with 4 kappa dt <= dc^2: whatever smooth periodic solution the tracer starts from, after N steps every cell holds a finite number that differs from the solution of the diffusion equation at its centre by at most e0 + kappa N dt M 57 dc^2 + N 850 2^-53 B with RK4, and e0 + kappa N dt M (57 dc^2 + 8e-25) + N 8700 2^-53 B with five stage LSRK, where e0 is the error of the initial values, M bounds the derivatives of the solution and B/2 the initial tracer; N may be up to 2^53/1700 (RK4) or 2^53/17400 (LSRK).",
  "all smooth periodic solutions, diffusivities, cell widths and thicknesses between 2^-100 and 2^100, step sizes within the bound, numbers of steps, mesh sizes with an even number of rows, tracers, layers, builds, schedules; binary64 arithmetic, any platform cos, sin and pi", "A convergence test checks a few meshes against one solution and cannot tell the error of the method from the error of rounding; that the sum of both stays below one bound for every run needs the error analysis of every operation and the maximum principle.",
  ["src/model/tendency_terms/tracer_diff_cell.hpp", MOD+": compute_tracer_tendency", "src/time_integration/rk4.cpp: do_step", "src/time_integration/lsrk.cpp: do_step", "src/mesh/planar_hexagonal_mesh.cpp"])
p("Thickness stays positive under a bound on speed, step and thickness ratio, and under no Courant condition alone",
  "A forward Euler step (one stage LSRK) from a state whose layer thicknesses lie between a > 0 and b and whose speeds are at most V leaves every thickness of the layer positive if 4 V b dt < dc a. No bound on V dt / dc alone suffices: for every mesh, step size and speed bound there is a state with positive thickness everywhere and slower flow from which one Euler step, and in the advection problem one RK4 step, makes the thickness of a cell negative.",
  "all states within the bounds, step sizes, speeds, mesh sizes, cell widths, layers, physical parameters, builds, schedules", "A test with smooth fields never comes near a dry cell; the sufficient bound and the failure for every Courant number quantify over all states and steps.",
  ["src/model/tendency_terms/thickness_hadv_cell.hpp", "src/model/auxiliary_vars/thickness_aux.hpp", "src/time_integration/lsrk.cpp: do_step", "src/time_integration/rk4.cpp: do_step"])
p("Diffusion and hyperdiffusion never increase the mean square of a tracer at rest, and hyperdiffusion converges with second order",
  "A program started at rest with uniform thickness and any tracer fields, with diffusion and hyperdiffusion each on or off, run for any steps with dt (6 kappa2 / dc^2 + 36 kappa4 / dc^4) <= lim (2.78 for RK4, 4.5 for five stage LSRK, 2 for forward Euler): in no layer does the sum over the cells of the square of a tracer exceed its initial value. If only hyperdiffusion is on and the initial tracer is the initial value of a periodic solution of u_t = -kappa4 Lap Lap u with bounded derivatives, the root mean square over the cells of the error after N such steps of size dt is at most kappa4 T M (3600 dc^2 + 2 dc^4 + 64 slack), T = N dt, where M bounds the derivatives up to order ten and slack is 0 for RK4 and Euler and 1e-25 for five stage LSRK.",
  "all initial tracers (for convergence: all solutions), meshes with at least two columns and an even number of rows, spacings, diffusivities, time steps within the bound (the hyperdiffusion test runs exactly at it), numbers of steps, tracers, layers, other parameters, builds, schedules; exact arithmetic", "The hyperdiffusion test runs one wave on two meshes, exactly at the edge of stability. That no other field grows there, and that the error is second order for all solutions, cannot be sampled.",
  ["src/model/tendency_terms/tracer_diff_cell.hpp", "src/model/tendency_terms/tracer_hyperdiff_cell.hpp", AUX+": tracer del2", MOD+": compute_tracer_tendency", "src/time_integration/rk4.cpp: do_step", "src/time_integration/lsrk.cpp: do_step", "test/tracer_hyperdiffusion_convergence.cpp"])
p("Diffusion mixes every tracer at rest, at a rate that does not depend on the resolution",
  "A program started at rest with uniform thickness and any tracer fields, run for any steps with dt (6 kappa2 / dc^2 + 36 kappa4 / dc^4) <= 1 with RK4, five stage LSRK or forward Euler: in every layer the sum over the cells of (tracer - mean)^2, where mean is the initial mean of the tracer, is at most exp(-4/5 (kappa2 lambda + kappa4 lambda^2) T) times its initial value, where T is the time covered, lambda = 2/(3 L^2) and L = dc max(nx, ny).",
  "all initial tracers, meshes with at least two columns and an even number of rows, spacings, diffusivities (either may be off), time steps within the bound, numbers of steps, tracers, layers, other parameters, builds, schedules; exact arithmetic", "A field that the scheme cannot see (a checkerboard, a stripe) would never be mixed; that no such field exists on any mesh, and a rate that holds for all of them, cannot be sampled.",
  ["src/model/tendency_terms/tracer_diff_cell.hpp", "src/model/tendency_terms/tracer_hyperdiff_cell.hpp", AUX+": tracer del2", MOD+": compute_tracer_tendency", "src/time_integration/rk4.cpp: do_step", "src/time_integration/lsrk.cpp: do_step", "src/mesh/planar_hexagonal_mesh.cpp"])
p("The energy budget: viscosity is the only source or sink, it dissipates in layers of uniform thickness and not in general",
  "With both equations on and no forcing, the derivative of energy_integral along the computed tendency equals the work of viscosity and hyperviscosity: the sum over layers and edges of dc dv times the mean thickness of the two cells times the velocity times the difference between the velocity tendencies computed with and without viscosity. Where each layer has a uniform non-negative thickness this derivative is never positive (scalar kernels or one lane, or no hyperviscosity). In general it is not so: on every mesh of at least 4 by 2 cells and for every positive viscosity there is a state with thickness at least 1 and speeds at most 1 whose energy grows.",
  "all states, physical parameters, mesh sizes with at least two rows and columns, cell widths, layers, builds, schedules; exact arithmetic", "A viscous run whose energy falls is no evidence for other states; the balance is an exact cancellation for arbitrary fields and the growing state exists on every mesh, however fine.",
  [MOD+": compute_vn_tendency", "src/model/tendency_terms/vel_diff_edge.hpp", "src/model/tendency_terms/vel_hyperdiff_edge.hpp", "src/model/tendency_terms/pv_flux_edge.hpp", "src/model/tendency_terms/thickness_hadv_cell.hpp", "src/model/shallow_water_diagnostics.cpp: energy_integral"])
p("The only flows without divergence and vorticity are the uniform ones, and viscosity damps every other flow",
  "The divergence at the cells and the vorticity at the vertices that the model computes vanish throughout a layer if and only if the velocity of the layer is that of a uniform flow, vn = U cos(angle) + V sin(angle). Hence with positive viscosity or hyperviscosity, both equations on, no forcing and a uniform positive thickness in each layer, the derivative of energy_integral along the computed tendency is never positive, and it is zero if and only if the flow is uniform in every layer (scalar kernels or one lane, or no hyperviscosity).",
  "all velocity fields and layers, numbers of columns >= 2, even numbers of rows, cell widths, physical parameters, builds, schedules; exact arithmetic", "A velocity pattern that the discrete operators cannot see would persist or grow in long runs without any single test exciting it; that none exists on any mesh is a statement about the kernel of the operators for every size.",
  [AUX+": velocity divergence, relative vorticity", MOD+": compute_vn_tendency", "src/model/tendency_terms/vel_diff_edge.hpp", "src/model/tendency_terms/vel_hyperdiff_edge.hpp", "src/mesh/planar_hexagonal_mesh.cpp", "src/model/shallow_water_diagnostics.cpp: energy_integral"])
p("Fluid at rest stays at rest only if every layer is flat and every diffusing tracer is uniform",
  "With both equations on, gravity non-zero and no forcing, take any state without motion and with positive layer thickness. The tendencies computed for a layer (thickness, velocity, every tracer) are all zero if and only if the thickness of the layer is the same in every cell and, when diffusion or hyperdiffusion is on, the content of every tracer is the same in every cell. Where the thickness varies, the tendency of a diffusing tracer is zero if and only if its concentration (content per thickness) is the same in every cell.",
  "all states at rest, thicknesses, tracers, layers, physical parameters with gravity non-zero, diffusivities, mesh sizes with at least two rows and columns, cell widths, builds, schedules; exact arithmetic", "That a flat state is steady can be tested; that no other state is - no surface pattern without pressure gradient and no tracer pattern without flux, on any mesh - is a statement about the kernels of the discrete gradient and of the sum of both diffusion operators.",
  ["src/model/tendency_terms/ssh_grad_edge.hpp", "src/model/tendency_terms/tracer_diff_cell.hpp", "src/model/tendency_terms/tracer_hyperdiff_cell.hpp", MOD+": compute_tendency", "src/mesh/planar_hexagonal_mesh.cpp"])
p("With viscosity the only steady flows in layers of uniform thickness are uniform flow, and with rotation rest",
  "With positive viscosity or hyperviscosity, both equations on, no forcing and a uniform positive thickness in each layer, the computed tendencies of thickness and velocity are zero in every layer if and only if the velocity of every layer is that of a uniform flow, vn = U cos(angle) + V sin(angle), and the Coriolis parameter is zero or U = V = 0 (scalar kernels or one lane, or no hyperviscosity).",
  "all velocity fields, thicknesses, layers, numbers of columns >= 2, even numbers of rows, cell widths, physical parameters, builds, schedules; exact arithmetic", "That uniform flow is steady can be tested; that no other field is, for instance one in which viscosity balances the nonlinear terms, is a statement about the zeros of a nonlinear operator on meshes of every size.",
  [MOD+": compute_tendency", "src/model/tendency_terms/vel_diff_edge.hpp", "src/model/tendency_terms/vel_hyperdiff_edge.hpp", "src/model/tendency_terms/pv_flux_edge.hpp", "src/model/tendency_terms/ke_grad_edge.hpp", "src/mesh/planar_hexagonal_mesh.cpp"])
p("Of all states with the same mass, flat rest has the least energy, and the excess bounds every deviation",
  "For any state with positive thickness and gravity, let E and M be the results of energy_integral and mass_integral and mean = M / (layers times total cell area). Then E >= g mean M / 2, with equality if and only if every thickness equals mean and every velocity is zero; and in every cell and layer g area (thickness - mean)^2 <= 2 (E - g mean M / 2).",
  "all states with positive thickness, mesh sizes, cell widths, layers, physical parameters with positive gravity, orders of summation; exact arithmetic", "A diagnostic with a wrong factor between its two parts can still be conserved in a test run; that it is a norm of the distance from rest, which makes its conservation a statement about stability, holds or fails for all fields together.",
  ["src/model/shallow_water_diagnostics.cpp: energy_integral, mass_integral", "src/mesh/planar_hexagonal_mesh.cpp"])
p("Small disturbances of flat rest stay small, and the layer never runs dry, as long as the solution exists",
  "Without viscosity and forcing, with both equations on and positive gravity, take any solution of the discrete equations on [0, T] whose thickness is positive at time 0. Let E and M be the results of energy_integral and mass_integral at time 0, mean = M / (layers times total cell area) and excess = E - g mean M / 2. If 2 excess < g area mean^2, area being that of one cell, then at all times in [0, T] and in all cells and layers the thickness is positive and g area (thickness - mean)^2 <= 2 excess. Nothing is assumed about the thickness after time 0.",
  "all solutions and times, initial states with positive thickness and small excess of energy, mesh sizes of at least 2 by 2, cell widths, layers, physical parameters with positive gravity and no viscosity, orders of summation; exact arithmetic, continuous time", "A simulation shows one disturbance up to one time. That no disturbance below a given size can ever dry out a cell follows only from conservation of energy and mass together with the least energy of rest.",
  [MOD+": compute_tendency", "src/model/shallow_water_diagnostics.cpp: energy_integral, mass_integral", "src/mesh/planar_hexagonal_mesh.cpp"])


if __name__ == "__main__":
    with open("/verif/properties.jsonl", "w") as f:
        for q in P:
            f.write(json.dumps(q) + "\n")
    print(len(P))
