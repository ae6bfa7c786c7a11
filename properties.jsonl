{"id": "C01", "title": "Mesh construction is memory safe, race free and deterministic", "statement": "Constructing PlanarHexagonalMesh(nx, ny, dc, nlayers) with nx, ny >= 1 and 3*nx*ny representable as Int never indexes an array outside its extents, never overflows Int, never makes two concurrently executing iterations of one parallel_for touch the same element with one of them writing, and leaves the same contents in every connectivity and metric array whatever order the iterations are executed or interleaved in.", "quantifier": "all nx, ny, dc, nlayers in range and every interleaving of the individual loads and stores of all iterations of every parallel_for of the constructor", "why_tests_cant": "Races and out-of-bounds indices depend on mesh size and thread schedule; a test runs a handful of sizes under one schedule.", "anchors": ["src/mesh/planar_hexagonal_mesh.cpp: PlanarHexagonalMesh::compute_mesh_arrays", "src/mesh/mpas_mesh.cpp: MPASMesh::finalize_mesh", "src/common.hpp: omega_parallel_for"]}
{"id": "C02", "title": "Integer limits of the constructor are exactly the Int range of the edge count", "statement": "For nx, ny >= 1 the sizes m_ncells, m_nedges, m_nvertices are nx*ny, 3*nx*ny, 2*nx*ny, and the signed arithmetic that computes them is defined exactly when 3*nx*ny <= 2^31-1; beyond that the constructor has undefined behaviour.", "quantifier": "all positive 32 bit nx, ny", "why_tests_cant": "The overflow only happens for meshes far larger than any test allocates.", "anchors": ["src/mesh/planar_hexagonal_mesh.cpp: PlanarHexagonalMesh::PlanarHexagonalMesh"]}
{"id": "C03", "title": "Every edge is shared by exactly two cell sides", "statement": "In the built mesh every edge e occurs exactly twice among all pairs (cell, local edge): once as local edge 0..2 of m_cells_on_edge(e,1) and once as local edge 3..5 of m_cells_on_edge(e,0); conversely each of the six edges listed for a cell has that cell as one of its two cells.", "quantifier": "every nx, ny >= 1, every edge and every cell", "why_tests_cant": "Incidence is a global bijection over all mesh sizes; tests only look at convergence rates.", "anchors": ["src/mesh/planar_hexagonal_mesh.cpp: edge_on_cell, compute_mesh_arrays"]}
{"id": "C04", "title": "Edge signs orient every edge out of one cell and into the other", "statement": "For nx, ny >= 2, m_edge_sign_on_cell is +1 exactly at local edges 3..5 and -1 at local edges 0..2, so the two sides of an edge always carry opposite signs. (For nx = 1 or ny = 1 a cell is its own neighbour and both sides carry +1.)", "quantifier": "every nx, ny >= 2, every cell and local edge; and the degenerate sizes", "why_tests_cant": "Must hold at the periodic seam of every mesh size.", "anchors": ["src/mesh/mpas_mesh.cpp: finalize_cell", "src/mesh/planar_hexagonal_mesh.cpp: edge_on_cell"]}
{"id": "C05", "title": "Vertex incidence is consistent", "statement": "Every vertex has three distinct edges and three distinct cells; each edge listed for a vertex has that vertex as one of its two (distinct) end points, each (edge, end point) pair is listed exactly once over all vertices, each cell listed for a vertex lists that vertex as one of its six corners, and m_edge_sign_on_vertex is -1 at the edge's end point 0 and +1 at its end point 1.", "quantifier": "every nx, ny >= 2, every vertex, edge and cell", "why_tests_cant": "A global bijection over unbounded mesh sizes including the periodic seam.", "anchors": ["src/mesh/planar_hexagonal_mesh.cpp: vertex_on_cell, compute_mesh_arrays", "src/mesh/mpas_mesh.cpp: finalize_vertex"]}
{"id": "C06", "title": "kite_index_on_cell inverts cells_on_vertex", "statement": "For nx, ny >= 2, every cell c and corner j: m_cells_on_vertex(m_vertices_on_cell(c,j), m_kite_index_on_cell(c,j)) = c, and no other slot of that vertex holds c.", "quantifier": "every nx, ny >= 2, every cell and corner", "why_tests_cant": "The search loop keeps the last match, so correctness needs uniqueness on every mesh size.", "anchors": ["src/mesh/mpas_mesh.cpp: finalize_cell"]}
{"id": "C07", "title": "Cell adjacency is reciprocal exactly when ny is even", "statement": "For nx, ny >= 2, the neighbour lists satisfy 'm_cells_on_cell(m_cells_on_cell(c,j), (j+3) mod 6) = c for all c, j' if and only if ny is even. With odd ny (as in test/double_vortex with its default arguments, ny = 29) the lists are not reciprocal at the seam.", "quantifier": "every nx, ny >= 2, every cell and neighbour number", "why_tests_cant": "Depends on the parity of ny and on the seam rows only.", "anchors": ["src/mesh/planar_hexagonal_mesh.cpp: cell_on_cell", "test/double_vortex.cpp: run"]}
{"id": "C08", "title": "Geometry of the torus is consistent with the connectivity (even ny)", "statement": "For even ny the centre of m_cells_on_edge(e,1) equals the centre of m_cells_on_edge(e,0) plus dc*(cos m_angle_edge, sin m_angle_edge) modulo the periods, the edge point is the midpoint of the two centres modulo the periods, the corner m_vertices_on_edge(e,1) equals m_vertices_on_edge(e,0) plus dv*(-sin, cos) modulo the periods, and every vertex is at distance dc/sqrt(3) from its three cells modulo the periods.", "quantifier": "every nx >= 2, even ny >= 2, dc > 0, every edge and vertex", "why_tests_cant": "Must hold at every seam cell of every mesh size, in exact real arithmetic.", "anchors": ["src/mesh/planar_hexagonal_mesh.cpp: compute_cell_arrays, compute_edge_arrays"]}
{"id": "C09", "title": "Areas partition the domain", "statement": "The kite areas of a vertex sum to its triangle area, the six kites of a cell sum to the cell area, and total cell area = total triangle area = period_x * period_y = sum over edges of dc*dv/2.", "quantifier": "every nx, ny >= 1 and dc", "why_tests_cant": "Exact real identities over all sizes.", "anchors": ["src/mesh/planar_hexagonal_mesh.cpp: compute_cell_arrays, compute_vertex_arrays"]}
{"id": "C10", "title": "Tangential weights are antisymmetric", "statement": "If edge e' occurs in the list of e with weight w through a shared cell then e occurs in the list of e' through the same cell with weight -w.", "quantifier": "every nx, ny >= 2 and every pair of neighbouring edges", "why_tests_cant": "All 30 hand written table rows must be consistent with each other on every mesh.", "anchors": ["src/mesh/planar_hexagonal_mesh.cpp: m_edges_on_edge, m_weights_on_edge tables"]}
{"id": "C11", "title": "Tangential reconstruction is exact for uniform vector fields", "statement": "For any constant vector (U,V), with input_e = U cos(angle_e) + V sin(angle_e), the weighted sum over m_edges_on_edge is exactly -U sin(angle_e) + V cos(angle_e).", "quantifier": "every mesh, every edge, every (U,V) in the reals", "why_tests_cant": "Exact identity in real arithmetic for all vectors; the test only measures a convergence rate.", "anchors": ["src/mesh/planar_hexagonal_mesh.cpp: weights tables, scale_weights", "test/operator_convergence.cpp: error_reconstruction"]}
{"id": "C12", "title": "Discrete curl of a gradient vanishes exactly when ny is even", "statement": "With G_e = (phi(cell1)-phi(cell0))/dc_e the circulation of G around every vertex is 0 for every cell field phi if and only if ny is even.", "quantifier": "every nx >= 2, ny >= 1, every cell field and vertex", "why_tests_cant": "Quantifies over all fields; breaks only at the seam for odd ny.", "anchors": ["src/mesh/planar_hexagonal_mesh.cpp: edges_on_vertex, cells_on_edge", "src/mesh/mpas_mesh.cpp"]}
{"id": "C13", "title": "Discrete divergence of a rotated gradient vanishes (even ny)", "statement": "With R_e = (psi(vertex1)-psi(vertex0))/dv_e the divergence of R in every cell is 0 for every vertex field psi when ny is even.", "quantifier": "every nx >= 2, even ny, every vertex field and cell", "why_tests_cant": "Quantifies over all fields and seam cells.", "anchors": ["src/mesh/planar_hexagonal_mesh.cpp: vertices_on_edge, edges_on_cell", "src/mesh/mpas_mesh.cpp"]}
{"id": "C14", "title": "Curl of the reconstructed tangential flow is the kite-weighted divergence (even ny)", "statement": "For every edge field u, the circulation around a vertex of the reconstructed tangential field equals minus the kite-area weighted sum of the divergences of u in the three cells of the vertex (so geostrophically balanced linear modes are steady).", "quantifier": "every nx >= 2, even ny, every edge field and vertex", "why_tests_cant": "Identity over arbitrary fields at every vertex.", "anchors": ["src/mesh/planar_hexagonal_mesh.cpp: weights tables"]}
{"id": "C15", "title": "Layer padding", "statement": "m_nlayers is the least multiple of the vector length that is >= the requested nlayers, m_nlayers_vec * vector_length = m_nlayers, and (kchunk,kvec) -> kchunk*vector_length+kvec enumerates each layer exactly once.", "quantifier": "every nlayers >= 1 and vector length >= 1", "why_tests_cant": "Ranges over all layer counts and vector lengths.", "anchors": ["src/mesh/planar_hexagonal_mesh.cpp: PlanarHexagonalMesh::PlanarHexagonalMesh", "src/common.hpp: vector_length"]}
{"id": "C16", "title": "compute_tendency is memory safe, race free and deterministic", "statement": "On a built mesh, ShallowWaterModel::compute_tendency with tend and state distinct performs no out-of-bounds access, no Int overflow and no data race in any of its parallel_for launches, for every build flavour (scalar or explicit SIMD with lane count = vector_length, fused or split kernels), every parameter set and add mode, and its result does not depend on the schedule.", "quantifier": "all meshes, states, parameters, add modes, build flavours and all interleavings", "why_tests_cant": "Schedules and sizes cannot be enumerated.", "anchors": ["src/model/shallow_water_model.cpp: compute_tendency", "src/model/shallow_water_auxstate.cpp: compute"]}
{"id": "C17", "title": "NO_SIMD together with KOKKOS_SIMD is unsafe", "statement": "If the explicit SIMD kernels are built with vector_length different from the lane count (OMEGA_NO_SIMD and OMEGA_KOKKOS_SIMD both on, lanes > 1), every mesh and every layer count makes compute_tendency access memory out of bounds.", "quantifier": "every mesh, layer count and lane count > 1", "why_tests_cant": "Tests are built in one configuration.", "anchors": ["src/common.hpp: vector_length", "src/model/auxiliary_vars/kinetic_aux.hpp", "CMakeLists.txt"]}
{"id": "C18", "title": "Vectorised kernels compute the per-layer scalar formula bit for bit", "statement": "In the scalar build, the value compute_tendency leaves in layer k of every cell/edge/tracer is given by a formula that does not mention vector_length, in the same operation order, for any interpretation of the floating point operations (in particular IEEE binary64).", "quantifier": "all vector lengths, states and floating point semantics", "why_tests_cant": "Ranges over all vector lengths and all values including NaN and infinities.", "anchors": ["src/model/tendency_terms/", "src/model/auxiliary_vars/"]}
{"id": "C19", "title": "Explicit SIMD kernels agree with the scalar kernels except hyperviscosity", "statement": "Over the reals the KOKKOS_SIMD kernels leave the same tendencies as the scalar kernels whenever hyperviscosity is off or vector_length = 1; with hyperviscosity on and vector_length > 1 there are states where they differ (lane 0 of the Laplacian is broadcast in compute_vel_del2_rvort).", "quantifier": "all meshes, states, parameters and vector lengths", "why_tests_cant": "The two builds are never compared by the tests, which use one layer.", "anchors": ["src/model/tendency_terms/vel_hyperdiff_edge.hpp: compute_vel_del2_rvort (OMEGA_KOKKOS_SIMD)"]}
{"id": "C20", "title": "Fused and split kernel launches agree bit for bit", "statement": "Building with OMEGA_NO_INNER_IF leaves exactly the same tendencies as the default build, for any floating point semantics.", "quantifier": "all meshes, states, parameters, add modes, floating point semantics", "why_tests_cant": "The two builds are never compared.", "anchors": ["src/model/shallow_water_model.cpp: compute_h_tendency, compute_vn_tendency, compute_tr_tendency"]}
{"id": "C21", "title": "Layers are independent", "statement": "In the scalar build the tendencies of layer k depend only on layer k of the state: two states that agree in layer k get identical tendencies in layer k, so garbage (NaN included) in padding layers cannot leak into requested layers.", "quantifier": "all pairs of states agreeing in a layer, any floating point semantics", "why_tests_cant": "A noninterference property over pairs of runs.", "anchors": ["src/model/shallow_water_model.cpp", "src/model/shallow_water_auxstate.cpp"]}
{"id": "C22", "title": "AddMode contract", "statement": "With AddMode::replace the resulting tendency does not depend on the previous contents of tend; with AddMode::increment the result is (over the reals) the previous contents plus the replace-mode result. This holds for every component whose tendency is enabled.", "quantifier": "all states, previous tendencies, parameters", "why_tests_cant": "Quantifies over all previous contents.", "anchors": ["src/model/shallow_water_model.hpp: AddMode", "src/model/shallow_water_model.cpp"]}
{"id": "C23", "title": "Disabled tendencies are never reset", "statement": "With m_disable_h_tendency, replace mode leaves the previous contents of tend.m_h_cell in place; a model with an additional_tendency then accumulates it, and one RK4 step with constant forcing does not advance h by dt*forcing.", "quantifier": "all previous contents; existence of the failing history", "why_tests_cant": "Needs the combination of a disabled term, a user hook and several stages.", "anchors": ["src/model/shallow_water_model.cpp: compute_tendency", "src/time_integration/rk4.cpp"]}
{"id": "C24", "title": "Thickness tendency conserves mass", "statement": "For every state the area weighted sum over cells of the thickness tendency is 0 in every layer.", "quantifier": "all nx, ny >= 2, all states (no positivity needed), all layers", "why_tests_cant": "Exact identity over all fields.", "anchors": ["src/model/tendency_terms/thickness_hadv_cell.hpp"]}
{"id": "C25", "title": "Mass is conserved by any number of steps of either stepper", "statement": "mass_integral is unchanged (over the reals) by any sequence of RK4Stepper or LSRKStepper steps with any time steps.", "quantifier": "all initial states, all dt sequences, any number of steps, all schedules", "why_tests_cant": "Histories of unbounded length.", "anchors": ["src/time_integration/rk4.cpp", "src/time_integration/lsrk.cpp", "src/model/shallow_water_diagnostics.cpp: mass_integral"]}
{"id": "C26", "title": "Tracer content is conserved by any number of steps", "statement": "For every tracer and layer the area weighted sum of m_tr_cell is unchanged by any sequence of steps of either stepper, with advection, diffusion and hyperdiffusion on or off.", "quantifier": "all states with h != 0 at the stages, all parameters, any number of steps", "why_tests_cant": "Histories of unbounded length over all states.", "anchors": ["src/model/tendency_terms/tracer_hadv_cell.hpp", "src/model/tendency_terms/tracer_diff_cell.hpp", "src/model/tendency_terms/tracer_hyperdiff_cell.hpp"]}
{"id": "C27", "title": "Total circulation is a constant of the mesh", "statement": "circulation_integral of every state equals m_nlayers * f0 * period_x * period_y, whatever the velocities.", "quantifier": "all states and meshes", "why_tests_cant": "Exact identity over all states.", "anchors": ["src/model/shallow_water_diagnostics.cpp: circulation_integral"]}
{"id": "C28", "title": "Inviscid dynamics conserves energy", "statement": "Without viscosity, the derivative of energy_integral along the computed tendency is 0 for every state with nonzero vertex thickness.", "quantifier": "all nx, ny >= 2 and all states", "why_tests_cant": "Exact cancellation between four terms for arbitrary fields; the test only bounds the drift of one run.", "anchors": ["src/model/shallow_water_model.cpp: compute_vn_tendency", "src/model/tendency_terms/pv_flux_edge.hpp", "src/model/tendency_terms/ke_grad_edge.hpp", "src/model/tendency_terms/ssh_grad_edge.hpp", "src/model/shallow_water_diagnostics.cpp: energy_integral"]}
{"id": "C29", "title": "The potential vorticity flux does no work", "statement": "For every state the sum over edges of dc*dv*(mean thickness)*(normal velocity)*(PV flux term) is 0 in each layer.", "quantifier": "all states", "why_tests_cant": "Exact identity over all fields.", "anchors": ["src/model/tendency_terms/pv_flux_edge.hpp"]}
{"id": "C30", "title": "Lake at rest is steady", "statement": "If vn = 0 everywhere and h is the same nonzero constant per layer (and, where tracer diffusion is on, each tracer is constant per layer), every enabled tendency is exactly 0 over the reals and any number of steps of a stepper whose disabled tendencies hold zeros leaves the state unchanged.", "quantifier": "all meshes, all parameters, all constants, any number of steps", "why_tests_cant": "Must hold for every mesh, parameter set and history.", "anchors": ["src/model/shallow_water_model.cpp", "src/model/tendency_terms/"]}
{"id": "C31", "title": "Uniform flow without rotation is steady", "statement": "If h is constant and vn is the normal component of a uniform velocity and f0 = 0 then all thickness and velocity tendencies are 0.", "quantifier": "all nx, ny >= 2, all (U,V), all h != 0, all viscosities", "why_tests_cant": "Exact identity for all vectors.", "anchors": ["src/model/shallow_water_model.cpp", "src/model/tendency_terms/"]}
{"id": "C32", "title": "Uniform concentration is preserved", "statement": "If every tracer equals q times the thickness then its tendency equals q times the thickness tendency, and after any step of either stepper it still equals q times the thickness, whatever the diffusivities.", "quantifier": "all states with nonzero stage thickness, all q, all parameters, any number of steps", "why_tests_cant": "A relational invariant over arbitrary histories.", "anchors": ["src/model/tendency_terms/tracer_hadv_cell.hpp", "src/model/auxiliary_vars/tracer_aux.hpp"]}
{"id": "C33", "title": "Tracer diffusion never increases tracer variance", "statement": "With nonnegative edge thickness and diffusivity, the area weighted sum of concentration times the diffusion tendency is <= 0, with equality only if neighbouring concentrations agree across every edge of positive thickness.", "quantifier": "all states", "why_tests_cant": "Inequality over all fields.", "anchors": ["src/model/tendency_terms/tracer_diff_cell.hpp"]}
{"id": "C34", "title": "Viscosity and hyperviscosity never increase kinetic energy of the velocity field", "statement": "sum over edges of dc*dv*vn*(viscous tendency) <= 0 and sum of dc*dv*vn*(hyperviscous tendency) <= 0 for every velocity field, in the scalar build and in the explicit SIMD build with one lane. With explicit SIMD and more than one lane the hyperviscous part fails: there are velocity fields whose energy it increases.", "quantifier": "all velocity fields, nx, ny >= 2, nonnegative viscosities", "why_tests_cant": "Inequality over all fields.", "anchors": ["src/model/tendency_terms/vel_diff_edge.hpp", "src/model/tendency_terms/vel_hyperdiff_edge.hpp"]}
{"id": "C35", "title": "The hyperviscosity length clamp is inert on hexagonal meshes", "statement": "max(dv_edge, 0.25*dc_edge) = dv_edge for every edge of every PlanarHexagonalMesh with dc > 0, and after every evaluation of the tendency with hyperviscosity the vector Laplacian left in the work array is the one computed with the unclamped edge length.", "quantifier": "all meshes, states, kernels and schedules", "why_tests_cant": "All sizes and spacings.", "anchors": ["src/model/tendency_terms/vel_hyperdiff_edge.hpp: compute_vel_del2"]}
{"id": "C36", "title": "Positive thickness keeps every divisor nonzero", "statement": "If h > 0 in all cells of a layer then the edge thickness and vertex thickness computed from it are averages lying between the minimum and maximum of the adjacent cells, hence every division performed by compute_tendency in that layer has a nonzero divisor.", "quantifier": "all states with h > 0", "why_tests_cant": "All fields.", "anchors": ["src/model/auxiliary_vars/vorticity_aux.hpp", "src/model/auxiliary_vars/thickness_aux.hpp", "src/model/auxiliary_vars/tracer_aux.hpp"]}
{"id": "C37", "title": "Optional terms are inert unless their coefficient is positive", "statement": "If visc_del2, visc_del4, eddy_diff2 or eddy_diff4 is <= 0 the corresponding term contributes nothing: the result is the same as for coefficient 0.", "quantifier": "all states and nonpositive coefficients", "why_tests_cant": "All parameter values.", "anchors": ["src/model/shallow_water_model.cpp: ShallowWaterModel::ShallowWaterModel"]}
{"id": "C38", "title": "Exchanging mean and flux thickness is harmless", "statement": "m_mean_h_edge and m_flux_h_edge always hold identical values after the auxiliary computation, so the exchanged names in compute_tr_tendency do not change any result.", "quantifier": "all states", "why_tests_cant": "All states.", "anchors": ["src/model/shallow_water_model.cpp: compute_tr_tendency", "src/model/auxiliary_vars/thickness_aux.hpp"]}
{"id": "C39", "title": "RK4Stepper is the classical Runge-Kutta method", "statement": "do_step(t,dt,state) sets state to y + dt/6*(k1+2k2+2k3+k4) with k1 = T(t,y), k2 = T(t+dt/2, y+dt/2 k1), k3 = T(t+dt/2, y+dt/2 k2), k4 = T(t+dt, y+dt k3) where T is the tendency including the additional_tendency hook, for thickness, velocity and tracers simultaneously, independent of the previous contents of the stepper's work arrays.", "quantifier": "all states, t, dt, forcings, parameters and schedules", "why_tests_cant": "Functional equality for all inputs.", "anchors": ["src/time_integration/rk4.cpp"]}
{"id": "C40", "title": "LSRKStepper is the 2N-storage scheme with its coefficient table", "statement": "do_step performs, for stage s, p := a_s p + T(t + c_s dt, y); y := y + dt b_s p for all prognostic variables with the published coefficients for nstages = 5 and forward Euler for nstages = 1.", "quantifier": "all states, t, dt, forcings, parameters and schedules", "why_tests_cant": "Functional equality for all inputs.", "anchors": ["src/time_integration/lsrk.cpp"]}
{"id": "C41", "title": "LSRK steps are history independent over the reals", "statement": "Because a_0 = 0 the result of do_step does not depend on the tendency left over from earlier steps.", "quantifier": "all previous contents of the work arrays", "why_tests_cant": "Pairs of histories.", "anchors": ["src/time_integration/lsrk.cpp"]}
{"id": "C42", "title": "A NaN in the LSRK work array never goes away in IEEE arithmetic", "statement": "In binary64 the same stepper object poisons every later step: if the leftover tendency of an entry is NaN, the state entry is NaN after any later do_step even if the state passed in is finite.", "quantifier": "all finite states, schedules and dt", "why_tests_cant": "Needs a specific history (reuse of a stepper after blow up).", "anchors": ["src/time_integration/lsrk.cpp"]}
{"id": "C43", "title": "LSRKStepper with an unsupported stage count does nothing", "statement": "For nstages >= 0 other than 1 and 5 do_step returns with the state unchanged (all coefficients are 0).", "quantifier": "all nstages, states and dt", "why_tests_cant": "All stage counts.", "anchors": ["src/time_integration/lsrk.cpp: LSRKStepper::LSRKStepper"]}
{"id": "C44", "title": "RK4 satisfies the order conditions", "statement": "The coefficients used by RK4Stepper satisfy all eight order conditions up to order four, and a step is exact for pure forcing that is a polynomial in time of degree at most 3.", "quantifier": "all cubic forcings, t, dt", "why_tests_cant": "Exact over all polynomials.", "anchors": ["src/time_integration/rk4.cpp"]}
{"id": "C45", "title": "LSRK5 satisfies the order conditions to 1e-25", "statement": "The five-stage coefficients satisfy all order conditions up to order four with residual below 1e-25, and the stage times c_s equal the row sums of the equivalent tableau up to 1e-25.", "quantifier": "all eight conditions", "why_tests_cant": "A typo in one of the 26-digit coefficient pairs below the test tolerance would go unnoticed.", "anchors": ["src/time_integration/lsrk.cpp"]}
{"id": "C46", "title": "Stage times stay inside the step", "statement": "Every time passed to additional_tendency during do_step(t, dt) lies in [t, t+dt] for dt >= 0.", "quantifier": "all t, dt >= 0", "why_tests_cant": "All times.", "anchors": ["src/time_integration/rk4.cpp", "src/time_integration/lsrk.cpp"]}
{"id": "C47", "title": "Disabled prognostic variables stay frozen", "statement": "With m_disable_h_tendency (resp. vn) and no additional tendency, any number of steps of a freshly constructed stepper leaves m_h_cell (resp. m_vn_edge) exactly unchanged over the reals; with ntracers = 0 no tracer element is accessed.", "quantifier": "all states, any number of steps", "why_tests_cant": "Histories.", "anchors": ["src/model/shallow_water_model.cpp: compute_tendency", "src/time_integration/rk4.cpp", "src/time_integration/lsrk.cpp"]}
{"id": "C48", "title": "Steps do not modify the mesh or the parameters", "statement": "No step of either stepper changes any mesh array or the Coriolis arrays; only the state passed in and the work arrays are written.", "quantifier": "all steps, all schedules", "why_tests_cant": "Frame property over all executions.", "anchors": ["src/time_integration/rk4.cpp", "src/time_integration/lsrk.cpp", "src/model/shallow_water_model.cpp"]}
{"id": "C49", "title": "Diagnostics are schedule independent over the reals and count padding layers", "statement": "energy_integral and mass_integral equal the exact sums over all cells and all m_nlayers layers (including padding) for every reduction order Kokkos may choose.", "quantifier": "all states, all reduction trees and orders", "why_tests_cant": "Reduction orders cannot be enumerated.", "anchors": ["src/model/shallow_water_diagnostics.cpp"]}
{"id": "C50", "title": "Results do not depend on f0 when the velocity tendency is disabled", "statement": "With m_disable_vn_tendency the thickness and tracer results of a step are the same for every value of f0 (which ShallowWaterParams leaves uninitialised), and m_drag_coeff never influences any result.", "quantifier": "all pairs of parameter sets differing in f0", "why_tests_cant": "Noninterference over pairs of runs.", "anchors": ["src/model/shallow_water_params.hpp: m_f0, m_drag_coeff", "src/model/shallow_water_model.cpp"]}
{"id": "C51", "title": "Uniform flow on a rotating plane oscillates inertially, with the exact RK4 amplification", "statement": "For uniform flow (U,V) of uniform nonzero thickness the velocity tendency is exactly the normal component of (f0 V, -f0 U) and the thickness tendency is 0. One RK4Stepper step multiplies the velocity by the degree four Taylor polynomial of the rotation by f0*dt and keeps it uniform, so the speed never grows over any number of steps if |f0 dt| <= sqrt 8, and grows if |f0 dt| is larger.", "quantifier": "all meshes with nx, ny >= 2, all U, V, thicknesses, coefficients of viscosity, time steps and numbers of steps", "why_tests_cant": "A test integrates one case for a fixed time; exactness and the stability limit are statements about all step sizes.", "anchors": ["src/model/tendency_terms/pv_flux_edge.hpp", "src/mesh/planar_hexagonal_mesh.cpp: m_weights_on_edge", "src/time_integration/rk4.cpp: RK4Stepper::do_step"]}
{"id": "C52", "title": "Whole programs are free of undefined behaviour and deterministic", "statement": "A program in the shape of benchmark/benchmark.cpp and the tests (construct mesh, model, state and stepper, fill the state from initial functions, then do any list of steps with either stepper) never accesses memory out of bounds, never races, terminates and leaves the same memory for every schedule. After the set-up the state holds the initial functions at the cell and edge points, with vn the component along the edge normal.", "quantifier": "all setups, initial functions, steppers, step lists and schedules, in any arithmetic", "why_tests_cant": "All schedules and all inputs.", "anchors": ["benchmark/benchmark.cpp: run", "test/double_vortex.cpp: run", "src/model/shallow_water_state.hpp: ShallowWaterState::ShallowWaterState"]}
{"id": "C53", "title": "The time loop reaches timeend exactly", "statement": "numberofsteps = ceil(timeend / dt) and dt = timeend / numberofsteps give steps of at most the requested length, starting at 0, adjacent to each other and ending at timeend.", "quantifier": "all timeend, dt > 0 (exact arithmetic)", "why_tests_cant": "All pairs.", "anchors": ["test/double_vortex.cpp: run", "test/nonlinear_swe_convergence.cpp: run"]}
{"id": "C54", "title": "The conservation checks of the double vortex program", "statement": "In exact arithmetic the relative changes of mass and circulation double_vortex checks at the end are well defined and 0 for every resolution, number of steps and step size, so these checks never throw. In binary64 the checks do not throw either if the final value is a NaN, whatever the tolerance.", "quantifier": "all nx, step lists, vector lengths; all initial values and tolerances", "why_tests_cant": "The test runs one resolution; the blindness to NaN is invisible in a passing run.", "anchors": ["test/double_vortex.cpp: run", "src/model/shallow_water_diagnostics.cpp"]}
{"id": "C55", "title": "The double vortex initial state is balanced and periodic on its mesh", "statement": "The initial velocity is in geostrophic balance with the initial thickness and divergence free everywhere. The initial state has the periods of the mesh it is put on (true in x, refuted in y for every nx: the mesh is higher than m_ly, so the thickness jumps across the periodic boundary).", "quantifier": "all points, all nx", "why_tests_cant": "Identities over all points.", "anchors": ["test/double_vortex.cpp: DoubleVortex", "src/mesh/planar_hexagonal_mesh.cpp: PlanarHexagonalMesh"]}
{"id": "C56", "title": "The manufactured solution solves the forced shallow water equations", "statement": "h, vx, vy of nonlinear_swe_convergence satisfy the thickness and both momentum equations exactly with the forcing h_tend, vx_tend, vy_tend, and all six functions have the periods of the mesh for every resolution.", "quantifier": "all x, y, t, all resolutions", "why_tests_cant": "A wrong forcing changes the convergence rate only when it exceeds the discretisation error.", "anchors": ["test/nonlinear_swe_convergence.cpp: ManufacturedSolution"]}
{"id": "C57", "title": "The exact solutions of the tracer tests solve their equations", "statement": "The functions the tracer tests compare with solve the advection equation in flux form, the diffusion equation with coefficient diff2 and the biharmonic equation with coefficient diff4. The thickness of the advection test does not solve the thickness equation.", "quantifier": "all x, y, t", "why_tests_cant": "Identities over all points.", "anchors": ["test/tracer_advection_convergence.cpp", "test/tracer_diffusion_convergence.cpp", "test/tracer_hyperdiffusion_convergence.cpp"]}
{"id": "C58", "title": "The reference fields of operator_convergence are correct", "statement": "The exact gradient, divergence and curl are the derivatives of the fields the operators are applied to, and all have the periods Lx and Ly.", "quantifier": "all Lx, Ly > 0, all points", "why_tests_cant": "Identities over all points.", "anchors": ["test/operator_convergence.cpp"]}
{"id": "C59", "title": "The tendency is the discrete shallow water equations", "statement": "compute_tendency leaves in the tendency arrays exactly the discrete thickness, momentum and tracer equations written with the discrete divergence, gradient, curl, mean and potential vorticity flux, including the viscous, diffusive and forcing terms, the disable switches and the add mode.", "quantifier": "all builds, meshes, states, parameters, add modes and schedules, exact arithmetic", "why_tests_cant": "Every term and every combination of switches for every state.", "anchors": ["src/model/shallow_water_model.cpp: compute_tendency", "src/model/tendency_terms/"]}
{"id": "C60", "title": "The operators approximate the differential operators", "statement": "On the values of a smooth field at the mesh points, gradient, edge mean, divergence and tangential reconstruction differ from the exact quantities by at most a constant times dc^2, and the curl by an explicit first order term (opposite at even and odd vertices) plus a constant times dc^2. The constants do not depend on the mesh.", "quantifier": "all smooth periodic fields, all constructed meshes with an even number of rows, all spacings, exact arithmetic", "why_tests_cant": "operator_convergence measures the rate for one field on a few meshes.", "anchors": ["src/mesh/planar_hexagonal_mesh.cpp", "test/operator_convergence.cpp"]}
{"id": "C61", "title": "The tendency approximates the shallow water equations", "statement": "If the state samples smooth fields with thickness bounded away from zero, the inviscid thickness, velocity and tracer tendencies (with forcing and tracer diffusion) differ from the right hand sides of the continuous equations by at most a constant times dc^2, independent of the mesh.", "quantifier": "all smooth periodic fields, all meshes with an even number of rows, all parameters, builds and schedules, exact arithmetic", "why_tests_cant": "Convergence tests look at one solution and need the error of the time stepping to be small.", "anchors": ["src/model/shallow_water_model.cpp: compute_tendency", "src/model/tendency_terms/", "test/nonlinear_swe_convergence.cpp"]}
{"id": "C62", "title": "The viscous term approximates the Laplacian of the velocity", "statement": "The viscous operator on samples of a smooth velocity tends to the normal component of the Laplacian as dc goes to 0. Refuted: it tends to the Laplacian minus a quarter of uyy - uxx + 2 vxy, with a sign that depends on the edge direction; for (cos kx, 0) it is at least 6/5 of the Laplacian on x facing edges of every mesh with 20 or more columns.", "quantifier": "all smooth periodic velocity fields, all meshes with an even number of rows, exact arithmetic", "why_tests_cant": "No test measures the convergence of the viscous term.", "anchors": ["src/model/tendency_terms/vel_diff_edge.hpp", "src/model/shallow_water_auxstate.cpp"]}
{"id": "C63", "title": "The model is translation equivariant", "statement": "On a translated state compute_tendency gives the translated tendency and any run of either stepper gives the translated state, bit for bit. The translations move every cell by a columns and b rows (on the torus a shift by (a + b/2) dc and b sqrt(3)/2 dc). With an odd number of rows only b = 0 is a symmetry; with b != 0 the claim is refuted on a 2 x 3 mesh.", "quantifier": "all a, b, states, parameters without position dependent forcing, builds, meshes, schedules, runs and arithmetics", "why_tests_cant": "All states and shifts; a wrong index at the periodic boundary disturbs only flow that crosses it.", "anchors": ["src/model/shallow_water_model.cpp: compute_tendency", "src/mesh/planar_hexagonal_mesh.cpp", "src/time_integration"]}
{"id": "C64", "title": "Tracers are passive and independent", "statement": "The thickness, the velocity and every tracer end up bit for bit the same whatever other tracers are carried along: tracers may be added, dropped, permuted or duplicated.", "quantifier": "all tracer counts and maps between them, states, parameters, forcings, builds, meshes, schedules, runs and arithmetics", "why_tests_cant": "All tracer counts and states.", "anchors": ["src/model/shallow_water_model.cpp: compute_tendency", "src/model/tendency_terms/", "src/time_integration"]}
{"id": "C65", "title": "The hyperviscous term approximates the biharmonic operator", "statement": "The hyperviscous operator on samples of a smooth velocity tends to the normal component of the biharmonic operator as dc goes to 0. Refuted: it diverges like 1/dc^2; dc^2 times it tends to 6 (uyy - uxx + 2 vxy) with a sign that depends on the edge direction, and for (cos kx, 0) the hyperviscous tendency is at least nx^2/12 times the exact one on the x facing edges.", "quantifier": "all smooth periodic velocity fields, all meshes with an even number of rows, all builds, exact arithmetic", "why_tests_cant": "No test measures the convergence of the hyperviscous term; a stable run with too much dissipation looks plausible.", "anchors": ["src/model/tendency_terms/vel_hyperdiff_edge.hpp", "src/model/shallow_water_auxstate.cpp"]}
{"id": "C66", "title": "Vorticity, potential vorticity and irrotational flow", "statement": "Without viscosity the vorticity of the velocity tendency is the curl of the potential vorticity flux alone: pressure and kinetic energy make no vorticity. A state with uniform potential vorticity has a tendency that keeps it uniform, as does one step of either stepper while the vertex thickness stays nonzero. Without rotation an irrotational state stays irrotational through every run, whatever the thickness and viscosity.", "quantifier": "all states, parameters, unforced models, builds, meshes with an even number of rows, schedules and runs, exact arithmetic", "why_tests_cant": "All states and run lengths; a diagnostic would only see rounding sized noise or its growth.", "anchors": ["src/model/shallow_water_model.cpp: compute_tendency", "src/model/tendency_terms/", "src/model/shallow_water_auxstate.cpp", "src/time_integration"]}
{"id": "C67", "title": "Tracers superpose", "statement": "A tracer that starts as a linear combination of two other tracers has the same combination of their tendencies and stays that combination through any run of either stepper.", "quantifier": "all combinations, states, thicknesses, velocities, parameters, forcings, builds, meshes, schedules and runs, exact arithmetic", "why_tests_cant": "All states and combinations.", "anchors": ["src/model/shallow_water_model.cpp: compute_tendency", "src/model/tendency_terms/", "src/time_integration"]}
{"id": "C68", "title": "Diffusion at rest obeys the maximum principle", "statement": "In a fluid at rest with uniform thickness the tracer stays between the bounds of its initial values through any run of either stepper whose step sizes satisfy 0 <= 4 kappa dt <= dc^2, without hyperdiffusion. For every larger step size one forward Euler step makes some nonnegative tracer negative; with advection every step size does (refuted there).", "quantifier": "all tracer fields, bounds, thicknesses, diffusivities, step sequences, stage counts, builds, meshes with at least two rows and columns, schedules, exact arithmetic", "why_tests_cant": "All fields and run lengths; an overshoot can need one particular field.", "anchors": ["src/model/tendency_terms/tracer_diff_cell.hpp", "src/time_integration", "test/tracer_diffusion_convergence.cpp"]}
{"id": "C69", "title": "Plane waves of a tracer at rest decay as the discrete dispersion relation says", "statement": "A program that starts at rest with a uniform thickness and a plane wave in a tracer multiplies the wave in every step by the stability polynomial of the stepper at dt times (kappa2 Lam - kappa4 Lam^2), where Lam is the eigenvalue of the discrete Laplacian. Lam lies between -6/dc^2 and 0 and within dc^2 |k|^4 / 16 of -|k|^2, above it.", "quantifier": "all wave vectors that fit in the domain, amplitudes, phases, thicknesses, coefficients, step sequences, steppers, builds, meshes with an even number of rows, schedules, exact arithmetic", "why_tests_cant": "All wave vectors and run lengths; a test looks at one wave.", "anchors": ["src/model/tendency_terms/tracer_diff_cell.hpp", "src/model/tendency_terms/tracer_hyperdiff_cell.hpp", "src/time_integration", "test/tracer_diffusion_convergence.cpp"]}
{"id": "C70", "title": "No plane wave of a tracer grows below the step size limit", "statement": "With dt (6 kappa2/dc^2 + 36 kappa4/dc^4) at most 2.78 (RK4), 4.5 (five stage LSRK) or 2 (one stage LSRK) no plane wave of a tracer in a fluid at rest exceeds its initial amplitude. The step size dc^4/(8 kappa4) of the hyperdiffusion test meets this with LSRK but not with RK4, where a short wave is multiplied by 8.52 in every step (refuted there).", "quantifier": "all wave vectors, coefficients, step sequences, builds, meshes with an even number of rows, schedules, exact arithmetic", "why_tests_cant": "An unstable short wave starts from rounding errors and shows only after many steps.", "anchors": ["src/time_integration", "test/tracer_hyperdiffusion_convergence.cpp", "src/model/tendency_terms/tracer_hyperdiff_cell.hpp"]}
{"id": "C71", "title": "The tracer diffusion and hyperdiffusion tests pass", "statement": "On every n by n mesh with an even n >= 16 the programs end with a pointwise error of at most 11/n^2 (diffusion) and 21/n^2 (hyperdiffusion), the error norm has one possible value for every order of the reductions, and the rate computed from the meshes n and 2n is within 0.05 of 2, so check_rate succeeds.", "quantifier": "all even n >= 16, builds, schedules, reduction orders, values of the uninitialised Coriolis parameter, exact arithmetic", "why_tests_cant": "The tests run for n = 16 only, in one build and schedule.", "anchors": ["test/tracer_diffusion_convergence.cpp: run, main, check_rate", "test/tracer_hyperdiffusion_convergence.cpp: run, main, check_rate"]}
{"id": "C72", "title": "Tracers in a steady flow are advanced by one linear operator", "statement": "If thickness and velocity have no tendency (fluid at rest, uniform flow, or both tendencies disabled), there is one linear operator per layer that gives the tracer tendency of all tracers; a run leaves thickness and velocity unchanged and every step applies the stability polynomial of the stepper (the Taylor polynomial of degree 4 for RK4, 1 + z for one stage LSRK) to dt times this operator.", "quantifier": "all steady states, tracers, parameters, step sequences, steppers, stage counts, builds, meshes, schedules, exact arithmetic", "why_tests_cant": "All tracers and run lengths.", "anchors": ["src/model/shallow_water_model.cpp: compute_tendency", "src/model/tendency_terms/", "src/time_integration"]}
{"id": "C73", "title": "Plane waves of a tracer in a uniform flow follow the discrete dispersion relation", "statement": "A program that starts with uniform thickness and velocity (U, V) and tracers that are sums of plane waves keeps thickness and velocity and multiplies every wave in every step by the stability polynomial at dt (rate - i om). om is within dc^2 speed K^3 / 8 of the exact frequency U k1 + V k2 and at most speed K and 4/3 speed / dc.", "quantifier": "all velocities, finite sums of waves that fit in the domain, diffusivities, step sequences, steppers, builds, meshes with an even number of rows, schedules, without Coriolis force or with disabled velocity tendency, exact arithmetic", "why_tests_cant": "All waves and run lengths; a test looks at one tracer.", "anchors": ["src/model/tendency_terms/tracer_hadv_cell.hpp", "src/model/tendency_terms", "src/time_integration", "test/tracer_advection_convergence.cpp"]}
{"id": "C74", "title": "Advection is stable under the CFL condition", "statement": "With dt (4/3) speed / dc at most 2 sqrt 2 (RK4) or 3.16 (five stage LSRK) the tracer in a uniform flow stays below the sum of the initial amplitudes of its waves (for LSRK up to a factor 1 + 2e-23 per step). With one stage LSRK every step size amplifies a wave in every step (refuted there).", "quantifier": "all velocities, sums of waves, step sequences, builds, meshes with an even number of rows, schedules, exact arithmetic", "why_tests_cant": "An instability starts from rounding errors and shows only after many steps.", "anchors": ["src/time_integration", "src/model/tendency_terms/tracer_hadv_cell.hpp"]}
{"id": "C75", "title": "Advection by a uniform flow converges to the exact solution", "statement": "Under the CFL condition the tracer after N steps differs from the initial tracer moved along by the flow by at most the sum over its waves of amplitude times T (dc^2 speed K^3 / 8 + dt^4 (speed K)^5 / 100), plus 1e-22 per step for LSRK.", "quantifier": "all velocities, finite sums of waves, step sizes, numbers of steps, RK4 and five stage LSRK, builds, meshes with an even number of rows, schedules, exact arithmetic", "why_tests_cant": "A convergence test looks at one field and one sequence of meshes.", "anchors": ["test/tracer_advection_convergence.cpp", "src/model", "src/time_integration", "src/mesh/planar_hexagonal_mesh.cpp"]}
{"id": "C76", "title": "The operator convergence test passes, and its errors are known", "statement": "Each level of the test runs without data races or accesses outside a view and its four maximum reductions return a number. On every n by n mesh with an even n >= 48 the errors of gradient, divergence and tangential reconstruction are within 3 per cent below 7/12 pi^3/n^2, (21+14 sqrt 3)/36 pi^3/n^2 and (69+4 sqrt 3)/72 pi^2/n^2; the error of the curl is within 2 per cent of (12+sqrt 3)/18 pi^2/n, so the curl is first order only. The rates computed from the meshes n and 2n are within 0.05 of 2, 2, 1 and 2, so check_rate succeeds.", "quantifier": "safety: all arithmetics, mesh sizes, builds, schedules and reduction orders; errors and verdict: all even n >= 48, builds, schedules, reduction orders, exact arithmetic", "why_tests_cant": "The test checks the last rate of one sequence of meshes, in one build and schedule.", "anchors": ["test/operator_convergence.cpp: error_gradient, error_divergence, error_curl, error_reconstruction, run, check_rate", "src/mesh/planar_hexagonal_mesh.cpp"]}
{"id": "C77", "title": "Small disturbances of the fluid at rest obey the linear shallow water equations", "statement": "The fluid at rest with uniform layers has no tendency and stays. The derivative of a run with respect to a disturbance of it is obtained by applying, in every step, the stability polynomial of the stepper to dt times the linear shallow water operator of the mesh (rotation, gravity, both viscosities); the same for the tendency and for whole programs that start with thickness H + x eta and velocity x (vx, vy).", "quantifier": "all disturbances, nonzero layer thicknesses, parameters, step sequences, steppers, builds, meshes, schedules, exact arithmetic", "why_tests_cant": "A derivative is a statement about infinitely many runs; all disturbances and run lengths.", "anchors": ["src/model/shallow_water_model.cpp: compute_tendency", "src/model/shallow_water_auxstate.cpp", "src/model/tendency_terms/", "src/time_integration"]}
{"id": "C78", "title": "No small disturbance of the fluid at rest gains energy under the CFL condition", "statement": "Without viscosity and with |dt| (sqrt(6 g Hmax)/dc + |f|) at most sqrt 8 in every step, the energy of a disturbance does not grow with RK4 and at most by the factor 1 + 1e-22 per step with five stage LSRK. With one stage LSRK every disturbance that is not stationary gains energy in every step, however short (refuted there).", "quantifier": "all disturbances, rotations, layer thicknesses, step sequences, builds, meshes with at least two columns and an even number of rows, schedules, exact arithmetic", "why_tests_cant": "An instability starts from rounding errors and shows only after many steps.", "anchors": ["src/time_integration", "src/model/shallow_water_model.cpp", "src/model/tendency_terms/"]}
{"id": "C79", "title": "Geostrophic balance is exactly stationary and potential vorticity stays", "statement": "Without viscosity a disturbance with velocity the rotated gradient of a stream function of the vertices and thickness -f/g times its mean over the vertices of each cell does not change in any run. The potential vorticity zeta - (f/H) eta of any disturbance does not change at any vertex of any layer.", "quantifier": "all stream functions, disturbances, layer thicknesses, step sequences of any size, steppers, builds, meshes with at least two columns and an even number of rows, schedules, exact arithmetic", "why_tests_cant": "All flows and run lengths; a wrong weight makes balanced flows drift slowly.", "anchors": ["src/mesh/planar_hexagonal_mesh.cpp", "src/model/shallow_water_model.cpp", "src/model/tendency_terms/", "src/time_integration"]}
{"id": "C80", "title": "Gravity waves follow the discrete dispersion relation and converge", "statement": "Without rotation and viscosity every step multiplies the complex amplitude of a gravity wave by the stability polynomial at -i om dt with om^2 = -g H Lam, Lam the eigenvalue of the discrete Laplacian. Programs that start at rest with thickness H + x cos(k.r + theta) end, to first order in x, within T (dc^2 sqrt(gH) K^3/16 + dt^4 (sqrt(gH) K)^5/100) of the exact standing wave, plus 1e-22 per step for LSRK, under the CFL condition dt sqrt(6 g H)/dc <= 2 sqrt 2 (RK4) or 3.16 (five stage LSRK).", "quantifier": "all waves that fit in the domain, thicknesses, gravities, step sizes, numbers of steps, builds, meshes with at least two columns and an even number of rows, schedules, exact arithmetic", "why_tests_cant": "A convergence test looks at one wave and one sequence of meshes.", "anchors": ["src/model", "src/time_integration", "src/mesh/planar_hexagonal_mesh.cpp"]}
{"id": "C81", "title": "The tangential reconstruction never gains energy", "statement": "The tangential velocity reconstructed by the weights of the mesh has at most the sum of squares of the normal velocity it is made from.", "quantifier": "all velocity fields, meshes with an even number of rows, builds, exact arithmetic", "why_tests_cant": "All velocity fields.", "anchors": ["src/mesh/planar_hexagonal_mesh.cpp"]}
{"id": "C82", "title": "Rounding creates or destroys at most a few units in the last place of mass per cell and step", "statement": "In binary64, as long as the thicknesses of a layer stay finite and at most Hb and its velocities at most Vb, the total thickness of the layer (summed exactly) changes in n steps of size at most Db by at most n ncells 2^-53 Hb (4 + 29 Db Vb/dc) with RK4 and n ncells 2^-53 Hb (5 + 353 Db Vb/dc) with five stage LSRK; the computed tendencies add up to at most 25 ncells 2^-53 Hb Vb/dc. When the velocity is not advanced the bounds on the intermediate states follow from the first state.", "quantifier": "all states, step sequences, parameters, builds, meshes with at least two rows and columns, schedules; binary64 arithmetic with dc between 2^-200 and 2^200, any platform cos, sin and pi", "why_tests_cant": "Rounding errors depend on every bit of the state; a test compares one run with a tolerance found by trial.", "anchors": ["src/model/shallow_water_model.cpp: compute_tendency", "src/model/tendency_terms/", "src/model/shallow_water_auxstate.cpp", "src/time_integration"]}
{"id": "C83", "title": "A lake at rest stays at rest bit for bit in floating point", "statement": "In binary64, when every cell of a layer holds the same thickness and every velocity is a zero, every later state holds the same bits in every cell and a zero (of either sign) at every edge, after any steps of RK4 or LSRK. Tracers that are uniform in a layer keep their bits too (a zero stays a zero), with diffusion and hyperdiffusion.", "quantifier": "all thicknesses per layer, dc between 2^-100 and 2^100, parameters up to 2^100, step sizes up to 2^200, tracers, builds, mesh sizes, schedules; binary64 arithmetic, any platform cos, sin and pi", "why_tests_cant": "The claim is about every bit of every thickness, mesh size and parameter; a reordered or contracted expression would break it for some of them only.", "anchors": ["src/model/shallow_water_model.cpp: compute_tendency", "src/model/tendency_terms/", "src/model/shallow_water_auxstate.cpp", "src/time_integration"]}
{"id": "C84", "title": "Tracers carried by any steady flow converge to the transport equation", "statement": "A tracer carried by a flow that is not advanced, over any positive thickness, differs after N steps from the solution of u_t + (uU)_x + (uV)_y = 0 by at most C (dc^2 + dt^4) in the root mean square over the cells of a layer (plus C 1e-25 for LSRK), under dt vmax <= dc. C is an explicit formula in bounds on the data; such bounds exist at all spacings at once for every smooth flow and solution, in particular for every smooth tracer in a uniform velocity over any smooth thickness.", "quantifier": "all smooth flows, thicknesses varying by a factor of at most 4 over dc, solutions, step sizes, numbers of steps, RK4 and five stage LSRK, builds, meshes with at least two columns and an even number of rows, schedules, exact arithmetic", "why_tests_cant": "A convergence test looks at one flow and one sequence of meshes; stability of centred transport over variable thickness is not visible in short runs.", "anchors": ["src/model", "src/time_integration", "src/mesh/planar_hexagonal_mesh.cpp"]}
{"id": "C85", "title": "The error of the tracer advection test decreases like 1/n^2", "statement": "On every n by n mesh with an even n >= 8 the program of the test ends with a root mean square error of at most C/n^2, with C an explicit formula in bounds on the data of the test, and the error it reports has one possible value for every order of the reduction.", "quantifier": "all even n >= 8, builds, schedules, reduction orders, values of the uninitialised Coriolis parameter, exact arithmetic", "why_tests_cant": "The test runs for n = 50 and n = 100 only, in one build and schedule.", "anchors": ["test/tracer_advection_convergence.cpp: run"]}
{"id": "C86", "title": "Inertia-gravity waves and geostrophic adjustment follow the rotating equations", "statement": "With rotation, every step multiplies the complex amplitude of an inertia-gravity wave by the stability polynomial at -i om dt, om^2 = f^2 Mu - g H Lam with Mu and Lam explicit in the wave number, and keeps its potential vorticity. The frequencies are never above the exact ones, at most the factor 1 - 5/24 dc^2 K^2 below (in om^2) and never zero. Programs that start at rest with thickness H + x cos(k.r + theta) end, to first order in x, within 5/6 dc^2 K^2 + T (5/24 dc^2 K^2 Om + dt^4 Om^5/100) of the exact adjustment (f^2 + g H K^2 cos(Om T))/Om^2, Om^2 = f^2 + g H K^2, plus 1e-22 per step for LSRK, under dt (sqrt(6 g H)/dc + |f|) <= 2 sqrt 2 (RK4) or 3.16 (five stage LSRK).", "quantifier": "all waves that fit in the domain, rotations, thicknesses, gravities, step sizes, numbers of steps, builds, meshes with at least two columns and an even number of rows, schedules, exact arithmetic", "why_tests_cant": "The adjusted state is reached through waves of every frequency; a test looks at one wave, one rotation and one sequence of meshes.", "anchors": ["src/mesh/planar_hexagonal_mesh.cpp", "src/model/shallow_water_model.cpp", "src/model/tendency_terms/", "src/time_integration"]}
{"id": "C87", "title": "A run has no preferred units, layers or build", "statement": "Two programs that solve the same problem in different units (lengths times L > 0, times times T <> 0, thicknesses times H <> 0, each tracer times a factor; gravity, rotation, viscosities, diffusivities, forcing, initial data and steps converted) end in the same state in these units, in every layer. From arbitrary states, if every layer of one state equals some layer of another this remains so after every run, whatever the numbers of layers, vector lengths and builds (with hyperviscosity in a vectorised build, if the first layer of each vector corresponds too). With T = -1 this is reversibility: reversing velocities and rotation runs the inviscid model backwards step by step.", "quantifier": "all pairs of setups related by a change of units, builds, numbers of layers, steppers, stage counts, step sequences, initial data, meshes, schedules; exact arithmetic", "why_tests_cant": "A term with a missing length or time factor is invisible in a test that uses one set of units; the claim compares all of them.", "anchors": ["src/mesh/planar_hexagonal_mesh.cpp", "src/model/shallow_water_model.cpp", "src/model/tendency_terms/", "src/model/shallow_water_auxstate.cpp", "src/time_integration"]}
{"id": "C88", "title": "The convergence tests have one verdict", "statement": "For each mesh size the nonlinear and the tracer advection convergence test end without undefined behaviour, with the same root mean square error e in every layer, build and schedule; the function run returns sqrt(nlayers) e (nlayers is 1 rounded up to the vector length) for every order of the reduction, and the rate that main compares with 2 is the same number for all of them, and for every value of the Coriolis parameter that the advection test leaves uninitialised.", "quantifier": "all mesh sizes, build configurations, vector lengths, schedules, reduction orders, values of the uninitialised parameter; exact arithmetic", "why_tests_cant": "The test runs in one build and schedule; that it would report the same elsewhere is a claim about all of them.", "anchors": ["test/nonlinear_swe_convergence.cpp: run, main", "test/tracer_advection_convergence.cpp: run, main"]}
{"id": "C89", "title": "A run has no preferred orientation", "statement": "If one program is the mirror image of another (x, y or both reversed, so also a half turn; velocity and force components change sign accordingly, the rotation changes sign if one axis is reversed), the final states are mirror images: to each cell belongs a cell at the mirrored position with the same thickness and tracers in the other run, to each edge one at the mirrored position whose velocity is the same up to the orientation of its normal. In particular symmetric flows stay symmetric.", "quantifier": "all periodic initial data and forcing, parameters, steppers, stage counts, step sequences, builds, numbers of layers, meshes with at least two columns and an even number of rows, schedules; exact arithmetic", "why_tests_cant": "A sign error at one kind of edge or one reconstruction weight is small in a smooth test; the claim compares every flow with its mirror image.", "anchors": ["src/mesh/planar_hexagonal_mesh.cpp", "src/model/shallow_water_model.cpp", "src/model/tendency_terms/", "src/model/shallow_water_auxstate.cpp", "src/time_integration"]}
{"id": "C90", "title": "Runs converge to the solution of the discrete equations as the time step goes to zero", "statement": "If functions of time (thickness, velocity, tracers on all cells, edges and layers, thickness positive) have on [0, T] the time derivatives that compute_tendency computes from them, all terms and forcing included, then for some C and all N >= C every run of N steps of size T/N from their values at time 0 ends with every value within C/N of the functions at time T. For the five stage LSRK stepper the derivatives are w times the tendencies, |w - 1| <= 1e-25, w being the sum of its rounded weights.", "quantifier": "all solutions with positive thickness, times, parameters, forcings with a bounded rate of change, RK4, one and five stage LSRK, builds, meshes, schedules, numbers of steps; exact arithmetic", "why_tests_cant": "A test compares runs with a few step sizes; that the limit exists, and is the solution of the equations coded in the tendencies, is a claim about all of them.", "anchors": ["src/model/shallow_water_model.cpp: compute_tendency", "src/model/tendency_terms/", "src/time_integration"]}
{"id": "C91", "title": "The RK4 stepper converges with order four on the full discrete equations", "statement": "If functions of time (thickness, velocity, tracers, thickness positive) have on [0, T] the time derivatives that compute_tendency computes from them, all terms and forcing included, and the forcing has four time derivatives, the fourth bounded, then for some C and all N >= C every run of N RK4 steps of size T/N from their values at time 0 ends with every value within C/N^4 of the functions at time T.", "quantifier": "all solutions with positive thickness (no smoothness of the solution is assumed), times, parameters, smooth forcings, builds, meshes, schedules, numbers of steps; exact arithmetic", "why_tests_cant": "A convergence test estimates an order from a few runs of one case; the order holds for all solutions only if all eight order conditions hold and every stage sees the right state at the right time.", "anchors": ["src/model/shallow_water_model.cpp: compute_tendency", "src/model/tendency_terms/", "src/time_integration"]}
{"id": "C92", "title": "The discrete equations have exactly one solution from every state with positive thickness", "statement": "From every state with positive thickness there are functions of time, with those values at time 0 and positive thickness on some [0, T], whose time derivatives are what compute_tendency computes from them; two such solutions that agree at time 0 agree on the whole interval. Hence, with no assumption on solutions, there are a time T and fields such that all RK4 runs to T from that state with N >= C steps end within C/N^4 of those fields.", "quantifier": "all states with positive thickness, parameters, forcings with bounded rate of change (four derivatives for the statement about runs), builds, meshes, schedules, numbers of steps; exact arithmetic", "why_tests_cant": "Existence, uniqueness and limits over all step sizes cannot be observed in finitely many runs.", "anchors": ["src/model/shallow_water_model.cpp: compute_tendency", "src/model/tendency_terms/", "src/time_integration"]}
{"id": "C93", "title": "The energy change of a run is an error of the time stepping only", "statement": "Without viscosity and forcing, the total energy that energy_integral returns is constant along every solution of the discrete equations, and N steps of size T/N from a state with positive thickness change it by at most C/N^4 with RK4 (C/N with the LSRK steppers) for some C and all N >= C; for RK4 some such T exists for every state with positive thickness.", "quantifier": "all states and solutions with positive thickness, meshes with at least two cells in each direction, builds, parameters without viscosity, schedules, numbers of steps; exact arithmetic", "why_tests_cant": "A test sees a small change of energy; that all of it vanishes with the time step, at fourth order, is a claim about all step sizes and states.", "anchors": ["src/model/shallow_water_model.cpp: compute_tendency, energy_integral", "src/model/tendency_terms/", "src/time_integration"]}
{"id": "C94", "title": "RK4 runs depend continuously on the initial state, uniformly in the number of steps", "statement": "Along a solution of the discrete equations with positive thickness on [0, T]: for some C and all N >= C, N RK4 steps of size T/N from a state within e <= 1/C of the solution's initial values end within C (e + 1/N^4) of the solution at T, and two such runs from states that differ by at most d end in states that differ by at most C d.", "quantifier": "all solutions with positive thickness, initial states within 1/C of theirs, parameters, smooth forcings, builds, meshes, schedules, numbers of steps; exact arithmetic", "why_tests_cant": "A test compares two runs; that the amplification of a perturbation is bounded independently of the number of steps and of the perturbation is a claim about all of them.", "anchors": ["src/model/shallow_water_model.cpp: compute_tendency", "src/model/tendency_terms/", "src/time_integration: RK4"]}
{"id": "C95", "title": "Runs without viscosity, diffusion and forcing can be undone by running with reversed velocities and rotation", "statement": "Without viscosity, diffusion and forcing: run N RK4 steps of size T/N, reverse all velocities and the sign of f0, run N more steps of the same size, reverse the velocities again. For some C and all N >= C the result differs from the initial state by at most C/N^4 in every thickness, velocity and tracer value; from every state with positive thickness this holds for some T > 0, and for every T up to which the discrete equations have a solution with positive thickness.", "quantifier": "all states with positive thickness, parameters without viscosity and diffusion, builds (the way back may use another one), meshes, schedules, numbers of steps; exact arithmetic", "why_tests_cant": "A test can undo one run; that nothing in the tendencies has a preferred direction of time, so that the discrepancy vanishes with the fourth power of the step, is a claim about all states and step sizes.", "anchors": ["src/model/shallow_water_model.cpp: compute_tendency", "src/model/tendency_terms/", "src/time_integration: RK4"]}
{"id": "C96", "title": "Advection conserves the variance of tracer concentrations, diffusion reduces it", "statement": "With concentration r = q/h, the rate of change of the area integral of h r^2 that the computed tendencies imply is exactly minus twice the diffusivity times the sum over edges of dc dv h (grad r)^2, for every velocity. Along every solution of the discrete equations the integral never increases and is constant without diffusion; N steps of size T/N increase it by at most C/N^4 with RK4 and C/N with the LSRK steppers (and without diffusion decrease it by no more), for some C and all N >= C.", "quantifier": "all states, tracers, layers, velocities, parameters without hyperdiffusion and mass source and with the thickness tendency enabled, meshes with at least two cells in each direction, builds, schedules, numbers of steps; the statements about solutions and runs for positive thickness; exact arithmetic", "why_tests_cant": "The identity needs the thickness in the flux, the means of the concentration on edges and the divergence to fit together for all fields; a test sees one flow, in which a small spurious source of variance is not distinguishable from truncation error.", "anchors": ["src/model/shallow_water_model.cpp: compute_tendency (tracer advection and diffusion)", "src/model/tendency_terms/", "src/time_integration"]}
{"id": "C97", "title": "Hyperdiffusion reduces the variance of tracers where the thickness is uniform, but not in general", "statement": "In a layer of uniform thickness the hyperdiffusion part of the tracer tendency never increases the variance of the concentration, and with a positive coefficient and thickness leaves it unchanged only if the concentration is the same on both sides of every edge. For varying thickness this fails: on every mesh with at least four columns and for every positive coefficient there are states at rest, with positive thickness and bounded nonnegative concentrations, in which hyperdiffusion increases the variance of every tracer in every layer.", "quantifier": "all concentrations, states, tracers, layers, modes, parameters, builds, schedules, meshes with at least two rows and columns (at least four columns for the refutation); exact arithmetic", "why_tests_cant": "The hyperdiffusion test of the project has uniform thickness. Both a sign for all fields and the existence of a field with the wrong sign on every mesh are beyond it.", "anchors": ["src/model/tendency_terms/tracer_hyperdiff_cell.hpp", "src/model/shallow_water_auxstate.cpp: tracer del2", "src/model/shallow_water_model.cpp: compute_tracer_tendency"]}
{"id": "C98", "title": "Tracer diffusion converges with second order in every cell", "statement": "A program started at rest with uniform thickness, whose initial tracer is the initial value of a periodic solution of the diffusion equation with bounded derivatives, run for any number of steps with RK4, forward Euler or five stage LSRK and a time step with 4 kappa dt <= dc^2, ends with every cell within kappa T M (57 dc^2 + 8 slack) of the solution at the final time T, where M bounds the derivatives of the solution up to order five and slack is 0 for RK4 and Euler and 1e-25 for five stage LSRK (its coefficients are decimal fractions).", "quantifier": "all solutions, meshes with at least two columns and an even number of rows, spacings, diffusivities, time steps within the bound, numbers of steps, tracers, layers, other parameters, builds, schedules; exact arithmetic", "why_tests_cant": "The test of the project measures an average error for one wave and two meshes. An estimate of the largest error that holds for all solutions and meshes is not a matter of samples.", "anchors": ["src/model/tendency_terms/tracer_diff_cell.hpp", "src/model/shallow_water_model.cpp: compute_tracer_tendency", "src/time_integration/rk4.cpp", "src/time_integration/lsrk.cpp", "test/tracer_diffusion_convergence.cpp"]}
{"id": "C99", "title": "Rounding creates or destroys tracer only at the level of the last bits", "statement": "In binary64 arithmetic, with advection, diffusion and hyperdiffusion of a tracer in any combination, the total of the tracer over a layer drifts per step by at most ncells 2^-53 Hb Rb (4 + 11 Db rate) with RK4 and ncells 2^-53 Hb Rb (5 + 128 Db rate) with five stage LSRK, where Hb, Vb, Rb bound thickness, speed and concentration, Db the step, and rate = 4 Vb/dc + 8 K2/dc^2 + 64 K4/dc^4, as long as these bounds hold during the run; with the thickness and velocity equations disabled, bounds on the initial state suffice for an explicit number of steps, nothing becomes infinite or NaN, and the bounds persist.", "quantifier": "all initial states within the bounds, diffusivities up to 2^100, dc between 2^-100 and 2^100, step sizes, numbers of steps, mesh sizes, tracers, layers, builds, schedules; binary64 arithmetic, any platform cos, sin and pi", "why_tests_cant": "The tests compare totals with a tolerance for a few runs; how much tracer rounding can create in any run follows only from an error analysis of every operation.", "anchors": ["src/model/tendency_terms/tracer_hadv_cell.hpp", "src/model/tendency_terms/tracer_diff_cell.hpp", "src/model/tendency_terms/tracer_hyperdiff_cell.hpp", "src/model/shallow_water_model.cpp: compute_tracer_tendency", "src/time_integration/rk4.cpp", "src/time_integration/lsrk.cpp"]}
{"id": "C100", "title": "In double precision, tracer diffusion follows the diffusion equation up to an explicit bound", "statement": "Run in binary64 arithmetic, fluid at rest, a thickness that is uniform in each layer, diffusion the only tracer term switched on besides the vanishing advection, and a fixed time step with 4 kappa dt <= dc^2: whatever smooth periodic solution the tracer starts from, after N steps every cell holds a finite number that differs from the solution of the diffusion equation at its centre by at most e0 + kappa N dt M 57 dc^2 + N 850 2^-53 B with RK4, and e0 + kappa N dt M (57 dc^2 + 8e-25) + N 8700 2^-53 B with five stage LSRK, where e0 is the error of the initial values, M bounds the derivatives of the solution and B/2 the initial tracer; N may be up to 2^53/1700 (RK4) or 2^53/17400 (LSRK).", "quantifier": "all smooth periodic solutions, diffusivities, cell widths and thicknesses between 2^-100 and 2^100, step sizes within the bound, numbers of steps, mesh sizes with an even number of rows, tracers, layers, builds, schedules; binary64 arithmetic, any platform cos, sin and pi", "why_tests_cant": "A convergence test checks a few meshes against one solution and cannot tell the error of the method from the error of rounding; that the sum of both stays below one bound for every run needs the error analysis of every operation and the maximum principle.", "anchors": ["src/model/tendency_terms/tracer_diff_cell.hpp", "src/model/shallow_water_model.cpp: compute_tracer_tendency", "src/time_integration/rk4.cpp: do_step", "src/time_integration/lsrk.cpp: do_step", "src/mesh/planar_hexagonal_mesh.cpp"]}
{"id": "C101", "title": "Thickness stays positive under a bound on speed, step and thickness ratio, and under no Courant condition alone", "statement": "A forward Euler step (one stage LSRK) from a state whose layer thicknesses lie between a > 0 and b and whose speeds are at most V leaves every thickness of the layer positive if 4 V b dt < dc a. No bound on V dt / dc alone suffices: for every mesh, step size and speed bound there is a state with positive thickness everywhere and slower flow from which one Euler step, and in the advection problem one RK4 step, makes the thickness of a cell negative.", "quantifier": "all states within the bounds, step sizes, speeds, mesh sizes, cell widths, layers, physical parameters, builds, schedules", "why_tests_cant": "A test with smooth fields never comes near a dry cell; the sufficient bound and the failure for every Courant number quantify over all states and steps.", "anchors": ["src/model/tendency_terms/thickness_hadv_cell.hpp", "src/model/auxiliary_vars/thickness_aux.hpp", "src/time_integration/lsrk.cpp: do_step", "src/time_integration/rk4.cpp: do_step"]}
{"id": "C102", "title": "Diffusion and hyperdiffusion never increase the mean square of a tracer at rest, and hyperdiffusion converges with second order", "statement": "A program started at rest with uniform thickness and any tracer fields, with diffusion and hyperdiffusion each on or off, run for any steps with dt (6 kappa2 / dc^2 + 36 kappa4 / dc^4) <= lim (2.78 for RK4, 4.5 for five stage LSRK, 2 for forward Euler): in no layer does the sum over the cells of the square of a tracer exceed its initial value. If only hyperdiffusion is on and the initial tracer is the initial value of a periodic solution of u_t = -kappa4 Lap Lap u with bounded derivatives, the root mean square over the cells of the error after N such steps of size dt is at most kappa4 T M (3600 dc^2 + 2 dc^4 + 64 slack), T = N dt, where M bounds the derivatives up to order ten and slack is 0 for RK4 and Euler and 1e-25 for five stage LSRK.", "quantifier": "all initial tracers (for convergence: all solutions), meshes with at least two columns and an even number of rows, spacings, diffusivities, time steps within the bound (the hyperdiffusion test runs exactly at it), numbers of steps, tracers, layers, other parameters, builds, schedules; exact arithmetic", "why_tests_cant": "The hyperdiffusion test runs one wave on two meshes, exactly at the edge of stability. That no other field grows there, and that the error is second order for all solutions, cannot be sampled.", "anchors": ["src/model/tendency_terms/tracer_diff_cell.hpp", "src/model/tendency_terms/tracer_hyperdiff_cell.hpp", "src/model/shallow_water_auxstate.cpp: tracer del2", "src/model/shallow_water_model.cpp: compute_tracer_tendency", "src/time_integration/rk4.cpp: do_step", "src/time_integration/lsrk.cpp: do_step", "test/tracer_hyperdiffusion_convergence.cpp"]}
{"id": "C103", "title": "Diffusion mixes every tracer at rest, at a rate that does not depend on the resolution", "statement": "A program started at rest with uniform thickness and any tracer fields, run for any steps with dt (6 kappa2 / dc^2 + 36 kappa4 / dc^4) <= 1 with RK4, five stage LSRK or forward Euler: in every layer the sum over the cells of (tracer - mean)^2, where mean is the initial mean of the tracer, is at most exp(-4/5 (kappa2 lambda + kappa4 lambda^2) T) times its initial value, where T is the time covered, lambda = 2/(3 L^2) and L = dc max(nx, ny).", "quantifier": "all initial tracers, meshes with at least two columns and an even number of rows, spacings, diffusivities (either may be off), time steps within the bound, numbers of steps, tracers, layers, other parameters, builds, schedules; exact arithmetic", "why_tests_cant": "A field that the scheme cannot see (a checkerboard, a stripe) would never be mixed; that no such field exists on any mesh, and a rate that holds for all of them, cannot be sampled.", "anchors": ["src/model/tendency_terms/tracer_diff_cell.hpp", "src/model/tendency_terms/tracer_hyperdiff_cell.hpp", "src/model/shallow_water_auxstate.cpp: tracer del2", "src/model/shallow_water_model.cpp: compute_tracer_tendency", "src/time_integration/rk4.cpp: do_step", "src/time_integration/lsrk.cpp: do_step", "src/mesh/planar_hexagonal_mesh.cpp"]}
{"id": "C104", "title": "The energy budget: viscosity is the only source or sink, it dissipates in layers of uniform thickness and not in general", "statement": "With both equations on and no forcing, the derivative of energy_integral along the computed tendency equals the work of viscosity and hyperviscosity: the sum over layers and edges of dc dv times the mean thickness of the two cells times the velocity times the difference between the velocity tendencies computed with and without viscosity. Where each layer has a uniform non-negative thickness this derivative is never positive (scalar kernels or one lane, or no hyperviscosity). In general it is not so: on every mesh of at least 4 by 2 cells and for every positive viscosity there is a state with thickness at least 1 and speeds at most 1 whose energy grows.", "quantifier": "all states, physical parameters, mesh sizes with at least two rows and columns, cell widths, layers, builds, schedules; exact arithmetic", "why_tests_cant": "A viscous run whose energy falls is no evidence for other states; the balance is an exact cancellation for arbitrary fields and the growing state exists on every mesh, however fine.", "anchors": ["src/model/shallow_water_model.cpp: compute_vn_tendency", "src/model/tendency_terms/vel_diff_edge.hpp", "src/model/tendency_terms/vel_hyperdiff_edge.hpp", "src/model/tendency_terms/pv_flux_edge.hpp", "src/model/tendency_terms/thickness_hadv_cell.hpp", "src/model/shallow_water_diagnostics.cpp: energy_integral"]}
{"id": "C105", "title": "The only flows without divergence and vorticity are the uniform ones, and viscosity damps every other flow", "statement": "The divergence at the cells and the vorticity at the vertices that the model computes vanish throughout a layer if and only if the velocity of the layer is that of a uniform flow, vn = U cos(angle) + V sin(angle). Hence with positive viscosity or hyperviscosity, both equations on, no forcing and a uniform positive thickness in each layer, the derivative of energy_integral along the computed tendency is never positive, and it is zero if and only if the flow is uniform in every layer (scalar kernels or one lane, or no hyperviscosity).", "quantifier": "all velocity fields and layers, numbers of columns >= 2, even numbers of rows, cell widths, physical parameters, builds, schedules; exact arithmetic", "why_tests_cant": "A velocity pattern that the discrete operators cannot see would persist or grow in long runs without any single test exciting it; that none exists on any mesh is a statement about the kernel of the operators for every size.", "anchors": ["src/model/shallow_water_auxstate.cpp: velocity divergence, relative vorticity", "src/model/shallow_water_model.cpp: compute_vn_tendency", "src/model/tendency_terms/vel_diff_edge.hpp", "src/model/tendency_terms/vel_hyperdiff_edge.hpp", "src/mesh/planar_hexagonal_mesh.cpp", "src/model/shallow_water_diagnostics.cpp: energy_integral"]}
{"id": "C106", "title": "Fluid at rest stays at rest only if every layer is flat and every diffusing tracer is uniform", "statement": "With both equations on, gravity non-zero and no forcing, take any state without motion and with positive layer thickness. The tendencies computed for a layer (thickness, velocity, every tracer) are all zero if and only if the thickness of the layer is the same in every cell and, when diffusion or hyperdiffusion is on, the content of every tracer is the same in every cell. Where the thickness varies, the tendency of a diffusing tracer is zero if and only if its concentration (content per thickness) is the same in every cell.", "quantifier": "all states at rest, thicknesses, tracers, layers, physical parameters with gravity non-zero, diffusivities, mesh sizes with at least two rows and columns, cell widths, builds, schedules; exact arithmetic", "why_tests_cant": "That a flat state is steady can be tested; that no other state is - no surface pattern without pressure gradient and no tracer pattern without flux, on any mesh - is a statement about the kernels of the discrete gradient and of the sum of both diffusion operators.", "anchors": ["src/model/tendency_terms/ssh_grad_edge.hpp", "src/model/tendency_terms/tracer_diff_cell.hpp", "src/model/tendency_terms/tracer_hyperdiff_cell.hpp", "src/model/shallow_water_model.cpp: compute_tendency", "src/mesh/planar_hexagonal_mesh.cpp"]}
{"id": "C107", "title": "With viscosity the only steady flows in layers of uniform thickness are uniform flow, and with rotation rest", "statement": "With positive viscosity or hyperviscosity, both equations on, no forcing and a uniform positive thickness in each layer, the computed tendencies of thickness and velocity are zero in every layer if and only if the velocity of every layer is that of a uniform flow, vn = U cos(angle) + V sin(angle), and the Coriolis parameter is zero or U = V = 0 (scalar kernels or one lane, or no hyperviscosity).", "quantifier": "all velocity fields, thicknesses, layers, numbers of columns >= 2, even numbers of rows, cell widths, physical parameters, builds, schedules; exact arithmetic", "why_tests_cant": "That uniform flow is steady can be tested; that no other field is, for instance one in which viscosity balances the nonlinear terms, is a statement about the zeros of a nonlinear operator on meshes of every size.", "anchors": ["src/model/shallow_water_model.cpp: compute_tendency", "src/model/tendency_terms/vel_diff_edge.hpp", "src/model/tendency_terms/vel_hyperdiff_edge.hpp", "src/model/tendency_terms/pv_flux_edge.hpp", "src/model/tendency_terms/ke_grad_edge.hpp", "src/mesh/planar_hexagonal_mesh.cpp"]}
{"id": "C108", "title": "Of all states with the same mass, flat rest has the least energy, and the excess bounds every deviation", "statement": "For any state with positive thickness and gravity, let E and M be the results of energy_integral and mass_integral and mean = M / (layers times total cell area). Then E >= g mean M / 2, with equality if and only if every thickness equals mean and every velocity is zero; and in every cell and layer g area (thickness - mean)^2 <= 2 (E - g mean M / 2).", "quantifier": "all states with positive thickness, mesh sizes, cell widths, layers, physical parameters with positive gravity, orders of summation; exact arithmetic", "why_tests_cant": "A diagnostic with a wrong factor between its two parts can still be conserved in a test run; that it is a norm of the distance from rest, which makes its conservation a statement about stability, holds or fails for all fields together.", "anchors": ["src/model/shallow_water_diagnostics.cpp: energy_integral, mass_integral", "src/mesh/planar_hexagonal_mesh.cpp"]}
{"id": "C109", "title": "Small disturbances of flat rest stay small, and the layer never runs dry, as long as the solution exists", "statement": "Without viscosity and forcing, with both equations on and positive gravity, take any solution of the discrete equations on [0, T] whose thickness is positive at time 0. Let E and M be the results of energy_integral and mass_integral at time 0, mean = M / (layers times total cell area) and excess = E - g mean M / 2. If 2 excess < g area mean^2, area being that of one cell, then at all times in [0, T] and in all cells and layers the thickness is positive and g area (thickness - mean)^2 <= 2 excess. Nothing is assumed about the thickness after time 0.", "quantifier": "all solutions and times, initial states with positive thickness and small excess of energy, mesh sizes of at least 2 by 2, cell widths, layers, physical parameters with positive gravity and no viscosity, orders of summation; exact arithmetic, continuous time", "why_tests_cant": "A simulation shows one disturbance up to one time. That no disturbance below a given size can ever dry out a cell follows only from conservation of energy and mass together with the least energy of rest.", "anchors": ["src/model/shallow_water_model.cpp: compute_tendency", "src/model/shallow_water_diagnostics.cpp: energy_integral, mass_integral", "src/mesh/planar_hexagonal_mesh.cpp"]}
