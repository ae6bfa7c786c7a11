# Formal model of omega_playground in Rocq (Coq 8.16.1)

The repository is a Kokkos (C++) shallow-water model on a doubly periodic planar hexagonal mesh.
This document says what is modelled, how each property of `properties.jsonl` is proved, and what has
to be trusted.

## 1. Layers of the model

1. **Arithmetic (`Arith.v`)**: a record `Arith` of the floating point operations the code uses
   (`+ - * /`, unary minus, `sqrt`, `<`, `int -> double`, `cos`, `sin`, `pi`). Everything that
   models code is generic in it. Instances: `RA` (Coq reals; used for exact conservation laws and
   identities), `SFA` (IEEE-754 binary64 as specified by the standard library's `SpecFloat`; used for the
   NaN findings and the layer count) and `OA` (`Trap.v`: reals in which a division by zero is trapped). A theorem that quantifies over all `Arith` holds bit for bit.
2. **Memory and programs (`Prog.v`)**: memory is a map from (array, index list) to `Z`/`Real`;
   every Kokkos View is a named array with extents. A kernel body is a term of the free monad
   `prog` with single loads, single stores and an explicit `Ub` outcome. An access is legal only if
   every index is within its extent. Signed `Int` arithmetic is checked: a result outside
   `[-2^31, 2^31-1]` is `Ub`.
3. **Concurrency (`Conc.v`)**: a `parallel_for` is a list of threads, one per iteration of the
   (MD)range policy. Threads interleave load by load and store by store in any order. The outcome
   is `UB` if any reachable configuration has a thread about to fault or two threads about to make
   conflicting accesses (a data race). A host program is a list of launches with a fence between
   them (same Kokkos execution space instance = in-order execution). Main theorem: if an ownership
   discipline holds for each thread run in isolation, then no schedule reaches UB, no schedule gets
   stuck or runs forever, and all schedules end in the same memory.
4. **Code model (`Arrays.v`, `Mesh.v`, `AuxVars.v`, `Tend.v`, `Model.v`, `Driver.v`, `TestFns.v`)**:
   function by function transcription of `src/mesh`, `src/model`, `src/time_integration` (both the
   scalar and the `OMEGA_KOKKOS_SIMD` bodies and both the fused and the `OMEGA_NO_INNER_IF`
   launches), of the set-up and time loop of `benchmark/` and `test/`, and of the functions of
   position and time the test programs evaluate. Vector length and SIMD lane count are parameters,
   so "vector_length = 1 with wide Vec" can be expressed.
5. **Refinement (`Over.v`, `Formulas.v`, `Launch.v`, `KernBase.v`, `Terms.v`, `KernAux.v`,
   `KernTend.v`, `TendFn.v`, `StepFn.v`, `MeshProof.v`, `MeshMem.v`, `Ready.v`, `DriverFn.v`)**:
   each kernel is proved to write, in every schedule, exactly a closed per-element formula of the
   memory before the launch, and to leave everything else alone. The formulas do not mention the
   vector length. `ready S m` = `m` is what the constructors leave, with any contents of the state,
   auxiliary and work arrays.
6. **Relations between runs (`Rel*.v`: same mesh, other build or parameters; `Equiv*.v`, `Shift.v`:
   up to a renumbering of cells, edges, vertices and tracers; `StepVal.v`, `StepRun.v`,
   `StepTake.v`, `FieldInv.v`: steppers as Runge-Kutta methods on the prognostic fields)**.
7. **Mathematics over R (`Hex.v`, `HexComb.v`, `MeshFacts.v`, `MeshR.v`, `MeshCalc.v`, `SumParts.v`,
   `RealOps.v`, `RealTend.v`, `ConsBase.v`, `Diag.v`, `Forced.v`; `Deriv.v`, `Stencil.v`,
   `Taylor.v`, `Accur*.v`, `Sample.v`, `Waves.v` for consistency with the differential equations;
   `Tableau.v` for order conditions)**.
8. **Vocabulary and properties (`Spec.v`, `Props*.v`)**: the property files contain only theorem
   statements closed by `exact`, each followed by `Print Assumptions`, and non-vacuity examples.
   `*Thms.v` contain the proofs.

How to read a statement: `always D prog m P` says that no schedule of `prog` started in `m` has
undefined behaviour, every schedule that finishes ends in a memory satisfying `P`, and some schedule
finishes. `exec D prog m (OK m')` says that some schedule ends in `m'`.

## 2. Property by property

| id | modelled / proved by |
|----|------|
| C01 | constructor = list of launches; ownership of each written element by one (irow,icol); DRF theorem |
| C02 | checked `Int` arithmetic in the constructor; exact iff |
| C03 C04 C05 C06 | closed forms of the connectivity left in memory by the constructor, `nb_j` bijective |
| C07 | both directions, witness cell in row 0 for odd ny |
| C08 C09 | over R, congruence modulo periods |
| C10 C11 | over R, per-cell antisymmetric table; evaluation of the 10 weights |
| C12 C13 C14 | over R, vertex/cell star unfolding with even-ny neighbour identities |
| C15 | integer arithmetic; `C15_binary64_ceiling`: the double division rounds harmlessly (Flocq's theory of rounding; the statement uses `SpecFloat` only) |
| C16 C18 C20 C21 C22 C37 C38 | refinement of compute_tendency to pure formulas, generic in `Arith` |
| C17 | a thread of the first kernel makes an invalid access on every path (`Doomed.v`) |
| C19 | SIMD formulas = scalar formulas over R; hyperviscosity counterexample |
| C23 C47 | RK4 with hook and disabled terms; constructors of the steppers |
| C24..C27 | summation by parts; lifted through steppers by induction over steps |
| C28 C29 | adjointness of grad/div and antisymmetry of weights |
| C30 C31 C32 | formulas evaluate to 0 / proportional; induction over steps |
| C33 C34 | discrete Green identities |
| C35 C36 | real inequalities; trapping arithmetic |
| C39 C40 C41 C43 C46 | refinement of the steppers to pure step functions |
| C42 | binary64 instance: NaN absorbs |
| C44 C45 | polynomial identities / rational interval evaluation; exact solutions of forced uniform states |
| C48 | frame part of refinement |
| C49 | relation of all reduction orders, equals the sum over R |
| C50 | noninterference of the pure formulas |
| C51 | uniform states are closed under the tendency; RK4 amplification polynomial |
| C52 C53 C54 | whole programs as launch lists; invariants of C25, C27 along the loop; NaN comparisons in binary64 |
| C55..C58 | derivatives of the test functions, computed by the rules of `Deriv.v` |
| C59 | refinement + the operators of `Spec.v`, over R |
| C60 C61 C62 | Taylor expansion of the stencils with explicit remainder constants, stencil = mesh operator on samples |
| C65 | the same expansion applied twice; bound of the stencil on the remainder; exact symbol on a plane wave |
| C66 | closed form of the velocity tendency; the curl of a gradient vanishes, of the reconstructed flux is the flux divergence at vertices; stage by stage through both steppers |
| C67 | the closed form of the tracer tendency is linear in the tracer; a generic lemma carries any linear relation that the tendency respects through both steppers |
| C68 | at rest the tendency is 4 kappa/dc^2 (mean of the six neighbours - value); a step of each scheme is a polynomial of it, whose weights on iterated means are nonnegative for 4 kappa dt <= dc^2 |
| C69 | sampled cosines are eigenvectors of the discrete Laplacian, a step multiplies an eigenvector by the stability polynomial, induction over the steps; Taylor bounds of the cosine |
| C70 | the polynomials are at most 1 in modulus on [-2.78, 0], [-4.5, 0], [-2, 0] (sums of squares) and rates lie there; the wave with eigenvalue -6/dc^2 for the refutation |
| C71 | C69 for the test's wave (a sum of two plane waves), the sum of its squares over the mesh is ncells/4 since waves with nonzero eigenvalue have mean 0; explicit bounds of exp and of the eigenvalue give the error and the rate |
| C72 | a flow without tendency is a fixed point of every stage, so all stages apply the same operator (extracted from the real valued formula of the tendency); Runge-Kutta stages compose to a polynomial in it |
| C73 | a pair of real waves is an eigenvector over the complex numbers of the operator of C72; superposition; sine bounds for the frequency (the three edge directions form a tight frame) |
| C74 | the polynomials have modulus at most 1 on an interval of the imaginary axis (even polynomials in dt om); for forward Euler the modulus is 1 + (dt om)^2 |
| C75 | C73, the error of the polynomial against exp(i y) per step, the error of the frequency; induction over the steps |
| C76 | kernels by `hsafe`; maximum reductions by induction over all groupings; exact trigonometric error formulas at every edge, cell and vertex (`OpNum.v`), bounds, and a point where each bound is nearly attained |
| C77 | the tangent of every formula at the fluid at rest by the product rule (`Tangent.v`): the tangent of a tendency is one linear operator, so the run is the stability polynomial of it (`LinStep.v`), by induction over the steps |
| C78 | the linear operator is skew for the energy (`SumParts.v`: integration by parts, the reconstruction does no work) and bounded (`LinNorm.v`); the polynomials contract on skew operators below the bound; abstract in `LinEnergy.v` |
| C79 | curl of gradient zero, curl of the reconstruction = vertex mean of the divergence, and its adjoint: reconstruction of a rotated gradient = - gradient of the vertex mean |
| C80 | eigenvectors of the Laplacian (C69) give two dimensional invariant spaces; error of the polynomial against exp(i y) as in C75; error of om from the eigenvalue bounds |
| C81 | the reconstruction as a sum of contractions (around every cell and vertex) and summation over the edges |
| C82 | binary64 through Flocq (`FloatFacts.v`): each operation is a rounding with relative error 2^-53 or exact below it; the two cells of an edge receive the same rounded flux with opposite signs (multiplication by +-1 is exact), so only the sums over the six edges, the division by the area and the update round (`FloatMass.v`, `FloatRun.v`); for a fixed velocity the sizes are an invariant (`FloatAlong.v`, `FloatAdv.v`) |
| C83 | every kernel in binary64 on equal thicknesses and zero velocities gives a zero (differences of equal numbers, products with a zero); the ranges exclude overflow and 0/0 (`FloatRest.v`) |
| C84 | energy method (`AdvEnergy.v`): in the norm weighted with 1/h the centred transport is skew up to a term bounded by the divergence of the mass flux; the stability polynomials nearly contract on skew operators (`LaxAbs.v`, `AdvLax.v`); consistency by Taylor expansion uniformly in time (`UTaylor.v`); induction over the steps with the error of every step (`AdvConv.v`). As for C60-C62 the constant is explicit in bounds of the stencil at every spacing |
| C85 | C84 for the flow of the test (`UCompose.v`: exp, cos, sin of smooth functions), reductions by induction over all groupings |
| C86 | `Poinc.v`: the weights applied twice to the gradient of a plane wave are -Mu times it, by trigonometry on the three edge directions; `PoincRun.v`: recursion of the three amplitudes; `PoincThms.v`: oscillator error (C80) plus the errors of the frequency and of the balanced part |
| C87 | `Sim.v`: if the eleven mesh operators of two setups agree up to renumbering, orientation and factors (`mesh_sim`), the tendencies (formulas of C59) agree up to the factors, hence all stages and runs of both steppers; `SimScale.v`: meshes of different spacing satisfy `mesh_sim`; `SimThms.v`: programs in different units, layers and builds |
| C88 | `TestNl.v`: the rest of the two programs; C87 between the build at hand and a reference build gives equal errors in all layers, the reduction has one value over the reals; the factor sqrt(nlayers) cancels in the rate |
| C89 | `MirrorHex.v`: the mirror maps of cells, edges and vertices permute the slots of the connectivity; `SimMirror.v`: hence `mesh_sim` (C87) holds between the mesh and its mirror image, and composes; `MirrorThms.v`: positions and angles are mirrored modulo the periods |
| C90 | `Lip.v`: functionals of the fields that are bounded and Lipschitz on boxes with positive thickness are closed under sums, products and quotients, so every tendency is one; `TimeStep.v`: a step of either stepper is a forward Euler step up to dt^2; `TimeConv.v`: a solution stays in a box (continuity on a compact interval), discrete Gronwall, bootstrapping so that the run stays in the box |
| C91 | `Diff.v`: every tendency has a linear derivative with a quadratic remainder on boxes with positive thickness; `Order4.v`: an RK4 step as a function of the fields, Taylor's formula up to order five; `LocalErr.v`: from an exact solution one step is wrong by O(h^5), by expanding the four stages (this is where the order conditions enter); `OrderConv.v`: a step amplifies errors by at most 1 + 2Mh, so the local errors sum to C/N^4; `Smooth.v`, `SmoothT.v`: solutions have five bounded derivatives, because tendencies are rational functionals, a class closed under differentiation along the flow; `Order4Thms.v`, `PropsOrder.v` | proved; for RK4 only: the coefficients of the five stage LSRK stepper satisfy the order conditions only up to about 1e-25, so no such bound with an unspecified C holds for it |
| C92 | `Picard.v`: Picard iteration on a short interval: antiderivatives of continuous functions from the Riemann integral of the standard library, the iterates contract by 1/2, their limit is a fixed point; `ExistThms.v`: bounds for the tendencies near the state; uniqueness because both solutions are the limit of the same runs (C90); runs alone by C91; `PropsExist.v` | proved; existence is local in time |
| C93 | `EnergyThms.v`: the energy as a functional of the fields; its derivative along a solution is the sum that `energy_rate` (C28) shows to vanish; it is Lipschitz on boxes, so the errors of C90 and C91 carry over; `PropsEnergy.v` | proved |
| C94 | `OrderConv.v`: a step applied to two states near the solution amplifies their difference by at most 1 + 2Mh (`stable2`); sum over the steps with an initial error; `Order4Thms.v`, `PropsOrder.v` | proved |
| C95 | `RevThms.v`: the tendencies of the setup with reversed rotation at the reversed state are the time-reversed ones (`rev_ff`, from `sim_tend` of C87 with time factor -1), so the reversed solution is a solution; C91 on the way out, C94 on the way back; `PropsRev.v` | proved |
| C96 | `VarThms.v`: summation by parts of the tendencies of thickness and tracer against r^2 and 2r gives the rate (`C96_variance_rate`), the chain rule and the mean value theorem the statement along solutions, and a general transfer lemma for functionals of the state (`func_transfer`, from C90, C91) the one about runs; `PropsVar.v` | proved |
| C97 | `HypThms.v`: the Gauss theorem twice turns the variance work into a sum over edges of h (grad r) (grad lap r); uniform h makes it minus a sum of squares; three cells in a row with one very thick cell make it positive, on every mesh; `PropsHyp.v` | proved for uniform thickness, refuted in general |
| C98 | `HeatSpec.v` (the solution and its bounds), `HeatPlane.v`: second differences along the three directions, with explicit constants, and the mean over the six neighbours; `HeatThms.v`: a step is a contraction in the maximum norm (C68) and its local error is dt (57 dc^2 + 8 slack) kappa M; `PropsHeat.v` | proved |
| C99 | the method of C82 for tracers (`TrFloat.v`: rounding of each tracer flux; `TrFlux.v`: the two cells of an edge receive the same rounded flux with opposite signs; `TrRun.v`: steps and runs); sizes kept by induction over the statements for a fixed flow (`TrAlong.v`, `TrAdv.v`); `TrFloatThms.v`, `PropsTrFloat.v` | proved |
| C100 | absolute error calculus (`NearFloat.v`: a number within ((1+2^-53)^k - 1) b of a real bounded by b), one evaluation and one RK4 step on a resting state (`HeatFloat.v`), then the exact step as the polynomial of C98 in the averaging operator, maximum principle and local error by induction over the run (`HeatFloatThms.v`); the same for one step and a run of the low storage method (`HeatLsrk.v`, `HeatLsrkThms.v`); `PropsHeatFloat.v` | proved |
| C101 | the outflow of a cell is at most 4 V b / dc, and with one edge flowing out of a nearly dry cell it does not vanish with the thickness of the cell (centred flux); each RK4 stage starts within 1/8 of the first state (`DrainThms.v`); `PropsDrain.v` | proved (finding: no Courant number keeps the thickness positive) |
| C102 | a polynomial in a symmetric operator with values in [0, 1] is a contraction of the mean square if the degree 10 Bernstein coefficients of 1 - p^2 are nonnegative: positivity of the Bernstein moments by symmetry and Schwarz (`SymStep.v`), coefficients checked for the three methods; the Laplacian of the mesh is symmetric with values in [-6/dc^2, 0] (summation by parts and the sharp gradient bound of C78); fourth differences with explicit constants (`HyperPlane.v`); local error and induction over the run (`HypdThms.v`); `PropsHypd.v` | proved |
| C103 | a Poincare inequality on the mesh by walks along rows and columns (`Poincare.v`), the Bernstein coefficients of 1 - 4/5 t - p^2 (`SymStep.v`), mean kept by symmetry, induction over the steps (`HypdThms.v`); `PropsHypd.v` | proved |
| C104 | `EnergyBudget.v`: the energy of y + eps k is a cubic in eps whose linear coefficient is the inviscid one (C28, zero) plus the viscous work, by the mean over cells of edge products; uniform thickness reduces the work to C34; two edges in a row next to one very thick cell make it positive; `PropsBudget.v` | proved; dissipation for any thickness refuted |
| C105 | `Hodge.v`: zero vorticity makes the difference of the velocity along x the gradient of its x component, which is then harmonic and constant (C97's lemma on zero Laplacians); the other components follow row by row; `HodgeThms.v` turns this into the equality case of C104; `PropsHodge.v` | proved |
| C106 | `RestThms.v`: the edges connect all cells, for even and odd numbers of rows; without motion only the pressure gradient is left in the velocity tendency, and D - a Laplacian of D in that of a tracer; testing with D and then with the concentration gives D = 0 and a uniform concentration; `PropsRest.v` | proved |
| C107 | `ViscSteady.v`: in a steady state the energy is constant along the tendency, so by the equality case of C105 the flow is uniform, and C51 gives its tendency; `PropsViscSteady.v` | proved |
| C108 | `LeastEnergy.v`: completing the square, E - g mean M / 2 is the sum of area (g (h - mean)^2 / 2 + h kin), whose terms are not negative; the kinetic energy of a cell is zero only if its edges are at rest; `PropsLeast.v` | proved |
| C109 | `StableThms.v`: energy (C93) and mass (C24) are constant along a solution; by C108 a state with non-negative thickness has all thicknesses above a positive bound; the least thickness is continuous, so it cannot cross the gap (intermediate value theorem); `PropsStable.v` | proved |
| C63 C64 | equivariance of every formula under renumbering; translations commute with the connectivity slot by slot |

Note on C60-C62: `mesh_ok` bounds the number of cells by INT_MAX, so for a fixed domain there are
finitely many meshes and "there is a C for all meshes" alone would be trivial. Hence the statements
give one C for the explicit stencil at every spacing d <> 0 and every point of the plane, and equate
the mesh operator with the stencil on every mesh.

## 3. Trusted base

* Coq's kernel (8.16.1; `coqchk` re-checks the compiled files) and the standard library. The only axioms are those of the standard
  library: `ClassicalDedekindReals.sig_forall_dec`, `ClassicalDedekindReals.sig_not_dec` and
  `FunctionalExtensionality.functional_extensionality_dep` (real numbers), and
  `Classical_Prop.classic` (through standard library lemmas on limits and on derivatives, and through Flocq).
  `ASSUMPTIONS.md` lists what `Print Assumptions` says for each theorem
  (generated by `tools/gen_assumptions.py`). No axioms of our own.
* Definitions used in the statements: `Arith.v`, `Arrays.v`, `Prog.v` (memory, accesses, kernels),
  `Conc.v` up to `always`, the code model, `Spec.v`, `Stencil.v`, the transparent predicates at the
  head of the `*Thms.v` files.
* The reading of the C++ text. Nothing is extracted from or run against /repo.

## 4. Modelled / not modelled

Modelled: everything in `src/mesh`, `src/model`, `src/time_integration`, `src/common.hpp`'s
`omega_parallel_for/reduce` contract, `vector_length`, the `additional_tendency` hook of
`test/nonlinear_swe_convergence.cpp` with arbitrary forcing functions, the program structure of
`benchmark/benchmark.cpp` and `test/*.cpp` (construction, initial state, time loop, the checks of
`double_vortex`), the analytic functions of the tests, and parameters, step size, error norm and
verdict of the tracer diffusion and hyperdiffusion tests and of the operator test, and parameters,
step size, error norm and verdict of the tracer advection and nonlinear convergence tests.

Not modelled: `src/shallow_water_hierarchical.cpp` (not part of the build, includes a missing
header), Caliper timers, I/O, GPU memory spaces,
Kokkos internals (tiling is subsumed by arbitrary interleaving), compiler re-association / FMA
contraction (the generic theorems assume each source operation is performed as written), weak memory
(race-free programs are sequentially consistent by the C++ DRF guarantee), allocation failure,
performance. `readme`-level claims are not properties of the code.

Simplifications made throughout: loop bounds read from arrays (`m_nedges_on_cell(i)`) are read once
before the loop rather than before every iteration (no thread of the launch writes them); the
literals 0.5 and 0.25 are the quotients 1/2 and 1/4 (exact in binary64); `omp simd` loops run their
iterations in order.

## 5. Where the code does not do what one would expect

Each item is a theorem or follows from one.

* With both `OMEGA_NO_SIMD` and `OMEGA_KOKKOS_SIMD` every run makes an out-of-bounds access (C17).
* The SIMD version of the curl in the hyperviscosity broadcasts lane 0 to all layers of a vector, so
  SIMD builds with more than one lane differ from scalar ones, and their hyperviscosity can increase
  the kinetic energy (C19, C34 refuted for SIMD).
* With an odd number of rows adjacency is not reciprocal, curl grad is not 0, and moving by rows is
  not a symmetry (C07, C12, C63). `double_vortex` uses nx = 25, ny = 29, `benchmark` uses ny = nx.
* `double_vortex` puts a state of period m_ly = 5e6 on a mesh whose height is never m_ly (C55); its
  conservation checks pass on NaN (C54).
* The viscous term does not approximate the Laplacian: on x-facing edges it tends to 5/4 of u_xx for
  u = u(x) (C62). The hyperviscous term, which applies it twice, diverges like 1/dc^2 on smooth
  velocities: on x-facing edges it is at least nx^2/12 times the biharmonic operator (C65).
* `circulation_integral` does not depend on the state (C27); the diagnostics count padding layers (C49).
* A disabled tendency with a forcing hook accumulates over RK4 stages and steps (C23).
* LSRK multiplies an uninitialised-or-stale tendency by 0: a NaN there never goes away (C42); a stage
  count other than 1 and 5 makes `do_step` do nothing (C43).
* `m_drag_coeff` has no effect; the length clamp in the hyperviscosity has none on these meshes (C35).
* The discrete curl is only first order accurate (C76; `operator_convergence` expects rate 1).
* Advection with one stage LSRK (forward Euler) is unstable for every step size (C74), and so is every disturbance of
  the fluid at rest that is not stationary (C78).
* A nonnegative tracer can become negative: in one forward Euler step of pure advection with any step size (C68).
* A positive thickness can become negative at every Courant number, with forward Euler and with RK4 (C101).
* The step size of the hyperdiffusion test is unstable with RK4: a short wave grows by 8.52 per step (C70).
* The second Laplacian of the tracer hyperdiffusion is not weighted with the thickness (C59).
* Tracer hyperdiffusion is div grad div (h grad r), the product of two different operators: where the thickness varies it can
  increase the variance of a tracer (C97). Hyperviscosity of the velocity reduces the weighted sum of its squares in scalar kernels, whatever the thickness (C34).
* Viscosity is applied to the velocity without the thickness: where the thickness varies it can increase the total energy (C104).
* `m_f0` is not set by the tracer tests (harmless, C50). The thickness of the advection test does not
  satisfy the thickness equation (C57).
* `OMEGA_VECTOR_LENGTH` as a CMake option is not passed to the compiler. `PlanarHexagonalMesh(nx, ny, 5)` with an int
  as third argument picks another overload than with a double.

Disagreements between first formulations of the properties and the code were resolved in favour of
the code; the statement in `properties.jsonl` says so ("refuted", "exactly when", "except").

## 6. Testing the theorems

`tools/mutate.py` edits the model in a scratch copy as a bug would, rebuilds with failing proofs
admitted and reports which property theorems still hold without an admitted lemma. `seeded/mutants.py`
has the edits, `seeded/LOG.jsonl` the outcomes.
