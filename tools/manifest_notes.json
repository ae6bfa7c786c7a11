{
 "C19": {
  "note": "Both directions: equality where it holds, and a state where the builds differ."
 },
 "C34": {
  "note": "The natural claim for all builds is false; the theorem with suffix _refuted gives a velocity field whose energy the explicit SIMD hyperviscosity increases."
 },
 "C42": {
  "note": "A defect of the code, proved to occur."
 },
 "C55": {
  "note": "Balance and the x period are proved; periodicity in y is refuted for every nx."
 },
 "C62": {
  "note": "The claim of the title is refuted; the exact limit is proved."
 },
 "C63": {
  "note": "Proved for even ny and all shifts and for odd ny and shifts along rows; refuted for odd ny and shifts across rows."
 },
 "C65": {
  "note": "The claim of the title is refuted; the exact leading term is proved."
 },
 "C68": {
  "note": "The maximum principle is proved at rest; it is refuted for larger steps and with advection."
 },
 "C70": {
  "note": "Proved for the stated limits; refuted for RK4 with the step size of the hyperdiffusion test."
 },
 "C71": {
  "note": "Exact arithmetic; the hyperdiffusion theorems assume that the number of steps fits in an Int (n up to 1076)."
 },
 "C73": {
  "note": "Exact arithmetic; no Coriolis force unless the velocity tendency is disabled (a uniform flow is otherwise not steady)."
 },
 "C74": {
  "note": "The stability half is proved for RK4 and five stage LSRK; for one stage LSRK the claim is refuted."
 },
 "C77": {
  "note": "Exact arithmetic; no manufactured forcing and both tendencies enabled."
 },
 "C78": {
  "note": "Proved for RK4 and five stage LSRK without viscosity; for one stage LSRK the claim is refuted. The statement is about the derivative at the fluid at rest, not about disturbances of finite size."
 },
 "C82": {
  "note": "Binary64 (round to nearest even). The general bound assumes that the run stays within the stated sizes; for runs with a fixed velocity and no tracers this is proved. Excluded: build with the noif option in that corollary."
 },
 "C83": {
  "note": "Binary64 (round to nearest even), one rounding per operation (no fused multiply add)."
 },
 "C84": {
  "note": "The constant grows exponentially with the final time and is far from sharp; the order (dc^2, dt^4) is the content. For uniform thickness and waves C75 has sharp constants."
 },
 "C85": {
  "note": "The error bound. The verdict of the test (rate within 0.05 of 2 from n = 50 to n = 100) needs the leading term of the error and is not claimed."
 },
 "C86": {
  "note": "First order in the disturbance (the derivative at the fluid at rest), like C77 and C80."
 },
 "C87": {
  "note": "Exact arithmetic. A component that is disabled together with a forcing is excluded, as in C44 to C47 (the tendency of a disabled component is not reset)."
 },
 "C88": {
  "note": "That the verdict is the same everywhere; which verdict it is (rate within 0.05 of 2) is not claimed."
 },
 "C89": {
  "note": "Exact arithmetic. The rotation by 60 degrees is not a symmetry of the rectangular periodic domain. A component that is disabled together with a forcing is excluded, as in C87."
 },
 "C90": {
  "note": "Exact arithmetic, fixed mesh; that a solution exists is a hypothesis (met for some time from every state with positive thickness, C92). A component that is disabled together with a forcing is excluded, as in C87."
 },
 "C91": {
  "note": "Exact arithmetic, fixed mesh, RK4. Existence of the solution is a hypothesis, its smoothness is not. The exclusion of C90 applies."
 },
 "C92": {
  "note": "Exact arithmetic, fixed mesh; existence for some positive time (thickness may reach zero later). The exclusion of C90 applies to the statement about runs."
 },
 "C93": {
  "note": "Exact arithmetic, fixed mesh. The constants are not given explicitly."
 },
 "C94": {
  "note": "Exact arithmetic, fixed mesh, RK4. The constant is not given explicitly (it is exp(2MT) up to the smallness conditions, M a Lipschitz constant of the tendencies). The exclusion of C90 applies."
 },
 "C95": {
  "note": "Exact arithmetic, fixed mesh, RK4. The constants are not given explicitly."
 },
 "C96": {
  "note": "Hyperdiffusion is excluded: its variance work is the product of two quadratic forms and has no sign for nonuniform thickness. Exact arithmetic. Runs and solutions with positive thickness; nonnegative tracers are not assumed."
 },
 "C97": {
  "note": "Proved for uniform thickness; refuted for varying thickness."
 },
 "C98": {
  "note": "Fluid at rest and uniform thickness. Beside it, decaying products of cosines are shown to be such solutions."
 },
 "C99": {
  "note": "The bounds during the run are a hypothesis of C99_tracer_drift (between the statements of the program) and are proved in C99_frozen_flow for a fixed flow. Exact conservation over the reals is C26."
 },
 "C100": {
  "note": "RK4 and five stage LSRK. The cosine and sine of the platform enter the mesh coordinates but not this result: at rest the tendencies use only lengths and areas."
 },
 "C101": {
  "note": "The two theorems with the suffix _refuted refute the claim that a small Courant number keeps the thickness positive; their witnesses are explicit states. Real arithmetic."
 },
 "C102": {
  "note": "Fluid at rest and uniform thickness. Strengthens C70 from single waves to all tracer fields. Beside it, decaying products of cosines are shown to be solutions."
 },
 "C103": {
  "note": "Fluid at rest and uniform thickness. The rate has the right dependence on the size of the domain; its constant is not sharp."
 },
 "C104": {
  "note": "The rate of change along the exact tendency, not of a discrete step. The unrestricted claim that viscosity never raises the energy is refuted by C104_viscosity_dissipates_energy_refuted."
 },
 "C105": {
  "note": "Even numbers of rows, exact arithmetic. The second theorem is about the rate of change along the exact tendency."
 },
 "C106": {
  "note": "The converse of C30, for the tendency of single layers. Exact arithmetic, even and odd numbers of rows."
 },
 "C107": {
  "note": "Layers of uniform thickness only: with rotation other steady states of varying thickness are not excluded. Even numbers of rows, exact arithmetic."
 },
 "C108": {
  "note": "Layers are all layers of the views, including padding, because the diagnostics count them (C49). Exact arithmetic."
 },
 "C109": {
  "note": "For solutions of the discrete equations in continuous time and exact arithmetic (the runs converge to them by C90 and C91), while they exist. Velocities are bounded only through the energy. Layers include padding."
 }
}