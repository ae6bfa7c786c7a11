(** Properties of the test programs. *)
From Coq Require Import ZArith Reals List Bool Lia Lra SpecFloat.
From Verif Require Import Arith Arrays Prog Conc Launch Mesh AuxVars Tend Model RSum Ready StepVal Driver TestFns TestThms PropsCons.
Import ListNotations.
Open Scope R_scope.

(** C54: test/double_vortex in exact arithmetic, for every resolution and any number and size of time steps: the values mass_change and cir_change the program computes at the end are well defined and 0, so the checks in l.159 and l.162 do not throw.  [ny] is the result of [std::ceil] in l.83. *)
Theorem C54_double_vortex_checks_pass :
  forall (cf : config) (nx ny : Z) (steps : list (R * R)), let S := DV.setup cf nx ny in
  (2 <= nx)%Z -> IZR ny - 1 < DV.rows nx <= IZR ny -> setup_ok S ->
  always (sdims S) (program S (LSRK 5) DV.init steps) (mzero RA) (fun m' =>
    exists m, exec (sdims S) (prologue S (LSRK 5) DV.init) (mzero RA) (OK m) /\ exec (sdims S) (stepper_run S (LSRK 5) steps) m (OK m') /\
    exists mass0 massf cir0 cirf : R,
    (forall r, mass_integral S St m r <-> r = Some mass0) /\ (forall r, mass_integral S St m' r <-> r = Some massf) /\
    (forall r, circulation_integral S St m r <-> r = Some cir0) /\ (forall r, circulation_integral S St m' r <-> r = Some cirf) /\
    0 < mass0 /\ 0 < cir0 /\ (massf - mass0) / mass0 = 0 /\ (cirf - cir0) / cir0 = 0).
Proof. exact C54_double_vortex_checks_pass_proof. Qed.
Print Assumptions C54_double_vortex_checks_pass.

(** Non-vacuity: the default resolution nx = 25 has ny = 29 rows. *)
Example C54_applies : setup_ok (DV.setup (mkConfig false false false 4) 25 29) /\ IZR 29 - 1 < DV.rows 25 <= IZR 29.
Proof.
  split; [ok|]. pose proof (dv_rows 25 ltac:(lia)) as E. pose proof sqrt3_lo. pose proof sqrt3_sq.
  assert (DV.rows 25 = 50 / 3 * sqrt 3) by (apply Rmult_eq_reg_r with (sqrt 3); lra). split; [|nra].
  rewrite H1. enough (168 / 100 < sqrt 3) by lra. lra.
Qed.

(** C54, binary64: none of the three checks fails when the final value is a NaN: the test in l.159-167, [std::abs((final - initial) / initial) > tol], is false. *)
Theorem C54_nan_passes_the_checks :
  forall (initial tol : spec_float),
  SFltb tol (SFabs (SFdiv 53 1024 (SFsub 53 1024 S754_nan initial) initial)) = false.
Proof. exact C54_nan_passes_the_checks_proof. Qed.
Print Assumptions C54_nan_passes_the_checks.

(** In contrast, an infinite final mass is noticed. *)
Example C54_infinity : SFltb (binary_normalize 53 1024 1 (-44) false)
  (SFabs (SFdiv 53 1024 (SFsub 53 1024 (S754_infinity false) (binary_normalize 53 1024 1000 0 false)) (binary_normalize 53 1024 1000 0 false))) = true.
Proof. reflexivity. Qed.

(** C55: the initial velocity of test/double_vortex is in geostrophic balance with the initial thickness, f * vy = g * dh/dx and f * vx = - g * dh/dy, and free of divergence. *)
Theorem C55_double_vortex_is_balanced :
  forall x y : R,
  (exists hx, derivable_pt_lim (fun s => DV.h s y) x hx /\ DV.coriolis * DV.vy x y = DV.g * hx) /\
  (exists hy, derivable_pt_lim (fun s => DV.h x s) y hy /\ DV.coriolis * DV.vx x y = - DV.g * hy) /\
  (exists ux vy, derivable_pt_lim (fun s => DV.vx s y) x ux /\ derivable_pt_lim (fun s => DV.vy x s) y vy /\ ux + vy = 0).
Proof. exact C55_double_vortex_is_balanced_proof. Qed.
Print Assumptions C55_double_vortex_is_balanced.

(** C55: the initial thickness of test/double_vortex has the period of the mesh in x but never in y, whatever the resolution: the number of rows is rounded up, so the height of the mesh is between m_ly and 2 * m_ly but never m_ly.  Counterexamples (values at y and y + period_y that differ) exist for every nx. *)
Theorem C55_double_vortex_periodic_refuted :
  forall (cf : config) (nx ny : Z), let S := DV.setup cf nx ny in
  (1 <= nx)%Z -> IZR ny - 1 < DV.rows nx <= IZR ny ->
  (forall x y, DV.h (x + period_x (mesh_of_setup S)) y = DV.h x y) /\
  DV.ly < period_y (mesh_of_setup S) < 2 * DV.ly /\
  exists x y, DV.h x (y + period_y (mesh_of_setup S)) <> DV.h x y.
Proof. exact C55_double_vortex_periodic_refuted_proof. Qed.
Print Assumptions C55_double_vortex_periodic_refuted.

Example C55_applies : IZR 29 - 1 < DV.rows 25 <= IZR 29.
Proof. apply C54_applies. Qed.

(** C56: with the functions of test/nonlinear_swe_convergence the thickness and momentum equations of the shallow water system hold exactly with the forcing the test adds: h_t + (h vx)_x + (h vy)_y = h_tend, vx_t + vx vx_x + vy vx_y - f vy + g h_x = vx_tend, vy_t + vx vy_x + vy vy_y + f vx + g h_y = vy_tend. *)
Theorem C56_manufactured_solution_solves_the_equations :
  forall x y t : R,
  exists ht fx fy hx hy ut ux uy vt vx vy : R,
  derivable_pt_lim (fun s => MS.h x y s) t ht /\ derivable_pt_lim (fun s => MS.h s y t * MS.vx s y t) x fx /\
  derivable_pt_lim (fun s => MS.h x s t * MS.vy x s t) y fy /\
  derivable_pt_lim (fun s => MS.h s y t) x hx /\ derivable_pt_lim (fun s => MS.h x s t) y hy /\
  derivable_pt_lim (fun s => MS.vx x y s) t ut /\ derivable_pt_lim (fun s => MS.vx s y t) x ux /\ derivable_pt_lim (fun s => MS.vx x s t) y uy /\
  derivable_pt_lim (fun s => MS.vy x y s) t vt /\ derivable_pt_lim (fun s => MS.vy s y t) x vx /\ derivable_pt_lim (fun s => MS.vy x s t) y vy /\
  ht + fx + fy = MS.h_tend x y t /\
  ut + MS.vx x y t * ux + MS.vy x y t * uy - MS.f0 * MS.vy x y t + MS.grav * hx = MS.vx_tend x y t /\
  vt + MS.vx x y t * vx + MS.vy x y t * vy + MS.f0 * MS.vx x y t + MS.grav * hy = MS.vy_tend x y t.
Proof. exact C56_manufactured_solution_solves_the_equations_proof. Qed.
Print Assumptions C56_manufactured_solution_solves_the_equations.

(** C56: the periods of the mesh of test/nonlinear_swe_convergence are m_lx and m_ly for every resolution, and solution and forcing have these periods at all times. *)
Theorem C56_manufactured_solution_is_periodic :
  forall (cf : config) (n : Z) (f : R -> R -> R -> R), (1 <= n)%Z ->
  In f [MS.h; MS.vx; MS.vy; MS.h_tend; MS.vx_tend; MS.vy_tend] ->
  forall x y t, f (x + period_x (mesh_of_setup (MS.setup cf n))) y t = f x y t /\ f x (y + period_y (mesh_of_setup (MS.setup cf n))) t = f x y t.
Proof. exact C56_manufactured_solution_is_periodic_proof. Qed.
Print Assumptions C56_manufactured_solution_is_periodic.

(** C57: the functions the three tracer tests compare with solve the equations the tests are about: tr_t + (vx tr)_x + (vy tr)_y = 0 (advection; tr is the thickness-weighted concentration and h is steady but h_t + div(h v) is not 0, see C57_advection_thickness), tr_t = diff2 * Laplacian(tr) and tr_t = - diff4 * Laplacian(Laplacian(tr)) (with h = 1 the concentration is tr). *)
Theorem C57_tracer_tests_exact_solutions :
  (forall x y t, exists tt fx fy, derivable_pt_lim (fun s => TA.tr x y s) t tt /\
     derivable_pt_lim (fun s => TA.vx s y t * TA.tr s y t) x fx /\ derivable_pt_lim (fun s => TA.vy x s t * TA.tr x s t) y fy /\ tt + fx + fy = 0) /\
  (exists tx ty txx tyy : R -> R -> R -> R, forall x y t,
     derivable_pt_lim (fun s => TD.tr s y t) x (tx x y t) /\ derivable_pt_lim (fun s => TD.tr x s t) y (ty x y t) /\
     derivable_pt_lim (fun s => tx s y t) x (txx x y t) /\ derivable_pt_lim (fun s => ty x s t) y (tyy x y t) /\
     derivable_pt_lim (fun s => TD.tr x y s) t (TD.diff2 * (txx x y t + tyy x y t))) /\
  (exists tx ty lap lx ly lxx lyy : R -> R -> R -> R, forall x y t,
     derivable_pt_lim (fun s => TH.tr s y t) x (tx x y t) /\ derivable_pt_lim (fun s => TH.tr x s t) y (ty x y t) /\
     (exists txx tyy, derivable_pt_lim (fun s => tx s y t) x txx /\ derivable_pt_lim (fun s => ty x s t) y tyy /\ lap x y t = txx + tyy) /\
     derivable_pt_lim (fun s => lap s y t) x (lx x y t) /\ derivable_pt_lim (fun s => lap x s t) y (ly x y t) /\
     derivable_pt_lim (fun s => lx s y t) x (lxx x y t) /\ derivable_pt_lim (fun s => ly x s t) y (lyy x y t) /\
     derivable_pt_lim (fun s => TH.tr x y s) t (- TH.diff4 * (lxx x y t + lyy x y t))).
Proof. exact C57_tracer_tests_exact_solutions_proof. Qed.
Print Assumptions C57_tracer_tests_exact_solutions.

(** C57: in test/tracer_advection_convergence the thickness is not a solution of the thickness equation (the test disables its tendency): at some point h_t + (h vx)_x + (h vy)_y is not 0. *)
Theorem C57_advection_thickness :
  exists x y fx fy, derivable_pt_lim (fun s => TA.h x y s) 0 0 /\ derivable_pt_lim (fun s => TA.h s y 0 * TA.vx s y 0) x fx /\
  derivable_pt_lim (fun s => TA.h x s 0 * TA.vy x s 0) y fy /\ 0 + fx + fy <> 0.
Proof. exact C57_advection_thickness_proof. Qed.
Print Assumptions C57_advection_thickness.

(** C58: the exact gradient, divergence and curl of test/operator_convergence are the derivatives of its fields, and all fields have the periods Lx, Ly. *)
Theorem C58_operator_test_formulas :
  forall Lx Ly : R, 0 < Lx -> 0 < Ly -> forall x y : R,
  derivable_pt_lim (fun s => OC.phi Lx Ly s y) x (OC.grad_x Lx Ly x y) /\ derivable_pt_lim (fun s => OC.phi Lx Ly x s) y (OC.grad_y Lx Ly x y) /\
  (exists ux vy, derivable_pt_lim (fun s => OC.v_x Lx Ly s y) x ux /\ derivable_pt_lim (fun s => OC.v_y Lx Ly x s) y vy /\ OC.exact_div Lx Ly x y = ux + vy) /\
  (exists uy vx, derivable_pt_lim (fun s => OC.v_x Lx Ly x s) y uy /\ derivable_pt_lim (fun s => OC.v_y Lx Ly s y) x vx /\ OC.exact_curl Lx Ly x y = vx - uy) /\
  (forall f, In f [OC.phi; OC.grad_x; OC.grad_y; OC.v_x; OC.v_y; OC.exact_div; OC.exact_curl] ->
     f Lx Ly (x + Lx) y = f Lx Ly x y /\ f Lx Ly x (y + Ly) = f Lx Ly x y).
Proof. exact C58_operator_test_formulas_proof. Qed.
Print Assumptions C58_operator_test_formulas.

Example C58_applies : 0 < 1 /\ 0 < sqrt 3 / 2.
Proof. pose proof sqrt3_pos. lra. Qed.

