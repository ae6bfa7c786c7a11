(** Convergence of the transport of tracers by any flow that does not change, for the whole program.
    [smooth n f]: all partial derivatives of [f] up to order [n] exist and are bounded; [usmooth n f]: the same for a family
    [f i], with bounds that hold for all [i]; [is_dx], [is_dy]: partial derivatives; [periodic px py f]: [f] has the periods. *)
From Coq Require Import ZArith Reals List Bool Lia Lra.
From Verif Require Import Arith Arrays Prog Conc Launch Mesh AuxVars Tend Model RSum Spec MeshProof Ready Relate StepVal Deriv Stencil Taylor Accur Sample Waves Driver PropsMesh PropsCons UTaylor UCompose ConvSpec ConvThms.
Import ListNotations.
Open Scope Z_scope.

(** C84: a tracer carried by a flow that does not change (thickness and velocity tendencies disabled, no forcing, no tracer diffusion) over any positive thickness converges to the solution of the transport equation.  After N steps with RK4 or five stage LSRK the root mean square of the error over the cells of every layer is at most C (dc^2 + dt^4), plus C 1e-25 for LSRK, whose coefficients are decimal fractions, when the Courant number dt vmax / dc is at most one.  C is [error_const]: a formula in the bounds on the data; no other dependence on the mesh, the step, the number of steps and the stepper. *)
Theorem C84_tracer_transport_converges :
  forall (st : stepper) (slack : R), (st = RK4 /\ slack = 0 \/ st = LSRK 5 /\ slack = 1 / 10 ^ 25)%R ->
  forall (S : setup RA), setup_ok S -> let h0 := mesh_of_setup S in let d := (dc h0 : R) in
  2 <= nx h0 -> Z.even (ny h0) = true -> (0 < d)%R -> hook S = None -> disable_h (par_of S) = true -> disable_vn (par_of S) = true ->
  ((eddy_diff2 (par_of S) : R) <= 0)%R -> ((eddy_diff4 (par_of S) : R) <= 0)%R ->
  forall (h U V : fn2) (us FX FY : nat -> R -> fn2) (hmin hmax vmax Te Cf Cr M : R),
  (0 < hmin)%R -> (forall x y, hmin <= h x y <= hmax)%R -> mild d h -> (0 < vmax)%R -> (forall x y, U x y * U x y + V x y * V x y <= vmax * vmax)%R ->
  transported U V us FX FY Te -> transport_bounds d h U V us Te Cf Cr M ->
  let per := periodic (period_x h0) (period_y h0) in per h -> per U -> per V -> (forall t, (0 <= t <= Te)%R -> per (us 0%nat t)) ->
  forall (dt : R) (N : Z) (tr : Z -> fn2), 1 <= N <= INT_MAX -> (0 <= dt)%R -> (dt * vmax <= d)%R -> (IZR N * dt <= Te)%R ->
  always (sdims S) (program S st (mkInitial (A:=RA) h U V tr) (loop_steps (A:=RA) N dt)) (mzero RA) (fun m' =>
    forall l k, 0 <= l < ntracers (par_of S) -> 0 <= k < d_nlayers (sdims S) -> (forall x y, tr l x y = us 0%nat 0%R x y) ->
    let err c := (mr m' (TrCell St) [l; c; k] - us 0%nat (IZR N * dt)%R (mr m' XCell [c]) (mr m' YCell [c]))%R in
    (sqrt (rsum (d_ncells (sdims S)) (fun c => err c * err c) / IZR (d_ncells (sdims S))) <= error_const hmin hmax Te Cf Cr M * (d ^ 2 + dt ^ 4 + slack))%R).
Proof. exact C84_tracer_transport_converges_proof. Qed.
Print Assumptions C84_tracer_transport_converges.

(** The bounds exist, and are the same at every spacing, for every smooth flow, thickness and solution.  ([usmooth 5]: the derivatives in space up to order 5 exist and are bounded for all times of the interval by the same number.) *)
Theorem C84_bounds_exist :
  forall (h U V : fn2) (us FX FY : nat -> R -> fn2) (hmin Te : R),
  smooth 5 h -> smooth 5 U -> smooth 5 V -> (0 < hmin)%R -> (forall x y, hmin <= h x y)%R ->
  (forall j, (j <= 5)%nat -> usmooth 5 (fun t : {t : R | (0 <= t <= Te)%R} => us j (proj1_sig t))) -> transported U V us FX FY Te ->
  exists hmax Cf Cr M : R, (forall x y, h x y <= hmax)%R /\ forall d : R, d <> 0%R -> transport_bounds d h U V us Te Cf Cr M.
Proof. exact C84_bounds_exist_proof. Qed.
Print Assumptions C84_bounds_exist.

(** Non-vacuity: a shear flow over a wavy bottom; the tracer [cos (a (x - U(y) t))], [U y = cos (b y)], is tilted more and more.
    Its j-th derivative in time is [(a U)^j cos (a (x - U t) - j pi/2)]. *)
Section Shear.
Local Open Scope R_scope.
Context (a b Te : R) (Ha : 0 < a).
Let U : fn2 := fun _ y => cos (b * y).
Let h : fn2 := fun x _ => 2 + cos (a * x).
Let th (j : nat) (t x y : R) : R := a * x - (a * U x y * t + INR j * (PI / 2)).
Let us (j : nat) (t : R) : fn2 := fun x y => (a * U x y) ^ j * cos (th j t x y).
Let FX (j : nat) (t : R) : fn2 := fun x y => - ((a * U x y) ^ Datatypes.S j * sin (th j t x y)).
Let FY (j : nat) (t : R) : fn2 := fun _ _ => 0.
Let ax : fn2 := fun x _ => a * x.
Lemma cos_ax n : smooth n (fun x y => cos (ax x y)).
Proof. apply (smooth_ext n (wave 1 a 0 0)); [|apply wave_smooth]. intros x y. unfold wave, ax. rewrite Rmult_1_l. f_equal. ring. Qed.
Lemma sin_ax n : smooth n (fun x y => sin (ax x y)).
Proof.
  apply (smooth_ext n (wave 1 a 0 (- (PI / 2)))); [|apply wave_smooth]. intros x y. unfold wave, ax. rewrite Rmult_1_l, <- cos_shift, <- cos_neg. f_equal. ring.
Qed.
Lemma shear_U n : smooth n U.
Proof. apply (smooth_ext n (wave 1 0 b 0)); [|apply wave_smooth]. intros x y. unfold wave, U. rewrite Rmult_1_l. f_equal. ring. Qed.
Lemma sin_next z j : sin z = cos (z - INR 1 * (PI / 2)) /\ INR (Datatypes.S j) * (PI / 2) = INR j * (PI / 2) + INR 1 * (PI / 2).
Proof. split; [rewrite <- cos_shift, <- cos_neg; f_equal; cbn; ring|rewrite S_INR; cbn; ring]. Qed.
Example C84_shear : smooth 5 h /\ smooth 5 U /\ smooth 5 (fun _ _ => 0) /\ (forall x y, 1 <= h x y) /\ (forall x y, U x y * U x y + 0 * 0 <= 1 * 1) /\
  (forall j, (j <= 5)%nat -> usmooth 5 (fun t : {t : R | 0 <= t <= Te} => us j (proj1_sig t))) /\
  transported U (fun _ _ => 0) us FX FY Te /\ forall d, mild d h.
Proof.
  assert (E : forall j t x y, us (Datatypes.S j) t x y = - (FX j t x y + FY j t x y)).
  { intros j t x y. unfold us, FX, FY. rewrite (proj1 (sin_next _ j)). replace (th (Datatypes.S j) t x y) with (th j t x y - INR 1 * (PI / 2)); [ring|].
    unfold th. rewrite (proj2 (sin_next 0 j)). ring. }
  refine (conj _ (conj _ (conj _ (conj _ (conj _ (conj _ (conj _ _))))))); [| | | | | |intros j t Hj Ht; refine (conj _ (conj _ (fun x y => conj _ _)))|].
  - apply smooth_plus; [apply smooth_const|apply cos_ax].
  - apply shear_U.
  - apply smooth_const.
  - intros x y. unfold h. pose proof (COS_bound (a * x)). lra.
  - intros x y. unfold U. pose proof (COS_bound (b * y)). nra.
  - intros j _. unfold us, th.
    assert (SU : usmooth 5 (fun (_ : {t : R | 0 <= t <= Te}) x y => a * U x y)) by apply usmooth_scal, usmooth_const, shear_U.
    assert (ST : usmooth 5 (fun (t : {t : R | 0 <= t <= Te}) (x y : R) => proj1_sig t)).
    { split; [exists Te; intros [t Ht] x y; cbn; rewrite Rabs_right; lra|].
      exists (fun _ _ _ => 0), (fun _ _ _ => 0). split; [intros t x y; apply D_const|]. split; [intros t x y; apply D_const|]. split; apply (usmooth_const 4 (fun _ _ => 0)), smooth_const. }
    assert (SG : usmooth 5 (fun (t : {t : R | 0 <= t <= Te}) x y => a * U x y * proj1_sig t + INR j * (PI / 2)))
      by (apply usmooth_plus; [now apply usmooth_mult|apply (usmooth_const 5 (fun _ _ => INR j * (PI / 2))), smooth_const]).
    destruct (usmooth_trig 5 _ SG) as [Gc Gs].
    apply usmooth_mult; [now apply usmooth_pow|].
    apply (usmooth_ext 5 (fun (t : {t : R | 0 <= t <= Te}) x y => cos (ax x y) * cos (a * U x y * proj1_sig t + INR j * (PI / 2)) + sin (ax x y) * sin (a * U x y * proj1_sig t + INR j * (PI / 2)))).
    + intros t x y. unfold ax. now rewrite cos_minus.
    + apply usmooth_plus; apply usmooth_mult; auto; apply (usmooth_const 5 (fun x y => _ (ax x y))); [apply cos_ax|apply sin_ax].
  - intros x y. unfold us, FX. eapply D_eq.
    + apply D_mult; [apply D_mult; [exact (D_const ((a * cos (b * y)) ^ j) x)|]|exact (D_const (cos (b * y)) x)].
      apply (derivable_pt_lim_comp (fun s => th j t s y) cos x a); [|apply derivable_pt_lim_cos].
      unfold th, U. eapply D_eq; [apply D_minus; [apply D_mult; [apply D_const|apply D_id]|apply D_const]|cbv beta; ring].
    + cbv beta. unfold U. cbn [pow]. ring.
  - intros x y. eapply D_ext; [intros; apply Rmult_0_r|]. apply D_const.
  - apply E.
  - rewrite E. unfold us, FX, FY. eapply D_eq.
    + apply D_mult; [apply D_const|].
      apply (derivable_pt_lim_comp (fun s => th j s x y) cos t (- (a * U x y))); [|apply derivable_pt_lim_cos].
      unfold th. eapply D_eq; [apply D_minus; [apply D_const|apply D_plus; [apply D_mult; [apply D_const|apply D_id]|apply D_const]]|cbv beta; ring].
    + cbv beta. cbn [pow]. ring.
  - intros d x y x' y' _. unfold h. pose proof (COS_bound (a * x)). pose proof (COS_bound (a * x')). lra.
Qed.
End Shear.
(** The mesh: 4 by 6 cells of width 2, with the periods of the shear flow for a = 2 pi / 8, b = 2 pi / (6 sqrt 3). *)
Definition S84 : setup RA := mkSetup (mkConfig false true false 8) (mkHex (A:=RA) 4 6 (IZR 2) 3)
  (mkParams (A:=RA) (IZR 1) (IZR 10) (IZR 0) (IZR 1) (IZR 1) (IZR 0) (IZR 0) 2 true true) None.
Example C84_setup : let h0 := mesh_of_setup S84 in setup_ok S84 /\ (0 < (dc h0 : R))%R /\ 2 <= nx h0 /\ Z.even (ny h0) = true /\ hook S84 = None /\
  disable_h (par_of S84) = true /\ disable_vn (par_of S84) = true /\ ((eddy_diff2 (par_of S84) : R) <= 0)%R /\ ((eddy_diff4 (par_of S84) : R) <= 0)%R /\
  (forall x y : R, cos (2 * PI / 8 * (x + period_x h0)) = cos (2 * PI / 8 * x) /\ cos (2 * PI / (6 * sqrt 3) * (y + period_y h0)) = cos (2 * PI / (6 * sqrt 3) * y))%R.
Proof.
  cbv zeta. split; [ok|]. cbn. repeat split; try lia; try lra.
  - rewrite <- (cos_Z (2 * PI / 8 * x) 1). f_equal. unfold period_x. cbn. field.
  - rewrite <- (cos_Z (2 * PI / (6 * sqrt 3) * y) 1). f_equal. unfold period_y. cbn. field. pose proof (sqrt_lt_R0 3 ltac:(lra)). lra.
Qed.

(** In a uniform velocity every smooth tracer moves along undeformed: over any smooth positive thickness this is a solution with bounds, so the two theorems above apply.  Unlike in C75 the thickness is not uniform and the tracer is not a finite sum of waves.  This is the flow of test/tracer_advection_convergence.cpp. *)
Theorem C84_uniform_velocity :
  forall (h u0 : fn2) (U V hmin Te : R), smooth 5 h -> smooth 10 u0 -> (0 < hmin)%R -> (forall x y, hmin <= h x y)%R ->
  exists us FX FY, (forall t x y, us 0%nat t x y = u0 (x - U * t) (y - V * t))%R /\ transported (fun _ _ => U) (fun _ _ => V) us FX FY Te /\
  exists hmax Cf Cr M : R, (forall x y, h x y <= hmax)%R /\ forall d : R, d <> 0%R -> transport_bounds d h (fun _ _ => U) (fun _ _ => V) us Te Cf Cr M.
Proof. exact C84_uniform_velocity_proof. Qed.
Print Assumptions C84_uniform_velocity.

(** Non-vacuity: thickness 2 + cos (a x) and one wave, on the mesh [S84] with a = 2 pi / 8. *)
Example C84_uniform_hyps (a : R) : smooth 5 (fun x y => 2 + cos (a * x))%R /\ smooth 10 (wave 1 a 0 0) /\ (1 * 1 + 1 * 1 <= 2 * 2)%R.
Proof. split; [apply smooth_plus; [apply smooth_const|apply cos_ax]|]. split; [apply wave_smooth|lra]. Qed.

