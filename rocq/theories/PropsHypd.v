(** Tracer hyperdiffusion: stability in the mean square for every tracer, and convergence for every smooth solution.
    [hyper] is in [HyperSpec.v]; [periodic px py f]: [f] has the periods; [program]: the main program (Driver.v). *)
From Coq Require Import ZArith Reals List Bool Lia Lra.
From Verif Require Import Arith Arrays Prog Conc Launch Mesh AuxVars Tend Model RSum Spec MeshProof Ready Relate StepVal Deriv Stencil Taylor Accur Sample Waves Driver PropsMesh PropsCons PropsWaves HyperSpec HypdThms.
Import ListNotations.
Open Scope Z_scope.

(** C102: no tracer grows in the mean square. Fluid at rest, uniform thickness, any initial tracer whatsoever, diffusion and hyperdiffusion each on or off, any number of steps each within dt (6 kappa2 / dc^2 + 36 kappa4 / dc^4) <= lim, where lim is 2.78 for RK4, 4.5 for five stage LSRK and 2 for forward Euler: the sum of the squares of the tracer over the cells of a layer is at most what it was at the start. The hyperdiffusion test runs at this limit with LSRK (dt = dc^4 / (8 kappa4), 36 / 8 = 4.5). C70 has the same for single waves; C70_rk4_hyperdiffusion_step_refuted shows RK4 growing beyond its limit. *)
Theorem C102_mean_square_never_grows :
  forall (st : stepper) (lim : R), (st = RK4 /\ lim = 278 / 100 \/ st = LSRK 5 /\ lim = 45 / 10 \/ st = LSRK 1 /\ lim = 2)%R ->
  forall (S : setup RA), setup_ok S -> let h0 := mesh_of_setup S in let d := (dc h0 : R) in
  let kappa2 := Rmax 0 (eddy_diff2 (par_of S)) in let kappa4 := Rmax 0 (eddy_diff4 (par_of S)) in
  2 <= nx h0 -> Z.even (ny h0) = true -> (0 < d)%R -> hook S = None ->
  forall (H : R) (tr : Z -> fn2) (steps : list (R * R)), H <> 0%R ->
  (forall t dt, In (t, dt) steps -> (0 <= dt /\ dt * (6 * kappa2 / d ^ 2 + 36 * kappa4 / d ^ 4) <= lim)%R) ->
  always (sdims S) (program S st (mkInitial (A:=RA) (fun _ _ => H) (fun _ _ => 0%R) (fun _ _ => 0%R) tr) steps) (mzero RA) (fun m' =>
    forall l k, 0 <= l < ntracers (par_of S) -> 0 <= k < d_nlayers (sdims S) ->
    (rsum (d_ncells (sdims S)) (fun c => (mr m' (TrCell St) [l; c; k]) ^ 2) <= rsum (d_ncells (sdims S)) (fun c => (tr l (mr m' XCell [c]) (mr m' YCell [c])) ^ 2))%R).
Proof. exact C102_mean_square_never_grows_proof. Qed.
Print Assumptions C102_mean_square_never_grows.

(** Non-vacuity: dc = 2, kappa2 = 1, kappa4 = 1 and dt = 1/2; 1/2 (6/4 + 36/16) = 1.875. *)
Example C102_step : let d := (dc (mesh_of_setup (S69 4 6 1 1)) : R) in setup_ok (S69 4 6 1 1) /\
  (1 / 2 * (6 * Rmax 0 (eddy_diff2 (par_of (S69 4 6 1 1))) / d ^ 2 + 36 * Rmax 0 (eddy_diff4 (par_of (S69 4 6 1 1))) / d ^ 4) <= 2)%R.
Proof. split; [apply ok69|]. cbn. rewrite Rmax_right by lra. lra. Qed.
(** The step of the hyperdiffusion test meets the limit of LSRK with equality. *)
Example C102_test_step : forall d kappa4 : R, (0 < d)%R -> (0 < kappa4)%R -> let dt := (d ^ 4 / (8 * kappa4))%R in (dt * (6 * 0 / d ^ 2 + 36 * kappa4 / d ^ 4) = 45 / 10)%R.
Proof. intros d k Hd Hk dt. unfold dt. field. split; lra. Qed.

(** C102: tracer hyperdiffusion converges with second order in the root mean square. Fluid at rest, uniform thickness, any periodic solution of u_t = - kappa Lap (Lap u) with bounded derivatives as initial tracer, 36 kappa dt <= lim dc^4 with lim as above: after any number of steps the root mean square over the cells of the difference between the computed tracer and the solution is at most kappa T M (3600 dc^2 + 2 dc^4 + slack), where M bounds the derivatives up to order ten, T is the time, and slack is nonzero (64e-25) only for five stage LSRK, whose coefficients are decimal fractions. *)
Theorem C102_hyperdiffusion_converges :
  forall (st : stepper) (lim slack : R), (st = RK4 /\ lim = 278 / 100 /\ slack = 0 \/ st = LSRK 5 /\ lim = 45 / 10 /\ slack = 1 / 10 ^ 25 \/ st = LSRK 1 /\ lim = 2 /\ slack = 0)%R ->
  forall (S : setup RA), setup_ok S -> let h0 := mesh_of_setup S in let d := (dc h0 : R) in let kappa := (eddy_diff4 (par_of S) : R) in
  2 <= nx h0 -> Z.even (ny h0) = true -> (0 < d)%R -> hook S = None -> (0 < kappa)%R -> ((eddy_diff2 (par_of S) : R) <= 0)%R ->
  forall (H Te M : R) (D : R -> nat -> nat -> fn2), H <> 0%R -> hyper kappa Te M D ->
  (forall t, (0 <= t <= Te)%R -> periodic (period_x h0) (period_y h0) (D t 0%nat 0%nat)) ->
  forall (dt : R) (N : Z) (tr : Z -> fn2), 0 <= N -> (0 <= dt)%R -> (36 * kappa * dt <= lim * d ^ 4)%R -> (IZR N * dt <= Te)%R ->
  always (sdims S) (program S st (mkInitial (A:=RA) (fun _ _ => H) (fun _ _ => 0%R) (fun _ _ => 0%R) tr) (loop_steps (A:=RA) N dt)) (mzero RA) (fun m' =>
    forall l k, 0 <= l < ntracers (par_of S) -> 0 <= k < d_nlayers (sdims S) ->
    (forall x y, tr l x y = D 0%R 0%nat 0%nat x y) ->
    let err c := (mr m' (TrCell St) [l; c; k] - D (IZR N * dt) 0%nat 0%nat (mr m' XCell [c]) (mr m' YCell [c]))%R in
    (sqrt (rsum (d_ncells (sdims S)) (fun c => err c * err c) / IZR (d_ncells (sdims S))) <= kappa * (IZR N * dt) * M * (3600 * d ^ 2 + 2 * d ^ 4 + 64 * slack))%R).
Proof. exact C102_hyperdiffusion_converges_proof. Qed.
Print Assumptions C102_hyperdiffusion_converges.

(** Non-vacuity: the decaying waves [exp (- kappa (a^2 + b^2)^2 t) cos (a x) cos (b y)] are solutions with bounded derivatives. *)
Section Wave.
Local Open Scope R_scope.
Context (kappa a b Te : R) (Hk : 0 <= kappa).
Let pw (a : R) (i : nat) (x : R) : R := a ^ i * cos (a * x + INR i * (PI / 2)).
Let D (t : R) (i j : nat) : fn2 := fun x y => exp (- (kappa * ((a * a + b * b) * (a * a + b * b))) * t) * (pw a i x * pw b j y).
Lemma hw_der a0 i x : derivable_pt_lim (pw a0 i) x (pw a0 (Datatypes.S i) x).
Proof.
  unfold pw. eapply D_eq.
  - apply D_cmult. apply (derivable_pt_lim_comp (fun x => a0 * x + INR i * (PI / 2)) cos x a0); [|apply derivable_pt_lim_cos].
    eapply D_eq; [apply D_plus; [apply D_mult; [apply D_const|apply D_id]|apply D_const]|cbv beta; ring].
  - rewrite S_INR. replace (a0 * x + (INR i + 1) * (PI / 2)) with (PI / 2 + (a0 * x + INR i * (PI / 2))) by ring. rewrite (sin_cos (a0 * x + INR i * (PI / 2))). cbn [pow]. ring.
Qed.
Lemma hw_bound a0 i x : (i <= 10)%nat -> Rabs (pw a0 i x) <= (1 + Rabs a0) ^ 10.
Proof.
  intros Hi. unfold pw. rewrite Rabs_mult, <- RPow_abs. pose proof (COS_bound (a0 * x + INR i * (PI / 2))). pose proof (Rabs_pos a0).
  assert (Rabs (cos (a0 * x + INR i * (PI / 2))) <= 1) by (split_Rabs; lra).
  apply Rle_trans with (Rabs a0 ^ i * 1); [apply Rmult_le_compat_l; [apply pow_le; lra|assumption]|]. rewrite Rmult_1_r.
  apply Rle_trans with ((1 + Rabs a0) ^ i); [apply pow_incr; lra|apply Rle_pow; [lra|exact Hi]].
Qed.
Lemma hw_2 a0 i x : pw a0 (2 + i)%nat x = - (a0 * a0) * pw a0 i x.
Proof.
  unfold pw. rewrite plus_INR. cbn [INR]. replace (a0 * x + (1 + 1 + INR i) * (PI / 2)) with (PI + (a0 * x + INR i * (PI / 2))) by field.
  rewrite (Rplus_comm PI), neg_cos. cbn [pow Nat.add]. ring.
Qed.
Let E t := exp (- (kappa * ((a * a + b * b) * (a * a + b * b))) * t).
Example C102_wave : hyper kappa Te ((1 + Rabs a) ^ 10 * (1 + Rabs b) ^ 10) D.
Proof.
  intros t Ht. split; [|split].
  - intros i j _. split; intros x y; unfold D; eapply D_eq.
    + apply D_cmult. apply D_mult; [apply hw_der|apply D_const].
    + cbv beta. ring.
    + apply D_cmult. apply D_mult; [apply D_const|apply hw_der].
    + cbv beta. ring.
  - intros i j x y Hij. unfold D. rewrite <- (Rmult_1_l ((1 + Rabs a) ^ 10 * (1 + Rabs b) ^ 10)). rewrite Rabs_mult. apply Rmult_le_compat; try apply Rabs_pos.
    + rewrite Rabs_right by (apply Rle_ge, Rlt_le, exp_pos). rewrite <- exp_0. assert (Q : - (kappa * ((a * a + b * b) * (a * a + b * b))) * t <= 0).
      { assert (0 <= kappa * ((a * a + b * b) * (a * a + b * b)) * t) by (repeat apply Rmult_le_pos; try lra; nra). lra. }
      destruct Q as [Q|Q]; [now apply Rlt_le, exp_increasing|rewrite Q; lra].
    + rewrite Rabs_mult. apply Rmult_le_compat; try apply Rabs_pos; apply hw_bound; lia.
  - intros x y. assert (ED : forall c, derivable_pt_lim (fun t => E t * c) t (- (kappa * ((a * a + b * b) * (a * a + b * b))) * E t * c)).
    { intros c. unfold E. der. ring. }
    assert (P4 : forall a0 i z, pw a0 (4 + i)%nat z = (a0 * a0) * (a0 * a0) * pw a0 i z) by (intros a0 i z; rewrite (hw_2 a0 (2 + i) z : pw a0 (4 + i)%nat z = _), hw_2; ring).
    assert (L1 : forall t, D t 4%nat 0%nat x y + 2 * D t 2%nat 2%nat x y + D t 0%nat 4%nat x y = E t * ((a * a + b * b) * (a * a + b * b) * (pw a 0 x * pw b 0 y))).
    { intros t'. unfold D. rewrite (P4 a 0%nat x : pw a 4%nat x = _), (P4 b 0%nat y : pw b 4%nat y = _), (hw_2 a 0 x : pw a 2%nat x = _), (hw_2 b 0 y : pw b 2%nat y = _). unfold E. ring. }
    assert (L2 : D t 8%nat 0%nat x y + 4 * D t 6%nat 2%nat x y + 6 * D t 4%nat 4%nat x y + 4 * D t 2%nat 6%nat x y + D t 0%nat 8%nat x y = E t * ((a * a + b * b) ^ 4 * (pw a 0 x * pw b 0 y))).
    { unfold D. rewrite (P4 a 4%nat x : pw a 8%nat x = _), (P4 b 4%nat y : pw b 8%nat y = _), (P4 a 2%nat x : pw a 6%nat x = _), (P4 b 2%nat y : pw b 6%nat y = _), (P4 a 0%nat x : pw a 4%nat x = _), (P4 b 0%nat y : pw b 4%nat y = _), (hw_2 a 0 x : pw a 2%nat x = _), (hw_2 b 0 y : pw b 2%nat y = _). unfold E. ring. }
    split.
    + rewrite L1. change (derivable_pt_lim (fun t => E t * (pw a 0 x * pw b 0 y)) t (- kappa * (E t * ((a * a + b * b) * (a * a + b * b) * (pw a 0 x * pw b 0 y))))). eapply D_eq; [apply ED|ring].
    + rewrite L2. eapply D_ext; [intros; apply L1|]. eapply D_eq; [apply ED|ring].
Qed.
End Wave.
(** The mesh: 4 by 6 cells of width 2, with the periods of the wave for a = 2 pi / 8, b = 2 pi / (6 sqrt 3). *)
Definition S102 : setup RA := S69 4 6 0 1.
Example C102_setup : let h0 := mesh_of_setup S102 in setup_ok S102 /\ (0 < (dc h0 : R))%R /\ 2 <= nx h0 /\ Z.even (ny h0) = true /\ hook S102 = None /\
  (0 < (eddy_diff4 (par_of S102) : R))%R /\ ((eddy_diff2 (par_of S102) : R) <= 0)%R /\ (36 * (eddy_diff4 (par_of S102) : R) * 2 <= 45 / 10 * (dc h0 : R) ^ 4)%R /\
  (forall x y : R, cos (2 * PI / 8 * (x + period_x h0)) = cos (2 * PI / 8 * x) /\ cos (2 * PI / (6 * sqrt 3) * (y + period_y h0)) = cos (2 * PI / (6 * sqrt 3) * y))%R.
Proof.
  cbv zeta. split; [apply ok69|]. cbn. repeat split; try lia; try (cbn; lra).
  - rewrite <- (cos_Z (2 * PI / 8 * x) 1). f_equal. unfold period_x. cbn. field.
  - rewrite <- (cos_Z (2 * PI / (6 * sqrt 3) * y) 1). f_equal. unfold period_y. cbn. field. pose proof (sqrt_lt_R0 3 ltac:(lra)). lra.
Qed.

(** C103: diffusion and hyperdiffusion mix every tracer. Fluid at rest, uniform thickness, any initial tracer, steps with dt (6 kappa2 / dc^2 + 36 kappa4 / dc^4) <= 1: the variance of the tracer about its initial mean decays at least like exp (- 4/5 (kappa2 lambda + kappa4 lambda^2) T), where T is the time covered by the steps, lambda = 2 / (3 L^2) and L is dc times the larger of nx and ny. The rate depends on the size of the domain but not on the resolution. *)
Theorem C103_tracers_mix :
  forall (st : stepper), (st = RK4 \/ st = LSRK 5 \/ st = LSRK 1) ->
  forall (S : setup RA), setup_ok S -> let h0 := mesh_of_setup S in let d := (dc h0 : R) in
  let kappa2 := Rmax 0 (eddy_diff2 (par_of S)) in let kappa4 := Rmax 0 (eddy_diff4 (par_of S)) in
  let L := (d * IZR (Z.max (nx h0) (ny h0)))%R in let lambda := (2 / (3 * L ^ 2))%R in
  2 <= nx h0 -> Z.even (ny h0) = true -> (0 < d)%R -> hook S = None ->
  forall (H : R) (tr : Z -> fn2) (steps : list (R * R)), H <> 0%R ->
  (forall t dt, In (t, dt) steps -> (0 <= dt /\ dt * (6 * kappa2 / d ^ 2 + 36 * kappa4 / d ^ 4) <= 1)%R) ->
  let T := fold_right Rplus 0%R (map snd steps) in
  always (sdims S) (program S st (mkInitial (A:=RA) (fun _ _ => H) (fun _ _ => 0%R) (fun _ _ => 0%R) tr) steps) (mzero RA) (fun m' =>
    forall l k, 0 <= l < ntracers (par_of S) -> 0 <= k < d_nlayers (sdims S) ->
    let n := d_ncells (sdims S) in let start c := tr l (mr m' XCell [c]) (mr m' YCell [c]) in let mean := (rsum n start / IZR n)%R in
    (rsum n (fun c => (mr m' (TrCell St) [l; c; k] - mean) ^ 2) <= exp (- (4 / 5 * (kappa2 * lambda + kappa4 * lambda ^ 2)) * T) * rsum n (fun c => (start c - mean) ^ 2))%R).
Proof. exact C103_tracers_mix_proof. Qed.
Print Assumptions C103_tracers_mix.

(** Non-vacuity: dc = 2, kappa2 = 1, kappa4 = 1 and dt = 1/4; the exponent is negative. *)
Example C103_step : let h0 := mesh_of_setup (S69 4 6 1 1) in let d := (dc h0 : R) in setup_ok (S69 4 6 1 1) /\
  (1 / 4 * (6 * Rmax 0 (eddy_diff2 (par_of (S69 4 6 1 1))) / d ^ 2 + 36 * Rmax 0 (eddy_diff4 (par_of (S69 4 6 1 1))) / d ^ 4) <= 1)%R /\
  (0 < Rmax 0 (eddy_diff2 (par_of (S69 4 6 1 1))) * (2 / (3 * (d * IZR (Z.max (nx h0) (ny h0))) ^ 2)))%R.
Proof. split; [apply ok69|]. cbn. rewrite Rmax_right by lra. split; lra. Qed.
