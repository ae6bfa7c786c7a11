(** Convergence of tracer diffusion for every smooth solution, in the maximum norm.
    [heat] is in [HeatSpec.v]; [periodic px py f]: [f] has the periods; [program]: the main program (Driver.v). *)
From Coq Require Import ZArith Reals List Bool Lia Lra.
From Verif Require Import Arith Arrays Prog Conc Launch Mesh AuxVars Tend Model RSum Spec MeshProof Ready Relate StepVal Deriv Stencil Taylor Accur Sample Waves Driver PropsMesh PropsCons HeatSpec HeatThms.
Import ListNotations.
Open Scope Z_scope.

(** C98: tracer diffusion converges with second order, cell by cell.  Fluid at rest, uniform thickness, any periodic solution of the diffusion equation with bounded derivatives as initial tracer, time step within the bound 4 kappa dt <= dc^2 of the maximum principle (C68): after any number of steps with RK4, forward Euler or five stage LSRK the computed tracer differs from the solution by at most kappa T M (57 dc^2 + slack) in every cell, where M bounds the derivatives up to order five of the solution, T is the time, and slack is nonzero (8e-25) only for five stage LSRK, whose coefficients are decimal fractions.  Nothing else about the mesh, the step or the number of steps enters. *)
Theorem C98_diffusion_converges :
  forall (st : stepper) (slack : R), ((st = RK4 \/ st = LSRK 1) /\ slack = 0 \/ st = LSRK 5 /\ slack = 1 / 10 ^ 25)%R ->
  forall (S : setup RA), setup_ok S -> let h0 := mesh_of_setup S in let d := (dc h0 : R) in let kappa := (eddy_diff2 (par_of S) : R) in
  2 <= nx h0 -> Z.even (ny h0) = true -> (0 < d)%R -> hook S = None -> (0 < kappa)%R -> ((eddy_diff4 (par_of S) : R) <= 0)%R ->
  forall (H Te M : R) (D : R -> nat -> nat -> fn2), H <> 0%R -> heat kappa Te M D ->
  (forall t, (0 <= t <= Te)%R -> periodic (period_x h0) (period_y h0) (D t 0%nat 0%nat)) ->
  forall (dt : R) (N : Z) (tr : Z -> fn2), 0 <= N -> (0 <= dt)%R -> (4 * kappa * dt <= d * d)%R -> (IZR N * dt <= Te)%R ->
  always (sdims S) (program S st (mkInitial (A:=RA) (fun _ _ => H) (fun _ _ => 0%R) (fun _ _ => 0%R) tr) (loop_steps (A:=RA) N dt)) (mzero RA) (fun m' =>
    forall l k c, 0 <= l < ntracers (par_of S) -> 0 <= k < d_nlayers (sdims S) -> 0 <= c < d_ncells (sdims S) ->
    (forall x y, tr l x y = D 0%R 0%nat 0%nat x y) ->
    (Rabs (mr m' (TrCell St) [l; c; k] - D (IZR N * dt) 0%nat 0%nat (mr m' XCell [c]) (mr m' YCell [c])) <= kappa * (IZR N * dt) * M * (57 * d ^ 2 + 8 * slack))%R).
Proof. exact C98_diffusion_converges_proof. Qed.
Print Assumptions C98_diffusion_converges.

(** Non-vacuity: the decaying waves [exp (- kappa (a^2 + b^2) t) cos (a x) cos (b y)] are solutions with bounded derivatives. *)
Section Wave.
Local Open Scope R_scope.
Context (kappa a b Te : R) (Hk : 0 <= kappa).
Let pw (a : R) (i : nat) (x : R) : R := a ^ i * cos (a * x + INR i * (PI / 2)).
Let D (t : R) (i j : nat) : fn2 := fun x y => exp (- (kappa * (a * a + b * b)) * t) * (pw a i x * pw b j y).
Lemma pw_der a0 i x : derivable_pt_lim (pw a0 i) x (pw a0 (Datatypes.S i) x).
Proof.
  unfold pw. eapply D_eq.
  - apply D_cmult. apply (derivable_pt_lim_comp (fun x => a0 * x + INR i * (PI / 2)) cos x a0); [|apply derivable_pt_lim_cos].
    eapply D_eq; [apply D_plus; [apply D_mult; [apply D_const|apply D_id]|apply D_const]|cbv beta; ring].
  - rewrite S_INR. replace (a0 * x + (INR i + 1) * (PI / 2)) with (PI / 2 + (a0 * x + INR i * (PI / 2))) by ring. rewrite (sin_cos (a0 * x + INR i * (PI / 2))). cbn [pow]. ring.
Qed.
Lemma pw_bound a0 i x : (i <= 5)%nat -> Rabs (pw a0 i x) <= (1 + Rabs a0) ^ 5.
Proof.
  intros Hi. unfold pw. rewrite Rabs_mult, <- RPow_abs. pose proof (COS_bound (a0 * x + INR i * (PI / 2))). pose proof (Rabs_pos a0).
  assert (Rabs (cos (a0 * x + INR i * (PI / 2))) <= 1) by (split_Rabs; lra).
  apply Rle_trans with (Rabs a0 ^ i * 1); [apply Rmult_le_compat_l; [apply pow_le; lra|assumption]|]. rewrite Rmult_1_r.
  apply Rle_trans with ((1 + Rabs a0) ^ i); [apply pow_incr; lra|apply Rle_pow; [lra|exact Hi]].
Qed.
Lemma pw_2 a0 i x : pw a0 (2 + i)%nat x = - (a0 * a0) * pw a0 i x.
Proof.
  unfold pw. rewrite plus_INR. cbn [INR]. replace (a0 * x + (1 + 1 + INR i) * (PI / 2)) with (PI + (a0 * x + INR i * (PI / 2))) by field.
  rewrite (Rplus_comm PI), neg_cos. cbn [pow Nat.add]. ring.
Qed.
Example C98_wave : heat kappa Te ((1 + Rabs a) ^ 5 * (1 + Rabs b) ^ 5) D.
Proof.
  intros t Ht. split; [|split].
  - intros i j _. split; intros x y; unfold D; eapply D_eq.
    + apply D_cmult. apply D_mult; [apply pw_der|apply D_const].
    + cbv beta. ring.
    + apply D_cmult. apply D_mult; [apply D_const|apply pw_der].
    + cbv beta. ring.
  - intros i j x y Hij. unfold D. rewrite <- (Rmult_1_l ((1 + Rabs a) ^ 5 * (1 + Rabs b) ^ 5)). rewrite Rabs_mult. apply Rmult_le_compat; try apply Rabs_pos.
    + rewrite Rabs_right by (apply Rle_ge, Rlt_le, exp_pos). rewrite <- exp_0. assert (Q : - (kappa * (a * a + b * b)) * t <= 0).
      { assert (0 <= kappa * (a * a + b * b) * t) by (repeat apply Rmult_le_pos; try lra; nra). lra. }
      destruct Q as [Q|Q]; [now apply Rlt_le, exp_increasing|rewrite Q; lra].
    + rewrite Rabs_mult. apply Rmult_le_compat; try apply Rabs_pos; apply pw_bound; lia.
  - intros x y. assert (ED : forall c, derivable_pt_lim (fun t => exp (- (kappa * (a * a + b * b)) * t) * c) t (- (kappa * (a * a + b * b)) * exp (- (kappa * (a * a + b * b)) * t) * c)).
    { intros c. der. ring. }
    assert (L0 : forall t, D t 2%nat 0%nat x y + D t 0%nat 2%nat x y = exp (- (kappa * (a * a + b * b)) * t) * (- (a * a + b * b) * (pw a 0 x * pw b 0 y))).
    { intros t'. unfold D. rewrite (pw_2 a 0 x : pw a 2%nat x = _), (pw_2 b 0 y : pw b 2%nat y = _). ring. }
    assert (L1 : D t 4%nat 0%nat x y + 2 * D t 2%nat 2%nat x y + D t 0%nat 4%nat x y = exp (- (kappa * (a * a + b * b)) * t) * ((a * a + b * b) * (a * a + b * b) * (pw a 0 x * pw b 0 y))).
    { unfold D. rewrite (pw_2 a 2 x : pw a 4%nat x = _), (pw_2 b 2 y : pw b 4%nat y = _), (pw_2 a 0 x : pw a 2%nat x = _), (pw_2 b 0 y : pw b 2%nat y = _). ring. }
    split.
    + rewrite L0. unfold D. eapply D_eq; [apply ED|ring].
    + rewrite L1. eapply D_ext; [intros; apply L0|]. eapply D_eq; [apply ED|ring].
Qed.
End Wave.
(** The mesh: 4 by 6 cells of width 2, with the periods of the wave for a = 2 pi / 8, b = 2 pi / (6 sqrt 3). *)
Definition S98 : setup RA := mkSetup (mkConfig false true false 8) (mkHex (A:=RA) 4 6 (IZR 2) 3)
  (mkParams (A:=RA) (IZR 1) (IZR 10) (IZR 0) (IZR 1) (IZR 0) (IZR 10) (IZR 0) 2 false false) None.
Example C98_setup : let h0 := mesh_of_setup S98 in setup_ok S98 /\ (0 < (dc h0 : R))%R /\ 2 <= nx h0 /\ Z.even (ny h0) = true /\ hook S98 = None /\
  (0 < (eddy_diff2 (par_of S98) : R))%R /\ ((eddy_diff4 (par_of S98) : R) <= 0)%R /\ (4 * (eddy_diff2 (par_of S98) : R) * (1 / 20) <= (dc h0 : R) * dc h0)%R /\
  (forall x y : R, cos (2 * PI / 8 * (x + period_x h0)) = cos (2 * PI / 8 * x) /\ cos (2 * PI / (6 * sqrt 3) * (y + period_y h0)) = cos (2 * PI / (6 * sqrt 3) * y))%R.
Proof.
  cbv zeta. split; [ok|]. cbn. repeat split; try lia; try (cbn; lra).
  - rewrite <- (cos_Z (2 * PI / 8 * x) 1). f_equal. unfold period_x. cbn. field.
  - rewrite <- (cos_Z (2 * PI / (6 * sqrt 3) * y) 1). f_equal. unfold period_y. cbn. field. pose proof (sqrt_lt_R0 3 ltac:(lra)). lra.
Qed.

