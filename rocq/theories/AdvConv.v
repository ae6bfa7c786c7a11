(** Convergence of the transport of a tracer by a flow that does not change, on a mesh. *)
From Coq Require Import ZArith Reals List Bool Lia Lra.
From Verif Require Import Arith Arrays Prog Conc Launch Mesh AuxVars Tend Model Hex HexComb RSum Spec MeshProof MeshMem MeshFacts MeshR MeshCalc Ready SumParts Deriv Stencil Taylor Accur Sample ConsistThms Frozen Transport Diffuse WaveRun LinStep LaxAbs UTaylor AdvEnergy Driver AdvLax.
Import ListNotations.
Open Scope Z_scope.

Lemma iter_r {X} n (g : X -> X) x : Nat.iter (S n) g x = Nat.iter n g (g x).
Proof. induction n as [|n IH]; [reflexivity|]. change (g (Nat.iter (S n) g x) = g (Nat.iter n g (g x))). now rewrite IH. Qed.
Lemma zprun_iter L g dt steps f : (forall t d, In (t, d) steps -> d = dt) -> forall c, zprun L g steps f c = Nat.iter (length steps) (zpol L g dt) f c.
Proof.
  intros H c. change (zprun L g steps f) with (fold_left (fun f (p : R * R) => zpol L g (snd p) f) steps f). revert f.
  induction steps as [|[t d] l IH]; intros f; [reflexivity|]. cbn [fold_left length snd].
  assert (d = dt) by (apply (H t); now left). subst d. rewrite IH by (intros t' d' Hi; apply (H t'); now right).
  now rewrite <- iter_r.
Qed.
Lemma D_shift f a s l : derivable_pt_lim f (a + s)%R l -> derivable_pt_lim (fun s => f (a + s)%R) s l.
Proof.
  intros H. eapply D_eq; [apply (derivable_pt_lim_comp (fun s => a + s)%R f s 1 l); [|exact H]|ring].
  eapply D_eq; [apply D_plus; [apply D_const|apply D_id]|ring].
Qed.
Lemma along (a U V vm : R) : (0 < vm -> U * U + V * V <= vm * vm -> Rabs (cos a * U + sin a * V) <= vm)%R.
Proof.
  intros P H. apply Rsqr_incr_0_var; [|lra]. rewrite <- Rsqr_abs. unfold Rsqr. pose proof (sin2_cos2 a) as E. unfold Rsqr in E.
  assert (0 <= (cos a * V - sin a * U) * (cos a * V - sin a * U))%R by apply Rle_0_sqr.
  replace ((cos a * U + sin a * V) * (cos a * U + sin a * V))%R with ((sin a * sin a + cos a * cos a) * (U * U + V * V) - (cos a * V - sin a * U) * (cos a * V - sin a * U))%R by ring.
  rewrite E. lra.
Qed.

Section Conv.
Context (S : setup RA) (Hok : setup_ok S) (Hdc : (0 < (dc (mesh_of_setup S) : R))%R) (m : mem RA) (Hr : ready S m) (k : Z).
Local Notation h0 := (mesh_of_setup S).
Local Notation P := (par_of S).
Local Notation NC := (nx (mesh_of_setup S) * ny (mesh_of_setup S)).
Context (N1 : 2 <= nx (mesh_of_setup S)) (Hev : Z.even (ny (mesh_of_setup S)) = true).
Context (Td : tracer_diff_enabled P = false) (Th : tracer_hyperdiff_enabled P = false).
Context (h U V : fn2) (us : nat -> R -> fn2) (hmin hmax Te vm Cf Cr M : R).
Context (Pm : (0 < hmin)%R) (Hmin : forall x y, (hmin <= h x y)%R) (Hmax : forall x y, (h x y <= hmax)%R).
Context (Vp : (0 < vm)%R) (Vm : forall x y, (U x y * U x y + V x y * V x y <= vm * vm)%R).
Local Notation d := (dc (mesh_of_setup S) : R).
Context (Rat : forall x y x' y', ((x' - x) ^ 2 + (y' - y) ^ 2 <= d ^ 2 -> h x' y' <= 4 * h x y)%R).
Local Notation per := (periodic (period_x (mesh_of_setup S)) (period_y (mesh_of_setup S))).
Context (Ph : per h) (PU : per U) (PV : per V) (Pu : forall j t, (j <= 4)%nat -> (0 <= t <= Te)%R -> per (us j t)).
Context (Cf0 : (0 <= Cf)%R) (Cr0 : (0 <= Cr)%R) (M0 : (0 <= M)%R).
Context (BF : forall x y, (Rabs (Ou d (fun q x y => Me d h q x y * nvec U V q x y) x y) <= Cf)%R).
Context (BC : forall j t x y, (j <= 4)%nat -> (0 <= t <= Te)%R ->
  (Rabs (us (Datatypes.S j) t x y + Ou d (fun q x y => Me d h q x y * nvec U V q x y * Me d (fun x y => us j t x y / h x y) q x y) x y) <= Cr * d ^ 2)%R).
Context (BM : forall j t x y, (j <= 5)%nat -> (0 <= t <= Te)%R -> (Rabs (us j t x y) <= M)%R).
Context (Dt : forall j t x y, (j <= 4)%nat -> (0 <= t <= Te)%R -> derivable_pt_lim (fun t => us j t x y) t (us (Datatypes.S j) t x y)).
Context (Sq : forall c, 0 <= c < NC -> mr m (HCell St) [c; k] = h (mr m XCell [c]) (mr m YCell [c])).
Context (Sv : forall e, 0 <= e < 3 * NC -> mr m (VnEdge St) [e; k] = (cos (mr m AngleEdge [e]) * U (mr m XEdge [e]) (mr m YEdge [e]) + sin (mr m AngleEdge [e]) * V (mr m XEdge [e]) (mr m YEdge [e]))%R).
Local Notation q := (fun c => qm m c k).
Local Notation u := (fun e => um m e k).
Local Notation gam := (Cf / (2 * hmin))%R.
Local Notation T := (top S m k).
Local Notation K := (advK m q u).
Local Notation dot := (wdot (mesh_of_setup S) q).
Let Hx : mesh_ok (cfg_of S) h0 := proj1 Hok.
Let Hm := ready_hex S Hok m Hr.

Lemma NY2 : 2 <= ny h0.
Proof. pose proof (MeshProof.Hy _ _ Hx) as Q. destruct (Z.eq_dec (ny h0) 1) as [E|]; [rewrite E in Hev; discriminate|lia]. Qed.
Lemma smpq : smpC h0 h q.
Proof. apply (smp_cells _ h0 _ m Hm Hev). exact Sq. Qed.
Lemma smpu : smpE h0 (nvec U V) u.
Proof. apply (smp_edges _ h0 _ m Hm Hev). exact Sv. Qed.
Lemma q_pos c : 0 <= c < NC -> (0 < q c)%R.
Proof. intros Hc. cbv beta. unfold qm. rewrite Sq by exact Hc. specialize (Hmin (mr m XCell [c]) (mr m YCell [c])). lra. Qed.
Lemma q_rat e : 0 <= e < 3 * NC -> (q (hcoe (nx h0) (ny h0) e 0) <= 4 * q (hcoe (nx h0) (ny h0) e 1) /\ q (hcoe (nx h0) (ny h0) e 1) <= 4 * q (hcoe (nx h0) (ny h0) e 0))%R.
Proof.
  intros He. rewrite <- !(hm_coe _ _ _ Hm) by lia.
  destruct (smp_coe _ h0 _ Hx m Hm Hev h q e Ph smpq He) as [-> ->].
  assert (E : (cq (e mod 3) * cq (e mod 3) + sq (e mod 3) * sq (e mod 3) = 1)%R).
  { unfold cq, sq. pose proof sqrt3_sq. destruct (e mod 3 =? 0), (e mod 3 =? 1); lra. }
  split; apply Rat.
  all: match goal with |- (?a <= _)%R => replace a with (d ^ 2 * (cq (e mod 3) * cq (e mod 3) + sq (e mod 3) * sq (e mod 3)))%R by (generalize (cq (e mod 3)) (sq (e mod 3)) (hxe h0 e) (hye h0 e); intros; cbn [F RA]; field) end; rewrite E; lra.
Qed.
Lemma u_le e : 0 <= e < 3 * NC -> (Rabs (u e) <= vm)%R.
Proof. intros He. cbv beta. unfold um. rewrite Sv by exact He. now apply along. Qed.
Lemma gam0 : (0 <= gam)%R.
Proof. unfold Rdiv. apply Rmult_le_pos; [exact Cf0|]. left. apply Rinv_0_lt_compat. lra. Qed.
Lemma flux_le c : 0 <= c < NC -> (Rabs (outflow m (fun e => emean m q e * u e) c) <= 2 * gam * q c)%R.
Proof.
  intros Hc.
  assert (A : smpC h0 (Ou d (fun q x y => Me d h q x y * nvec U V q x y)%R) (outflow m (fun e => emean m q e * u e)%R)).
  { apply (smp_outflow _ h0 _ Hx Hdc m Hm Hev N1).
    - intros i. apply per_2; [now apply per_Me|now apply per_nvec].
    - intros e He. rewrite (smp_emean _ h0 _ Hx m Hm Hev h _ Ph smpq e He), (smpu e He). reflexivity. }
  pose proof (A c Hc) as A'. cbv beta in A' |- *. rewrite A'. eapply Rle_trans; [apply BF|]. unfold qm. rewrite Sq by exact Hc.
  pose proof (Hmin (mr m XCell [c]) (mr m YCell [c])) as Q. replace (2 * gam * h (mr m XCell [c]) (mr m YCell [c]))%R with (Cf * (h (mr m XCell [c]) (mr m YCell [c]) / hmin))%R by (cbn [F RA]; field; lra).
  apply Rle_trans with (Cf * 1)%R; [lra|]. apply Rmult_le_compat_l; [exact Cf0|]. apply (Rmult_le_reg_r hmin); [exact Pm|]. unfold Rdiv. rewrite Rmult_assoc, Rinv_l by lra. lra.
Qed.
Lemma top_adv f c : T f c = advT m q u f c.
Proof. unfold top, topl, advT. rewrite Td, Th. cbv zeta. ring. Qed.
Lemma nrm_top f : nrm dot (T f) = nrm dot (advT m q u f).
Proof. apply (nrm_ext (fun c => 0 <= c < NC) dot (wdot_ext h0 q) (wdot_sym h0 q)). intros. apply top_adv. Qed.
Lemma consist t j c : (j <= 4)%nat -> (0 <= t <= Te)%R -> 0 <= c < NC ->
  (Rabs (us (Datatypes.S j) t (mr m XCell [c]) (mr m YCell [c]) - T (fun c => us j t (mr m XCell [c]) (mr m YCell [c])) c) <= Cr * d ^ 2)%R.
Proof.
  intros Hj Ht Hc. rewrite top_adv. unfold advT. set (r := fun x y => (us j t x y / h x y)%R).
  assert (Pr : per r) by (apply (per_2 _ _ Rdiv (us j t) h); auto).
  assert (SR : smpC h0 r (fun c => us j t (mr m XCell [c]) (mr m YCell [c]) / q c)%R).
  { apply (smp_cells _ h0 _ m Hm Hev). intros c' Hc'. unfold qm. rewrite Sq by exact Hc'. reflexivity. }
  assert (A : smpC h0 (Ou d (fun q x y => Me d h q x y * nvec U V q x y * Me d r q x y)%R) (outflow m (fun e => emean m q e * u e * emean m (fun c => us j t (mr m XCell [c]) (mr m YCell [c]) / q c) e)%R)).
  { apply (smp_outflow _ h0 _ Hx Hdc m Hm Hev N1).
    - intros i. apply (per_2 _ _ Rmult (fun x y => Me d h i x y * nvec U V i x y)%R); [apply per_2; [now apply per_Me|now apply per_nvec]|now apply per_Me].
    - intros e He. rewrite (smp_emean _ h0 _ Hx m Hm Hev h _ Ph smpq e He), (smpu e He), (smp_emean _ h0 _ Hx m Hm Hev r _ Pr SR e He). reflexivity. }
  pose proof (A c Hc) as A'. cbv beta in A' |- *. rewrite A'. rewrite (hm_xc _ _ _ Hm), (hm_yc _ _ _ Hm) by assumption.
  unfold Rminus. rewrite Ropp_involutive. apply (BC j t); assumption.
Qed.

Definition CY : R := (5 / 2 + (gam + 1) * Te)%R.
Definition conv_const : R := (sqrt hmax * (Te * (BY CY * (Cr / sqrt hmin) + 2 * (M / sqrt hmin) + (1 + Te + Te ^ 2 + Te ^ 3) * (M / sqrt hmin)) * exp (1 + Te * BY CY * gam)))%R.

Lemma mesh_conv st slack dt (N : nat) f : (st = RK4 /\ slack = 0 \/ st = LSRK 5 /\ slack = 1 / 10 ^ 25)%R ->
  (0 <= dt)%R -> (dt <= Te)%R -> (dt * vm <= d)%R -> (INR N * dt <= Te)%R -> (INR N <= 10 ^ 22)%R ->
  (forall c, 0 <= c < NC -> f c = us 0%nat 0%R (mr m XCell [c]) (mr m YCell [c])) ->
  (sqrt (rsum NC (fun c => (Nat.iter N (zpol T (gst st) dt) f c - us 0%nat (INR N * dt)%R (mr m XCell [c]) (mr m YCell [c])) * (Nat.iter N (zpol T (gst st) dt) f c - us 0%nat (INR N * dt)%R (mr m XCell [c]) (mr m YCell [c]))) / IZR NC)
   <= conv_const * (d ^ 2 + dt ^ 4 + slack))%R.
Proof.
  intros Hst D0 DT Cfl HN HI Hf. pose proof NY2 as N2. pose proof gam0 as G0.
  destruct (st_coeffs st slack Hst) as (g1 & g2 & g3 & g4 & g5 & Hc & E1 & E2 & E3 & E4 & E5 & B1 & Stab).
  assert (Te0 : (0 <= Te)%R) by lra.
  assert (Sl : (0 <= slack <= 1 / 2)%R) by (destruct Hst as [[_ ->] | [_ ->]]; [lra|]; split; [left; apply Rdiv_lt_0_compat; [lra|apply pow_lt; lra]|lra]).
  set (Vc := fun c => 0 <= c < NC).
  pose proof (wdot_ext h0 q) as dext. pose proof (wdot_sym h0 q) as dsym. pose proof (wdot_lin h0 q) as dlin. pose proof (wdot_pos h0 N1 N2 q q_pos) as dpos.
  set (kap := (5 / 2 * vm / d)%R). assert (Pk : (0 < kap)%R) by (unfold kap; apply Rdiv_lt_0_compat; lra).
  assert (dk : (dt * kap <= 5 / 2)%R).
  { unfold kap. replace (dt * (5 / 2 * vm / d))%R with (5 / 2 * (dt * vm / d))%R by (cbn [F RA]; field; lra).
    assert (dt * vm / d <= 1)%R; [|lra]. apply (Rmult_le_reg_r d); [exact Hdc|]. unfold Rdiv. rewrite Rmult_assoc, Rinv_l by lra. lra. }
  assert (dk0 : (0 <= dt * kap)%R) by (apply Rmult_le_pos; lra).
  set (L := (kap + gam + 1)%R).
  assert (bT : forall f, (nrm dot (T f) <= L * nrm dot f)%R).
  { intros f'. rewrite nrm_top. eapply Rle_trans; [apply (boundT _ h0 _ Hx Hdc m Hm N1 N2 q u vm gam q_pos q_rat u_le Vp G0 flux_le)|].
    apply Rmult_le_compat_r; [apply nrm_pos|]. unfold L, kap. lra. }
  assert (bK : forall f, (nrm dot (K f) <= L * nrm dot f)%R).
  { intros f'. eapply Rle_trans; [apply (boundK _ h0 _ Hx Hdc m Hm N1 N2 q u vm q_pos q_rat u_le Vp)|].
    apply Rmult_le_compat_r; [apply nrm_pos|]. unfold L. fold kap. lra. }
  assert (bD : forall f, (nrm dot (fun x => T f x - K f x) <= gam * nrm dot f)%R).
  { intros f'. rewrite (nrm_ext Vc dot dext dsym _ (fun x => advT m q u f' x - K f' x)%R) by (intros x _; now rewrite top_adv).
    apply (boundD h0 m N1 N2 q u gam q_pos G0 flux_le). }
  assert (stab : forall f, (nrm dot (pol g1 g2 g3 g4 g5 dt K f) <= (1 + 1 / 10 ^ 22) * nrm dot f)%R).
  { apply (Stab _ Vc K dot dext dsym dlin (skewK _ h0 _ Hx Hdc m Hm N1 N2 q u q_pos) (kap ^ 2)%R); auto.
    - apply (boundK2 _ h0 _ Hx Hdc m Hm N1 N2 q u vm q_pos q_rat u_le Vp).
    - rewrite <- Rpow_mult_distr. assert ((dt * kap) * (dt * kap) <= 5 / 2 * (5 / 2))%R by (apply Rmult_le_compat; lra). cbn [pow]. lra. }
  set (w := fun (n j : nat) c => us j (INR n * dt)%R (mr m XCell [c]) (mr m YCell [c])).
  set (z := fun n => Nat.iter n (zpol T (gst st) dt) f).
  assert (Tn : forall n, (n <= N)%nat -> (0 <= INR n * dt <= Te)%R).
  { intros n Hn. split; [apply Rmult_le_pos; [apply pos_INR|exact D0]|]. eapply Rle_trans; [|exact HN]. apply Rmult_le_compat_r; [exact D0|]. now apply le_INR. }
  assert (Sm : (0 < sqrt hmin)%R) by now apply sqrt_lt_R0.
  assert (Pd : forall X, (0 <= X)%R -> (0 <= X / sqrt hmin)%R) by (intros X HX0; unfold Rdiv; apply Rmult_le_pos; [exact HX0|left; now apply Rinv_0_lt_compat]).
  assert (Dq : forall c, Vc c -> (hmin <= q c)%R) by (intros c Hc'; cbv beta; unfold qm; rewrite Sq by exact Hc'; apply Hmin).
  assert (nmax : forall g X, (0 <= X)%R -> (forall c, Vc c -> (Rabs (g c) <= X)%R) -> (nrm dot g <= X / sqrt hmin)%R).
  { intros g X X0 HX1. apply (nrm_max h0 N1 N2 q q_pos g X hmin Pm Dq X0 HX1). }
  pose proof (lax_run Vc dot dext dsym dlin dpos T K) as R0.
  specialize (R0 (fun a b f g x H => topl_lin S Hok m Hr q u a b f g _ x H (fun _ _ => eq_refl)) (fun f g x E H => topl_ext S Hok m Hr q u f g x E H)).
  specialize (R0 L gam ltac:(unfold L; lra) G0 bT bK bD g1 g2 g3 g4 g5 dt CY D0).
  assert (HYL : (dt * L <= CY)%R).
  { unfold L, CY. assert ((gam + 1) * dt <= (gam + 1) * Te)%R by (apply Rmult_le_compat_l; lra). lra. }
  assert (Sg : (0 <= 1 / 10 ^ 22)%R) by (left; apply Rdiv_lt_0_compat; [lra|apply pow_lt; lra]).
  assert (rho0 : (0 <= Cr * d ^ 2 / sqrt hmin)%R) by (apply Pd, Rmult_le_pos; [exact Cr0|apply pow2_ge_0]).
  specialize (R0 HYL slack E1 E2 E3 E4 E5 (proj2 Sl) B1 (1 / 10 ^ 22)%R Sg stab (Cr * d ^ 2 / sqrt hmin)%R (M / sqrt hmin)%R rho0 (Pd M M0) Te N z w HN).
  assert (NS : (INR N * (1 / 10 ^ 22) <= 1)%R).
  { unfold Rdiv. rewrite Rmult_1_l. apply (Rmult_le_reg_r (10 ^ 22)); [apply pow_lt; lra|]. rewrite Rmult_assoc, Rinv_l by (apply pow_nonzero; lra). lra. }
  specialize (R0 NS).
  assert (Z0 : forall x, Vc x -> z 0%nat x = w 0%nat 0%nat x).
  { intros c Hc'. unfold z, w. cbn [Nat.iter INR]. rewrite Rmult_0_l. now apply Hf. }
  assert (Zs : forall n x, (n < N)%nat -> Vc x -> z (Datatypes.S n) x = pol g1 g2 g3 g4 g5 dt T (z n) x) by (intros n x _ _; unfold z; cbn [Nat.iter]; apply Hc).
  specialize (R0 Z0 Zs).
  assert (R1 : (nrm dot (fun x => z N x - w N 0%nat x) <= Te * (BY CY * (Cr * d ^ 2 / sqrt hmin) + 2 * (M / sqrt hmin) * dt ^ 4 + (1 + Te + Te ^ 2 + Te ^ 3) * (M / sqrt hmin) * slack) * exp (1 + Te * BY CY * gam))%R).
  { apply R0.
    - intros n i Hn Hi. apply nmax; [apply Rmult_le_pos; [exact Cr0|apply pow2_ge_0]|]. intros c Hc'. unfold w. apply consist; auto. apply Tn. lia.
    - intros n i Hn Hi. apply nmax; [exact M0|]. intros c Hc'. unfold w. apply BM; [lia|]. apply Tn. lia.
    - intros n Hn. replace (M / sqrt hmin * dt ^ 5)%R with (M * dt ^ 5 / sqrt hmin)%R by (field; lra).
      apply nmax; [apply Rmult_le_pos; [exact M0|now apply pow_le]|]. intros c Hc'. unfold w.
      pose proof (Tn n ltac:(lia)) as T1. pose proof (Tn (Datatypes.S n) ltac:(lia)) as T2. rewrite S_INR in *.
      pose proof (taylor5 (fun j s => us j (INR n * dt + s)%R (mr m XCell [c]) (mr m YCell [c])) dt M M0) as Tay. cbv beta in Tay. rewrite !Rplus_0_r in Tay.
      replace ((INR n + 1) * dt)%R with (INR n * dt + dt)%R by ring. rewrite Rabs_minus_sym. apply Tay; [| |exact D0].
      + intros j s Hj Hs. apply (D_shift (fun t => us j t (mr m XCell [c]) (mr m YCell [c]))). apply Dt; [exact Hj|]. lra.
      + intros s Hs. apply BM; [lia|]. lra. }
  eapply Rle_trans; [apply (rms h0 N1 N2 q q_pos (fun c => z N c - w N 0%nat c)%R hmax)|].
  { specialize (Hmin 0%R 0%R). specialize (Hmax 0%R 0%R). lra. }
  { intros c Hc'. unfold qm. rewrite Sq by exact Hc'. apply Hmax. }
  unfold conv_const. rewrite (Rmult_assoc (sqrt hmax)). apply Rmult_le_compat_l; [apply sqrt_pos|].
  eapply Rle_trans; [exact R1|].
  set (B := BY CY). assert (PB : (0 <= B)%R).
  { assert (Y0 : (0 <= CY)%R) by (eapply Rle_trans; [|exact HYL]; apply Rmult_le_pos; [exact D0|unfold L; lra]).
    unfold B, BY. pose proof (pow_le _ 2 Y0). pose proof (pow_le _ 3 Y0). pose proof (pow_le _ 4 Y0). lra. }
  clearbody B.
  match goal with |- (Te * ?x * ?E <= Te * ?y * ?E * ?zz)%R => replace (Te * x * E)%R with (Te * E * x)%R by ring; replace (Te * y * E * zz)%R with (Te * E * (y * zz))%R by ring end.
  apply Rmult_le_compat_l; [apply Rmult_le_pos; [exact Te0|left; apply exp_pos]|].
  assert (PQ : (0 <= B * (Cr / sqrt hmin))%R) by (apply Rmult_le_pos; auto).
  assert (PM : (0 <= M / sqrt hmin)%R) by auto.
  pose proof (pow_le Te 2 Te0) as Q2. pose proof (pow_le Te 3 Te0) as Q3.
  assert (PR : (0 <= (1 + Te + Te ^ 2 + Te ^ 3) * (M / sqrt hmin))%R) by (apply Rmult_le_pos; [lra|exact PM]).
  pose proof (pow2_ge_0 d) as PD. pose proof (pow_le dt 4 D0) as PT.
  replace (B * (Cr * d ^ 2 / sqrt hmin))%R with (B * (Cr / sqrt hmin) * d ^ 2)%R by (unfold Rdiv; ring).
  set (a := (B * (Cr / sqrt hmin))%R) in *. set (b := (M / sqrt hmin)%R) in *. set (cc := ((1 + Te + Te ^ 2 + Te ^ 3) * b)%R) in *. set (D2 := (d ^ 2)%R) in *. set (T4 := (dt ^ 4)%R) in *.
  assert (0 <= a * T4)%R by (apply Rmult_le_pos; lra). assert (0 <= a * slack)%R by (apply Rmult_le_pos; lra). assert (0 <= b * D2)%R by (apply Rmult_le_pos; lra). assert (0 <= b * slack)%R by (apply Rmult_le_pos; lra).
  assert (0 <= cc * D2)%R by (apply Rmult_le_pos; lra). assert (0 <= cc * T4)%R by (apply Rmult_le_pos; lra).
  replace ((a + 2 * b + cc) * (D2 + T4 + slack))%R with (a * D2 + a * T4 + a * slack + 2 * (b * D2) + 2 * (b * T4) + 2 * (b * slack) + cc * D2 + cc * T4 + cc * slack)%R by ring. lra.
Qed.
End Conv.
