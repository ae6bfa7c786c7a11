(** RK4 is of order four: stability of a step, and the sum of the local errors. *)
From Coq Require Import ZArith Reals List Bool Lia Lra.
From Verif Require Import Arith Arrays Prog Conc Launch Mesh AuxVars Tend Model Hex RSum Spec MeshProof MeshMem MeshR KernBase Ready StepFn StepVal StepRun StepThms RealTend FieldInv Vort Sim SimThms Driver DriverFn Lip Diff TimeStep TimeConv Order4 LocalErr.
Import ListNotations.
Open Scope Z_scope.

Section Conv4.
Context (S : setup RA) (Hok : setup_ok S) (Hdc : (0 < (dc (mesh_of_setup S) : R))%R) (m0 : mem RA) (Hr : ready S m0) (Uf : unforced S).
Context (T : R) (HT : (0 < T)%R) (Y : R -> fields RA) (d1 d2 d3 d4 d5 : plc -> R -> R) (K : R) (HK : (0 <= K)%R).
Local Notation f := (ff S m0).
Context (D0 : forall p, vplc S p -> forall t, (0 <= t <= T)%R -> derivable_pt_lim (fun s => val (Y s) p) t (d1 p t))
  (D1 : forall p, vplc S p -> forall t, (0 <= t <= T)%R -> derivable_pt_lim (d1 p) t (d2 p t)) (D2 : forall p, vplc S p -> forall t, (0 <= t <= T)%R -> derivable_pt_lim (d2 p) t (d3 p t))
  (D3 : forall p, vplc S p -> forall t, (0 <= t <= T)%R -> derivable_pt_lim (d3 p) t (d4 p t)) (D4 : forall p, vplc S p -> forall t, (0 <= t <= T)%R -> derivable_pt_lim (d4 p) t (d5 p t))
  (KB : forall p, vplc S p -> forall t, (0 <= t <= T)%R -> (Rabs (d1 p t) <= K /\ Rabs (d2 p t) <= K /\ Rabs (d3 p t) <= K /\ Rabs (d4 p t) <= K /\ Rabs (d5 p t) <= K)%R)
  (EQ : forall p, vplc S p -> forall t, (0 <= t <= T)%R -> d1 p t = f t (Y t) p).
Context (B de r : R) (Hr0 : (0 < r)%R) (Tb : forall t z, (0 <= t <= T)%R -> close S r z (Y t) -> box S B de z).
Context (J : plc -> fields RA -> vec -> R) (M : R) (HM : (0 <= M)%R) (DJ : forall p, vplc S p -> DLM S B de M (gp S m0 p) (J p)).

Lemma ff_le s z p : (0 <= s <= T)%R -> box S B de z -> vplc S p -> (Rabs (f s z p) <= K + 2 * M)%R.
Proof using EQ KB DJ Tb Hr0 HM HK.
  intros Hs Hz Hp. destruct (DJ p Hp) as (A1 & _). pose proof (A1 z Hz) as X1. pose proof (A1 (Y s) (boxY S T Y B de r Hr0 Tb s Hs)) as X2. destruct (KB p Hp s Hs) as (X3 & _). rewrite EQ in X3 by assumption.
  unfold ff in *. split_Rabs; lra.
Qed.
Lemma ff_lip s y z d p : box S B de y -> box S B de z -> (0 <= d)%R -> close S d y z -> vplc S p -> (Rabs (f s y p - f s z p) <= M * d)%R.
Proof using DJ.
  intros Hy Hz Hd Hc Hp. destruct (DJ p Hp) as (_ & A2 & _). unfold ff. replace (gp S m0 p y + fp S m0 p s - (gp S m0 p z + fp S m0 p s))%R with (gp S m0 p y - gp S m0 p z)%R by ring. now apply A2.
Qed.
Lemma stable2 t h y y' d : (0 <= t)%R -> (0 <= h)%R -> (t + h <= T)%R -> (h * (K + 2 * M) <= r / 2)%R -> (h * M <= 1)%R -> (0 <= d)%R -> close S (r / 2) y (Y t) -> close S (r / 2) y' (Y t) -> close S d y y' ->
  forall p, vplc S p -> (Rabs (phi S m0 t h y p - phi S m0 t h y' p) <= (1 + 2 * M * h) * d)%R.
Proof using EQ KB DJ Tb Hr0 HM HK.
  intros Ht Hh HTh Hs1 Hs2 Hd Cy CY0 Hc p0 Hp0.
  assert (T0 : (0 <= t <= T)%R) by lra. assert (T1 : (0 <= t + 1 / 2 * h <= T)%R) by lra. assert (T2 : (0 <= t + 1 * h <= T)%R) by lra.
  set (F := (K + 2 * M)%R) in *. assert (HF : (0 <= F)%R) by (unfold F; lra).
  (* both trajectories stay in the box *)
  assert (Bx : forall u a s z, (0 <= a <= 1)%R -> (0 <= s <= T)%R -> close S (r / 2) u (Y t) -> box S B de z -> box S B de (fof (fun p => val u p + h * a * f s z p)%R)).
  { intros u a s z Ha Hs Hu Hz. apply (Tb t); [exact T0|]. intros p Hp. rewrite val_fof. specialize (Hu p Hp). pose proof (ff_le s z p Hs Hz Hp) as X. fold F in X.
    replace (val u p + h * a * f s z p - val (Y t) p)%R with ((val u p - val (Y t) p) + h * a * f s z p)%R by ring. eapply Rle_trans; [apply Rabs_triang|]. rewrite !Rabs_mult, (Rabs_pos_eq h), (Rabs_pos_eq a) by lra.
    assert (h * a <= h * 1)%R by (apply Rmult_le_compat_l; lra). assert (0 <= h * a)%R by (apply Rmult_le_pos; lra).
    assert (h * a * Rabs (f s z p) <= h * 1 * F)%R by (apply Rmult_le_compat; auto using Rabs_pos). lra. }
  assert (By : box S B de y) by (apply (Tb t); [exact T0|]; intros p Hp; specialize (Cy p Hp); lra).
  assert (BY : box S B de y') by (apply (Tb t); [exact T0|]; intros p Hp; specialize (CY0 p Hp); lra).
  assert (H2 : (0 <= 1 / 2 <= 1)%R) by lra. assert (H1 : (0 <= 1 <= 1)%R) by lra.
  assert (B2 : box S B de (z2 S m0 t h y) /\ box S B de (z2 S m0 t h y')) by (split; apply Bx; assumption). destruct B2 as [B2 B2'].
  assert (B3 : box S B de (z3 S m0 t h y) /\ box S B de (z3 S m0 t h y')) by (split; apply Bx; assumption). destruct B3 as [B3 B3'].
  assert (E4 : forall u q, val (z4 S m0 t h u) q = val (fof (fun p => val u p + h * 1 * f (t + 1 / 2 * h) (z3 S m0 t h u) p)%R) q) by (intros; unfold z4; rewrite !val_fof; ring).
  assert (Bo : forall u v, (forall q, val u q = val v q) -> box S B de v -> box S B de u) by (intros u v E [X1 X2]; split; [intros; rewrite E; auto|intros c k Hk; change (fh u c k) with (val u (PH c k)); rewrite E; now apply X2]).
  assert (B4 : box S B de (z4 S m0 t h y)) by (eapply Bo; [apply E4|]; apply Bx; assumption). assert (B4' : box S B de (z4 S m0 t h y')) by (eapply Bo; [apply E4|]; apply Bx; assumption).
  assert (Df : forall a s z z' c, (0 <= a <= 1)%R -> (0 <= c)%R -> box S B de z -> box S B de z' -> close S c z z' -> forall p, vplc S p -> (Rabs ((val y p + h * a * f s z p) - (val y' p + h * a * f s z' p)) <= d + a * (h * M * c))%R).
  { intros a s z z' c Ha Hc0 Hz Hz' Hzz p Hp. specialize (Hc p Hp). pose proof (ff_lip s z z' c p Hz Hz' Hc0 Hzz Hp) as X.
    replace (val y p + h * a * f s z p - (val y' p + h * a * f s z' p))%R with ((val y p - val y' p) + h * a * (f s z p - f s z' p))%R by ring. eapply Rle_trans; [apply Rabs_triang|]. rewrite !Rabs_mult, (Rabs_pos_eq h), (Rabs_pos_eq a) by lra.
    assert (0 <= h * a)%R by (apply Rmult_le_pos; lra). assert (h * a * Rabs (f s z p - f s z' p) <= h * a * (M * c))%R by (apply Rmult_le_compat_l; assumption). lra. }
  assert (hM : (0 <= h * M)%R) by (apply Rmult_le_pos; lra).
  assert (C2 : close S (2 * d) (z2 S m0 t h y) (z2 S m0 t h y')). { intros p Hp. unfold z2. rewrite !val_fof. eapply Rle_trans; [apply (Df (1 / 2)%R t y y' d); auto; lra|]. nra. }
  assert (C3 : close S (2 * d) (z3 S m0 t h y) (z3 S m0 t h y')). { intros p Hp. unfold z3. rewrite !val_fof. eapply Rle_trans; [apply (Df (1 / 2)%R (t + 1 / 2 * h)%R _ _ (2 * d)%R H2 ltac:(lra) B2 B2' C2 p Hp)|]. nra. }
  assert (C4 : close S (3 * d) (z4 S m0 t h y) (z4 S m0 t h y')). { intros p Hp. rewrite !E4, !val_fof. eapply Rle_trans; [apply (Df 1%R (t + 1 / 2 * h)%R _ _ (2 * d)%R H1 ltac:(lra) B3 B3' C3 p Hp)|]. nra. }
  pose proof (ff_lip t y y' d p0 By BY ltac:(lra) Hc Hp0) as X1. pose proof (ff_lip (t + 1 / 2 * h)%R _ _ (2 * d)%R p0 B2 B2' ltac:(lra) C2 Hp0) as X2.
  pose proof (ff_lip (t + 1 / 2 * h)%R _ _ (2 * d)%R p0 B3 B3' ltac:(lra) C3 Hp0) as X3. pose proof (ff_lip (t + 1 * h)%R _ _ (3 * d)%R p0 B4 B4' ltac:(lra) C4 Hp0) as X4. pose proof (Hc p0 Hp0) as X0.
  unfold phi. set (a1 := f t y p0) in *. set (b1 := f t y' p0) in *. set (a2 := f (t + 1 / 2 * h)%R (z2 S m0 t h y) p0) in *. set (b2 := f (t + 1 / 2 * h)%R (z2 S m0 t h y') p0) in *.
  set (a3 := f (t + 1 / 2 * h)%R (z3 S m0 t h y) p0) in *. set (b3 := f (t + 1 / 2 * h)%R (z3 S m0 t h y') p0) in *. set (a4 := f (t + 1 * h)%R (z4 S m0 t h y) p0) in *. set (b4 := f (t + 1 * h)%R (z4 S m0 t h y') p0) in *.
  set (v := val y p0) in *. set (w := val y' p0) in *. clearbody a1 a2 a3 a4 b1 b2 b3 b4 v w.
  replace (v + h * (1 / 6) * a1 + h * (1 / 3) * a2 + h * (1 / 3) * a3 + h * (1 / 6) * a4 - (w + h * (1 / 6) * b1 + h * (1 / 3) * b2 + h * (1 / 3) * b3 + h * (1 / 6) * b4))%R
    with ((v - w) + h * ((a1 - b1) / 6 + (a2 - b2) / 3 + (a3 - b3) / 3 + (a4 - b4) / 6))%R by field.
  eapply Rle_trans; [apply Rabs_triang|]. rewrite Rabs_mult, (Rabs_pos_eq h) by exact Hh.
  assert (X : (Rabs ((a1 - b1) / 6 + (a2 - b2) / 3 + (a3 - b3) / 3 + (a4 - b4) / 6) <= 2 * (M * d))%R) by (revert X1 X2 X3 X4; clear; intros; split_Rabs; lra).
  assert (h * Rabs ((a1 - b1) / 6 + (a2 - b2) / 3 + (a3 - b3) / 3 + (a4 - b4) / 6) <= h * (2 * (M * d)))%R by (apply Rmult_le_compat_l; assumption). lra.
Qed.
Lemma stable t h y d : (0 <= t)%R -> (0 <= h)%R -> (t + h <= T)%R -> (h * (K + 2 * M) <= r / 2)%R -> (h * M <= 1)%R -> (0 <= d <= r / 2)%R -> close S d y (Y t) ->
  forall p, vplc S p -> (Rabs (phi S m0 t h y p - phi S m0 t h (Y t) p) <= (1 + 2 * M * h) * d)%R.
Proof using EQ KB DJ Tb Hr0 HM HK.
  intros Ht Hh HTh Hs1 Hs2 Hd Hc. apply stable2; auto; [lra| |]; intros p Hp; [specialize (Hc p Hp); lra|rewrite Rminus_diag_eq, Rabs_R0 by reflexivity; lra].
Qed.

(** The sum of the errors. *)
Definition eb4 (e q h : R) (n : Z) : R := ((e + IZR n * q) * exp (2 * M * (IZR n * h)))%R.
Lemma eb4_step e q h n : (0 <= e)%R -> (0 <= q)%R -> (0 <= h)%R -> 0 <= n -> ((1 + 2 * M * h) * eb4 e q h n + q <= eb4 e q h (n + 1))%R.
Proof using HM.
  intros He Hq Hh Hn. unfold eb4. rewrite plus_IZR. replace (2 * M * ((IZR n + 1) * h))%R with (2 * M * (IZR n * h) + 2 * M * h)%R by ring. rewrite exp_plus. apply IZR_le in Hn.
  assert (Hx : (0 <= 2 * M * h)%R) by (apply Rmult_le_pos; lra). assert (Hx2 : (0 <= 2 * M * (IZR n * h))%R) by (apply Rmult_le_pos; [lra|]; apply Rmult_le_pos; lra).
  assert (E1 : (1 + 2 * M * h <= exp (2 * M * h))%R) by (destruct (Req_dec (2 * M * h) 0) as [->|]; [rewrite exp_0; lra|left; apply exp_ineq1; assumption]).
  assert (E2 : (1 <= exp (2 * M * (IZR n * h)))%R) by (rewrite <- exp_0; destruct (Req_dec (2 * M * (IZR n * h)) 0) as [->|]; [lra|left; apply exp_increasing; lra]).
  set (a := exp (2 * M * (IZR n * h))) in *. set (b := exp (2 * M * h)) in *. set (x := (2 * M * h)%R) in *. clearbody a b x.
  assert (1 <= a * b)%R by nra. assert (P0 : (0 <= IZR n * q)%R) by (apply Rmult_le_pos; lra). set (c := (e + IZR n * q)%R). replace (e + (IZR n + 1) * q)%R with (c + q)%R by (unfold c; ring). assert (P1 : (0 <= c)%R) by (unfold c; lra). clearbody c.
  assert (0 <= c * a)%R by (apply Rmult_le_pos; lra). assert (c * a * (1 + x) <= c * a * b)%R by (apply Rmult_le_compat_l; lra). assert (q * 1 <= q * (a * b))%R by (apply Rmult_le_compat_l; lra). nra.
Qed.
Lemma eb4_le e q h n N : (0 <= e)%R -> (0 <= q)%R -> (0 <= h)%R -> 0 <= n <= N -> (0 <= eb4 e q h n <= eb4 e q h N)%R.
Proof using HM.
  intros He Hq Hh Hn. assert (N1 : (0 <= IZR n <= IZR N)%R) by (split; apply IZR_le; lia). assert (P0 : (0 <= IZR n * q <= IZR N * q)%R) by (split; [apply Rmult_le_pos; lra|apply Rmult_le_compat_r; lra]). unfold eb4. split; [apply Rmult_le_pos; [lra|left; apply exp_pos]|].
  apply Rmult_le_compat; [lra|left; apply exp_pos|lra|].
  assert (2 * M * (IZR n * h) <= 2 * M * (IZR N * h))%R by (apply Rmult_le_compat_l; [lra|]; apply Rmult_le_compat_r; lra).
  destruct (Req_dec (2 * M * (IZR n * h)) (2 * M * (IZR N * h))) as [->|]; [lra|]. left. apply exp_increasing. lra.
Qed.
Lemma run_near4 C h0 N h e y m1 : (0 <= C)%R -> (0 <= e)%R -> close S e y (Y 0) -> (forall t h p, (0 <= t)%R -> (0 <= h <= h0)%R -> (t + h <= T)%R -> vplc S p -> (Rabs (phi S m0 t h (Y t) p - val (Y (t + 1 * h)) p) <= C * h ^ 5)%R) ->
  1 <= N -> (0 <= h <= h0)%R -> (IZR N * h <= T)%R -> (h * (K + 2 * M) <= r / 2)%R -> (h * M <= 1)%R -> (eb4 e (C * h ^ 5) h N <= r / 2)%R -> ready S m1 -> disabled_zero S Tend m1 -> holds S St m1 y ->
  forall n : nat, Z.of_nat n <= N -> let m' := run_fn S RK4 (loop_steps (A:=RA) (Z.of_nat n) h) m1 in
    ready S m' /\ disabled_zero S Tend m' /\ exists z, holds S St m' z /\ close S (eb4 e (C * h ^ 5) h (Z.of_nat n)) z (Y (IZR (Z.of_nat n) * h)).
Proof using Hok Hdc Hr Uf EQ KB DJ Tb Hr0 HM HK HT.
  intros HC He Hy0 Loc HN Hh HNh Hs1 Hs2 Heb R1 Z1 Hy. assert (Hq : (0 <= C * h ^ 5)%R) by (apply Rmult_le_pos; [exact HC|apply pow_le; lra]). induction n as [|n IH]; intros Hn.
  - cbn zeta. change (Z.of_nat 0) with 0. replace (run_fn S RK4 (loop_steps (A:=RA) 0 h) m1) with m1 by reflexivity. split; [exact R1|]. split; [exact Z1|]. exists y. split; [exact Hy|].
    intros p Hp. unfold eb4. rewrite !Rmult_0_l, Rmult_0_r, exp_0, Rplus_0_r, Rmult_1_r. now apply Hy0.
  - destruct (IH ltac:(lia)) as (R2 & Z2 & z & Hz & Cz). cbv zeta. replace (Z.of_nat (Datatypes.S n)) with (Z.of_nat n + 1) by lia. set (k := Z.of_nat n) in *. assert (Hk : 0 <= k) by lia.
    assert (E : loop_steps (A:=RA) (k + 1) h = loop_steps (A:=RA) k h ++ [((IZR k * h)%R, h)]) by (unfold loop_steps; rewrite zseq_succ by lia; rewrite map_app; reflexivity).
    rewrite E, run_snoc. cbn [step_fn]. set (t := (IZR k * h)%R) in *.
    assert (K0 : (0 <= IZR k)%R) by (apply IZR_le; lia). assert (KN : (IZR k + 1 <= IZR N)%R) by (rewrite <- plus_IZR; apply IZR_le; lia).
    assert (t0 : (0 <= t)%R) by (unfold t; apply Rmult_le_pos; lra). assert (tT : (t + h <= T)%R). { assert ((IZR k + 1) * h <= IZR N * h)%R by (apply Rmult_le_compat_r; lra). unfold t. lra. }
    pose proof (eb4_le e (C * h ^ 5) h k N He Hq ltac:(lra) ltac:(lia)) as Ek.
    destruct (rk4_phi S Hok Hdc m0 Hr t h z _ Uf R2 Z2 Hz) as (R3 & Z3 & H3). split; [exact R3|]. split; [exact Z3|]. eexists. split; [exact H3|].
    intros p Hp. rewrite val_fof. rewrite plus_IZR. replace ((IZR k + IZR 1) * h)%R with (t + 1 * h)%R by (unfold t; ring).
    assert (Ek2 : (0 <= eb4 e (C * h ^ 5) h k <= r / 2)%R) by lra. pose proof (stable t h z _ t0 (proj1 Hh) tT Hs1 Hs2 Ek2 Cz p Hp) as X1. pose proof (Loc t h p t0 Hh tT Hp) as X2.
    pose proof (eb4_step e (C * h ^ 5) h k He Hq ltac:(lra) Hk) as X3.
    replace (phi S m0 t h z p - val (Y (t + 1 * h)) p)%R with ((phi S m0 t h z p - phi S m0 t h (Y t) p) + (phi S m0 t h (Y t) p - val (Y (t + 1 * h)) p))%R by ring. eapply Rle_trans; [apply Rabs_triang|]. lra.
Qed.
Lemma holds_val m z w : holds S St m z -> holds S St m w -> forall p, vplc S p -> val w p = val z p.
Proof using.
  intros Hz Hw [c k|e k|l c k] Hp; cbn in Hp; destruct (Hz k ltac:(tauto)) as (A1 & A2 & A3); destruct (Hw k ltac:(tauto)) as (B1 & B2 & B3); cbn; [rewrite <- A1, <- B1|rewrite <- A2, <- B2|rewrite <- A3, <- B3]; tauto.
Qed.
(** Two runs that stay near the solution move apart by at most a factor that does not depend on the number of steps. *)
Lemma run_two N h e e' q q' y y' m1 m2 d : (0 <= e)%R -> (0 <= d)%R -> 1 <= N -> (0 <= h)%R -> (IZR N * h <= T)%R -> (h * (K + 2 * M) <= r / 2)%R -> (h * M <= 1)%R ->
  ready S m1 -> disabled_zero S Tend m1 -> holds S St m1 y -> ready S m2 -> disabled_zero S Tend m2 -> holds S St m2 y' -> close S d y y' ->
  (forall n : nat, Z.of_nat n <= N -> exists z, holds S St (run_fn S RK4 (loop_steps (A:=RA) (Z.of_nat n) h) m1) z /\ close S (eb4 e q h (Z.of_nat n)) z (Y (IZR (Z.of_nat n) * h))) ->
  (forall n : nat, Z.of_nat n <= N -> exists z, holds S St (run_fn S RK4 (loop_steps (A:=RA) (Z.of_nat n) h) m2) z /\ close S (eb4 e' q' h (Z.of_nat n)) z (Y (IZR (Z.of_nat n) * h))) ->
  (forall n : nat, Z.of_nat n <= N -> (eb4 e q h (Z.of_nat n) <= r / 2 /\ eb4 e' q' h (Z.of_nat n) <= r / 2)%R) ->
  forall n : nat, Z.of_nat n <= N -> let m1' := run_fn S RK4 (loop_steps (A:=RA) (Z.of_nat n) h) m1 in let m2' := run_fn S RK4 (loop_steps (A:=RA) (Z.of_nat n) h) m2 in
    ready S m1' /\ disabled_zero S Tend m1' /\ ready S m2' /\ disabled_zero S Tend m2' /\ exists z z', holds S St m1' z /\ holds S St m2' z' /\ close S (eb4 d 0 h (Z.of_nat n)) z z'.
Proof using Hok Hdc Hr Uf EQ KB DJ Tb Hr0 HM HK HT.
  intros He Hd HN Hh HNh Hs1 Hs2 R1 Z1 Hy R1' Z1' Hy' Hyy N1 N2 Hb. induction n as [|n IH]; intros Hn.
  - cbn zeta. change (Z.of_nat 0) with 0. change (run_fn S RK4 (loop_steps (A:=RA) 0 h) m1) with m1. change (run_fn S RK4 (loop_steps (A:=RA) 0 h) m2) with m2. do 4 (split; [assumption|]). exists y, y'. split; [exact Hy|]. split; [exact Hy'|].
    intros p Hp. unfold eb4. rewrite !Rmult_0_l, Rmult_0_r, exp_0, Rplus_0_r, Rmult_1_r. now apply Hyy.
  - destruct (IH ltac:(lia)) as (R2 & Z2 & R2' & Z2' & z & z' & Hz & Hz' & Cz). destruct (N1 n ltac:(lia)) as (w & Hw & Cw). destruct (N2 n ltac:(lia)) as (w' & Hw' & Cw'). destruct (Hb n ltac:(lia)) as (b1 & b2).
    cbv zeta. replace (Z.of_nat (Datatypes.S n)) with (Z.of_nat n + 1) by lia. set (k := Z.of_nat n) in *. assert (Hk : 0 <= k) by lia.
    assert (E : loop_steps (A:=RA) (k + 1) h = loop_steps (A:=RA) k h ++ [((IZR k * h)%R, h)]) by (unfold loop_steps; rewrite zseq_succ by lia; rewrite map_app; reflexivity).
    rewrite E, !run_snoc. cbn [step_fn]. set (t := (IZR k * h)%R) in *.
    assert (K0 : (0 <= IZR k)%R) by (apply IZR_le; lia). assert (KN : (IZR k + 1 <= IZR N)%R) by (rewrite <- plus_IZR; apply IZR_le; lia).
    assert (t0 : (0 <= t)%R) by (unfold t; apply Rmult_le_pos; lra). assert (tT : (t + h <= T)%R). { assert ((IZR k + 1) * h <= IZR N * h)%R by (apply Rmult_le_compat_r; lra). unfold t. lra. }
    destruct (rk4_phi S Hok Hdc m0 Hr t h z _ Uf R2 Z2 Hz) as (R3 & Z3 & H3). destruct (rk4_phi S Hok Hdc m0 Hr t h z' _ Uf R2' Z2' Hz') as (R3' & Z3' & H3').
    do 4 (split; [assumption|]). eexists; eexists. split; [exact H3|]. split; [exact H3'|].
    assert (C1 : close S (r / 2) z (Y t)). { intros p Hp. rewrite <- (holds_val _ z w Hz Hw p Hp). eapply Rle_trans; [apply Cw, Hp|exact b1]. }
    assert (C2 : close S (r / 2) z' (Y t)). { intros p Hp. rewrite <- (holds_val _ z' w' Hz' Hw' p Hp). eapply Rle_trans; [apply Cw', Hp|exact b2]. }
    assert (Ed : (0 <= eb4 d 0 h k)%R) by (apply (eb4_le d 0 h k k); [exact Hd|lra|exact Hh|lia]).
    intros p Hp. rewrite !val_fof. pose proof (stable2 t h z z' _ t0 Hh tT Hs1 Hs2 Ed C1 C2 Cz p Hp) as X1. pose proof (eb4_step d 0 h k Hd (Rle_refl 0) Hh Hk) as X3. lra.
Qed.
Theorem converges4 : exists C, (0 <= C)%R /\ forall N e, (C <= IZR N)%R -> 1 <= N -> (0 <= e)%R -> (C * e <= 1)%R -> (forall m1 y, ready S m1 -> disabled_zero S Tend m1 -> holds S St m1 y -> close S e y (Y 0) ->
  exists z, holds S St (run_fn S RK4 (loop_steps (A:=RA) N (T / IZR N)%R) m1) z /\ close S (C * (e + / IZR N ^ 4)) z (Y T)) /\
  (forall m1 y m2 y' d, ready S m1 -> disabled_zero S Tend m1 -> holds S St m1 y -> close S e y (Y 0) -> ready S m2 -> disabled_zero S Tend m2 -> holds S St m2 y' -> close S e y' (Y 0) -> (0 <= d)%R -> close S d y y' ->
  exists z z', holds S St (run_fn S RK4 (loop_steps (A:=RA) N (T / IZR N)%R) m1) z /\ holds S St (run_fn S RK4 (loop_steps (A:=RA) N (T / IZR N)%R) m2) z' /\ close S (C * d) z z').
Proof using Hok Hdc Hr Uf HT EQ KB DJ Tb Hr0 HM HK D0 D1 D2 D3 D4.
  destruct (local_error S m0 T Y d1 d2 d3 d4 d5 K HK D0 D1 D2 D3 D4 KB EQ B de r Hr0 Tb J M HM DJ) as (C & h0 & HC & Hh0 & Loc).
  set (X := exp (2 * M * T)%R). assert (HX : (0 < X)%R) by apply exp_pos.
  set (E := (C * T ^ 5 * X)%R). assert (HE : (0 <= E)%R). { unfold E. apply Rmult_le_pos; [|lra]. apply Rmult_le_pos; [exact HC|apply pow_le; lra]. }
  pose proof (Rinv_0_lt_compat r Hr0) as Ir. pose proof (Rinv_0_lt_compat h0 (proj1 Hh0)) as Ih.
  set (C2 := (T * (K + 2 * M) * 2 * / r)%R). set (C3 := (T * M)%R). set (C4 := (E * 4 * / r)%R). set (C5 := (T * / h0)%R). set (C6 := (X * 4 * / r)%R).
  assert (P2 : (0 <= C2)%R) by (unfold C2; repeat apply Rmult_le_pos; lra). assert (P3 : (0 <= C3)%R) by (unfold C3; apply Rmult_le_pos; lra). assert (P4 : (0 <= C4)%R) by (unfold C4; apply Rmult_le_pos; [apply Rmult_le_pos; lra|lra]). assert (P5 : (0 <= C5)%R) by (unfold C5; apply Rmult_le_pos; lra).
  assert (P6 : (0 <= C6)%R) by (unfold C6; apply Rmult_le_pos; [apply Rmult_le_pos; lra|lra]).
  exists (E + X + C2 + C3 + C4 + C5 + C6)%R. split; [lra|]. intros N e HCN HN He HCe.
  assert (Np : (1 <= IZR N)%R) by (apply IZR_le; lia). pose proof (Rinv_0_lt_compat (IZR N) ltac:(lra)) as IN. set (h := (T / IZR N)%R).
  assert (Hh : (0 <= h)%R) by (unfold h; apply Rmult_le_pos; lra). assert (Eh : (IZR N * h = T)%R) by (unfold h; field; lra).
  assert (N4 : (1 <= IZR N ^ 4)%R) by (apply pow_R1_Rle; lra). assert (N41 : (IZR N <= IZR N ^ 4)%R). { replace (IZR N) with (IZR N ^ 1)%R at 1 by ring. apply Rle_pow; [lra|lia]. }
  pose proof (Rinv_0_lt_compat (IZR N ^ 4) ltac:(lra)) as IN4.
  assert (Ee : eb4 e (C * h ^ 5) h N = (X * e + E * / IZR N ^ 4)%R). { unfold eb4. rewrite Eh. fold X. unfold E, h. field. lra. }
  assert (Q1 : (h * (K + 2 * M) <= r / 2)%R).
  { apply (Rmult_le_reg_l (IZR N)); [lra|]. rewrite <- Rmult_assoc, Eh. apply (Rmult_le_reg_r (2 * / r)); [lra|]. replace (IZR N * (r / 2) * (2 * / r))%R with (IZR N) by (field; lra). unfold C2 in *. lra. }
  assert (Q2 : (h * M <= 1)%R). { apply (Rmult_le_reg_l (IZR N)); [lra|]. rewrite <- Rmult_assoc, Eh. unfold C3 in *. lra. }
  assert (Qe : forall c, (0 <= c)%R -> (c <= E + X + C2 + C3 + C4 + C5 + C6)%R -> (c * e <= 1)%R). { intros c Hc Lc. assert (c * e <= (E + X + C2 + C3 + C4 + C5 + C6) * e)%R by (apply Rmult_le_compat_r; assumption). lra. }
  assert (Q3a : (E * / IZR N ^ 4 <= r / 4)%R).
  { apply (Rmult_le_reg_r (IZR N ^ 4)); [lra|]. rewrite Rmult_assoc, Rinv_l, Rmult_1_r by lra. apply (Rmult_le_reg_r (4 * / r)); [lra|]. replace (r / 4 * IZR N ^ 4 * (4 * / r))%R with (IZR N ^ 4)%R by (field; lra). unfold C4 in *. lra. }
  assert (Q3b : (X * e <= r / 4)%R). { apply (Rmult_le_reg_r (4 * / r)); [lra|]. replace (r / 4 * (4 * / r))%R with 1%R by (field; lra). replace (X * e * (4 * / r))%R with (C6 * e)%R by (unfold C6; ring). apply Qe; lra. }
  assert (Q3 : (eb4 e (C * h ^ 5) h N <= r / 2)%R) by (rewrite Ee; lra).
  assert (Q4 : (h <= h0)%R). { apply (Rmult_le_reg_l (IZR N)); [lra|]. rewrite Eh. apply (Rmult_le_reg_r (/ h0)); [exact Ih|]. rewrite Rmult_assoc, Rinv_r by lra. unfold C5 in *. lra. }
  split.
  { intros m1 y R1 Z1 Hy Hy0.
  destruct (run_near4 C h0 N h e y m1 HC He Hy0 Loc HN (conj Hh Q4) ltac:(lra) Q1 Q2 Q3 R1 Z1 Hy (Z.to_nat N) ltac:(lia)) as (_ & _ & z & Hz & Cz). rewrite Z2Nat.id in * by lia.
  exists z. split; [exact Hz|]. rewrite Eh, Ee in Cz. intros p Hp. eapply Rle_trans; [apply Cz, Hp|]. set (W := (E + X + C2 + C3 + C4 + C5 + C6)%R) in *.
  assert (X * e <= W * e)%R by (apply Rmult_le_compat_r; [exact He|unfold W; lra]). assert (E * / IZR N ^ 4 <= W * / IZR N ^ 4)%R by (apply Rmult_le_compat_r; [lra|unfold W; lra]). lra. }
  intros m1 y m2 y' d R1 Z1 Hy Hy0 R2 Z2 Hy' Hy0' Hd Hyy. assert (Hq : (0 <= C * h ^ 5)%R) by (apply Rmult_le_pos; [exact HC|apply pow_le; lra]).
  destruct (run_two N h e e (C * h ^ 5) (C * h ^ 5) y y' m1 m2 d He Hd HN Hh ltac:(lra) Q1 Q2 R1 Z1 Hy R2 Z2 Hy' Hyy) with (n := Z.to_nat N) as (_ & _ & _ & _ & z & z' & Hz & Hz' & Cz); [| | |lia|].
  { intros n Hn. destruct (run_near4 C h0 N h e y m1 HC He Hy0 Loc HN (conj Hh Q4) ltac:(lra) Q1 Q2 Q3 R1 Z1 Hy n Hn) as (_ & _ & G). exact G. }
  { intros n Hn. destruct (run_near4 C h0 N h e y' m2 HC He Hy0' Loc HN (conj Hh Q4) ltac:(lra) Q1 Q2 Q3 R2 Z2 Hy' n Hn) as (_ & _ & G). exact G. }
  { intros n Hn. pose proof (eb4_le e (C * h ^ 5) h (Z.of_nat n) N He Hq Hh ltac:(lia)). lra. }
  rewrite Z2Nat.id in * by lia. exists z, z'. split; [exact Hz|]. split; [exact Hz'|]. intros p Hp. eapply Rle_trans; [apply Cz, Hp|]. unfold eb4. rewrite Eh, Rmult_0_r, Rplus_0_r, Rmult_comm. fold X. apply Rmult_le_compat_r; [exact Hd|]. lra.
Qed.
End Conv4.
