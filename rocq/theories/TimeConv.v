(** Runs of either stepper converge to the solution of the discrete equations when the time step goes to zero. *)
From Coq Require Import ZArith Reals List Bool Lia Lra.
From Verif Require Import Arith Arrays Prog Conc Launch Mesh AuxVars Tend Model Hex RSum Spec MeshProof MeshMem MeshR KernBase Ready StepFn StepVal StepRun StepThms RealTend FieldInv Vort Sim SimThms Driver DriverFn Lip TimeStep.
Import ListNotations.
Open Scope Z_scope.

Definition step_fn (S : setup RA) (st : stepper) (t dt : R) (m : mem RA) : mem RA := match st with RK4 => rk4_fn S t dt m | LSRK n => lsrk_fn S n t dt m end.
Lemma run_snoc (S : setup RA) st l t dt m : run_fn S st (l ++ [(t, dt)]) m = step_fn S st t dt (run_fn S st l m).
Proof. destruct st; cbn [run_fn step_fn]; unfold rk4_run_fn, lsrk_run_fn; rewrite fold_left_app; reflexivity. Qed.
Definition inv (S : setup RA) (st : stepper) (m : mem RA) : Prop := ready S m /\ (st = RK4 -> disabled_zero S Tend m).
Definition known (st : stepper) : Prop := st = RK4 \/ st = LSRK 1 \/ st = LSRK 5.

Lemma Rabs_le_inv x a : (Rabs x <= a)%R -> (- a <= x <= a)%R.
Proof. intros. split_Rabs; lra. Qed.
(** Bounds on a compact interval. *)
Lemma cont_bound (f : R -> R) T : (0 <= T)%R -> (forall t, (0 <= t <= T)%R -> continuity_pt f t) -> exists b, (0 <= b)%R /\ forall t, (0 <= t <= T)%R -> (Rabs (f t) <= b)%R.
Proof.
  intros HT H. destruct (continuity_ab_maj f 0 T HT H) as (x & X1 & X2). destruct (continuity_ab_min f 0 T HT H) as (z & Z1 & Z2).
  exists (Rabs (f x) + Rabs (f z))%R. pose proof (Rabs_pos (f x)). pose proof (Rabs_pos (f z)). split; [lra|]. intros t Ht. specialize (X1 t Ht). specialize (Z1 t Ht). split_Rabs; lra.
Qed.
Lemma cont_pos (f : R -> R) T : (0 <= T)%R -> (forall t, (0 <= t <= T)%R -> continuity_pt f t /\ (0 < f t)%R) -> exists b, (0 <= b)%R /\ forall t, (0 <= t <= T)%R -> (1 <= b * f t)%R.
Proof.
  intros HT H. destruct (continuity_ab_min f 0 T HT (fun t Ht => proj1 (H t Ht))) as (z & Z1 & Z2). destruct (H z Z2) as [_ P].
  exists (/ f z)%R. split; [left; now apply Rinv_0_lt_compat|]. intros t Ht. specialize (Z1 t Ht). pose proof (Rinv_0_lt_compat _ P). rewrite <- (Rinv_l (f z)) by lra. apply Rmult_le_compat_l; lra.
Qed.

Section Conv.
Context (S : setup RA) (Hok : setup_ok S) (Hdc : (0 < (dc (mesh_of_setup S) : R))%R) (m0 : mem RA) (Hr : ready S m0) (st : stepper) (Kn : known st) (T : R) (HT : (0 < T)%R).
Context (Y : R -> fields RA).
Local Notation w := (weight st).
Local Notation f := (ff S m0).
Context (DY : forall t p, (0 <= t <= T)%R -> vplc S p -> derivable_pt_lim (fun s => val (Y s) p) t (w * f t (Y t) p)%R).
Context (PY : forall t c k, (0 <= t <= T)%R -> vplc S (PH c k) -> (0 < fh (Y t) c k)%R).
Context (L : R) (HL : (0 <= L)%R) (FP : forall p t t', vplc S p -> (0 <= t <= T)%R -> (0 <= t' <= T)%R -> (Rabs (fp S m0 p t - fp S m0 p t') <= L * Rabs (t - t'))%R).
Lemma w_range : (0 <= w <= 2)%R.
Proof using Kn.
  destruct Kn as [E | [E | E]]; rewrite E; [unfold weight; lra|rewrite weight_1; lra|]. pose proof weight_5 as W. apply Rabs_le_inv in W. lra.
Qed.
Lemma CY t p : (0 <= t <= T)%R -> vplc S p -> continuity_pt (fun s => val (Y s) p) t.
Proof using DY. intros Ht Hp. apply derivable_continuous_pt. exists (w * f t (Y t) p)%R. now apply DY. Qed.
Lemma tube : exists B de r, (0 < de)%R /\ (0 < r)%R /\ forall t z, (0 <= t <= T)%R -> close S r z (Y t) -> box S B de z.
Proof using DY PY HT.
  clear FP HL L.
  destruct (plc_max S (fun p b => forall t, (0 <= t <= T)%R -> (Rabs (val (Y t) p) <= b)%R)) as (B0 & HB & B1).
  { intros p M N HMN H t Ht. specialize (H t Ht). lra. }
  { intros p Hp. apply cont_bound; [lra|]. intros t Ht. now apply CY. }
  destruct (plc_max S (fun p b => match p with PH c k => forall t, (0 <= t <= T)%R -> (0 < fh (Y t) c k /\ 1 <= b * fh (Y t) c k)%R | _ => True end)) as (X & HX & X1).
  { intros [c k|e k|l c k] M N HMN H; auto. intros t Ht. destruct (H t Ht). split; [assumption|nra]. }
  { intros [c k|e k|l c k] Hp; try (exists 0%R; split; [lra|exact I]).
    destruct (cont_pos (fun t => fh (Y t) c k) T ltac:(lra)) as (b & Hb & Hb'); [intros t Ht; split; [now apply (CY t (PH c k))|now apply PY]|].
    exists b. split; [exact Hb|]. intros t Ht. split; [now apply PY|now apply Hb']. }
  pose proof (Rinv_0_lt_compat (X + 1) ltac:(lra)) as IX. set (d := (/ (X + 1) / 2)%R). assert (Hd : (0 < d)%R) by (unfold d; lra).
  exists (B0 + d)%R, d, d. split; [exact Hd|]. split; [exact Hd|]. intros t z Ht Hz. split.
  - intros p Hp. specialize (Hz p Hp). specialize (B1 p Hp t Ht). split_Rabs; lra.
  - intros c k Hp. specialize (Hz _ Hp). destruct (X1 (PH c k) Hp t Ht) as [A1 A2]. cbn [val] in Hz. apply Rabs_le_inv in Hz.
    assert (/ (X + 1) <= fh (Y t) c k)%R. { apply (Rmult_le_reg_l (X + 1)); [lra|]. rewrite Rinv_r by lra. nra. }
    unfold d in *. lra.
Qed.
Lemma setting : exists (bx : fields RA -> Prop) M r, (0 <= M)%R /\ (0 < r)%R /\ (forall t z, (0 <= t <= T)%R -> close S r z (Y t) -> bx z) /\
  (forall t y p, (0 <= t <= T)%R -> bx y -> vplc S p -> (Rabs (f t y p) <= M)%R) /\
  (forall t t' y z p d, (0 <= t <= T)%R -> (0 <= t' <= T)%R -> bx y -> bx z -> vplc S p -> (0 <= d)%R -> close S d y z -> (Rabs (f t y p - f t' z p) <= M * (Rabs (t - t') + d))%R).
Proof using DY PY HT Hok Hdc Hr HL FP.
  destruct tube as (B & de & r & Hde & Hr0 & Tb). destruct (gp_bnd S B de Hde Hok Hdc m0 Hr) as (M1 & HM1 & G).
  destruct (plc_max S (fun p b => (Rabs (fp S m0 p 0) <= b)%R)) as (M2 & HM2 & G2).
  { intros; lra. } { intros p Hp. exists (Rabs (fp S m0 p 0)). split; [apply Rabs_pos|lra]. }
  exists (box S B de), (M1 + M2 + L * T + L)%R, r. assert (LT : (0 <= L * T)%R) by (apply Rmult_le_pos; lra).
  split; [lra|]. split; [exact Hr0|]. split; [exact Tb|]. split.
  - intros t y p Ht Hy Hp. destruct (G p Hp) as [G1 _]. specialize (G1 y Hy). specialize (G2 p Hp). pose proof (FP p t 0%R Hp Ht ltac:(lra)) as F1. rewrite Rminus_0_r, (Rabs_pos_eq t) in F1 by lra.
    assert (L * t <= L * T)%R by (apply Rmult_le_compat_l; lra). unfold ff. split_Rabs; lra.
  - intros t t' y z p d Ht Ht' Hy Hz Hp Hd Hc. destruct (G p Hp) as [_ G1]. specialize (G1 y z d Hy Hz Hd Hc). pose proof (FP p t t' Hp Ht Ht') as F1. unfold ff.
    replace (gp S m0 p y + fp S m0 p t - (gp S m0 p z + fp S m0 p t'))%R with ((gp S m0 p y - gp S m0 p z) + (fp S m0 p t - fp S m0 p t'))%R by ring.
    eapply Rle_trans; [apply Rabs_triang|]. pose proof (Rabs_pos (t - t')). nra.
Qed.

Section Bounds.
Context (Uf : st = RK4 -> unforced S) (bx : fields RA -> Prop) (M r : R) (HM : (0 <= M)%R) (Hr0 : (0 < r)%R) (Tb : forall t z, (0 <= t <= T)%R -> close S r z (Y t) -> bx z)
  (FM : forall t y p, (0 <= t <= T)%R -> bx y -> vplc S p -> (Rabs (f t y p) <= M)%R)
  (FL : forall t t' y z p d, (0 <= t <= T)%R -> (0 <= t' <= T)%R -> bx y -> bx z -> vplc S p -> (0 <= d)%R -> close S d y z -> (Rabs (f t y p - f t' z p) <= M * (Rabs (t - t') + d))%R).
Lemma bxY t : (0 <= t <= T)%R -> bx (Y t).
Proof using Tb Hr0. intros Ht. apply (Tb t); [exact Ht|]. intros p _. rewrite Rminus_diag_eq, Rabs_R0 by reflexivity. lra. Qed.
(** The exact solution over one step. *)
Lemma exact_mvt p t s : vplc S p -> (0 <= t)%R -> (t <= s <= T)%R -> exists c, (t <= c <= s)%R /\ (val (Y s) p - val (Y t) p = w * f c (Y c) p * (s - t))%R.
Proof using DY.
  intros Hp Ht Hs. destruct (Req_dec t s) as [<-|Hne]; [exists t; split; [lra|ring]|].
  destruct (MVT_cor2 (fun s => val (Y s) p) (fun c => w * f c (Y c) p)%R t s ltac:(lra)) as (c & C1 & C2); [intros c Hc; apply DY; [lra|exact Hp]|].
  exists c. split; [lra|exact C1].
Qed.
Lemma exact_move t s : (0 <= t)%R -> (t <= s <= T)%R -> close S (2 * M * (s - t)) (Y s) (Y t).
Proof using DY FM Tb Hr0 Kn.
  intros Ht Hs p Hp. destruct (exact_mvt p t s Hp Ht Hs) as (c & Hc & ->). rewrite !Rabs_mult. rewrite (Rabs_pos_eq (s - t)) by lra. pose proof w_range as W. rewrite (Rabs_pos_eq w) by lra.
  assert (Rabs (f c (Y c) p) <= M)%R by (apply FM; [lra|apply bxY; lra|exact Hp]). apply Rmult_le_compat_r; [lra|]. apply Rmult_le_compat; try lra; apply Rabs_pos.
Qed.
Lemma exact_step t dt p : vplc S p -> (0 <= t)%R -> (0 <= dt)%R -> (t + dt <= T)%R -> (Rabs (val (Y (t + dt)) p - (val (Y t) p + dt * (w * f t (Y t) p))) <= 2 * M * (1 + 2 * M) * dt * dt)%R.
Proof using DY FM FL Tb Hr0 Kn HM.
  intros Hp Ht Hdt HT2. destruct (exact_mvt p t (t + dt) Hp Ht ltac:(lra)) as (c & Hc & E).
  replace (val (Y (t + dt)) p - (val (Y t) p + dt * (w * f t (Y t) p)))%R with (w * (f c (Y c) p - f t (Y t) p) * dt)%R by (replace (val (Y (t + dt)) p) with (val (Y t) p + w * f c (Y c) p * (t + dt - t))%R by lra; ring).
  assert (0 <= 2 * M * (c - t))%R by (apply Rmult_le_pos; lra).
  pose proof (FL c t (Y c) (Y t) p (2 * M * (c - t))%R ltac:(lra) ltac:(lra) (bxY c ltac:(lra)) (bxY t ltac:(lra)) Hp ltac:(lra) (exact_move t c Ht ltac:(lra))) as F1.
  rewrite (Rabs_pos_eq (c - t)) in F1 by lra. rewrite !Rabs_mult, (Rabs_pos_eq dt) by lra. apply Rmult_le_compat_r; [lra|]. pose proof w_range as W. rewrite (Rabs_pos_eq w) by lra.
  assert (F2 : (Rabs (f c (Y c) p - f t (Y t) p) <= M * ((1 + 2 * M) * dt))%R).
  { eapply Rle_trans; [exact F1|]. apply Rmult_le_compat_l; [lra|]. replace (c - t + 2 * M * (c - t))%R with ((1 + 2 * M) * (c - t))%R by ring. apply Rmult_le_compat_l; lra. }
  eapply Rle_trans; [apply Rmult_le_compat; [lra|apply Rabs_pos|apply W|exact F2]|]. lra.
Qed.
(** The computed solution over one step. *)
Lemma step_one t dt r1 y m1 : (0 <= t)%R -> (0 <= dt)%R -> (t + dt <= T)%R -> (forall z, close S r1 z y -> bx z) -> (64 * M * dt <= r1)%R -> inv S st m1 -> holds S St m1 y ->
  exists z, inv S st (step_fn S st t dt m1) /\ holds S St (step_fn S st t dt m1) z /\ forall p, vplc S p -> (Rabs (val z p - (val y p + dt * (w * f t y p))) <= dt * (64 * (M * (1 + 64 * M) * dt)))%R.
Proof using Hok Hdc Hr Kn Uf HM FM FL DY.
  intros Ht Hdt HT2 Hb Hr1 [I1 I2] Hy. unfold inv. destruct Kn as [E | E].
  - rewrite E in *. destruct (rk4_one S Hok Hdc m0 Hr bx T M HM FM FL t dt r1 Ht Hdt HT2 y Hb Hr1 m1 (Uf eq_refl) I1 (I2 eq_refl) Hy) as (z & A1 & A2 & A3 & A4). exists z. cbn [step_fn weight].
    split; [split; [exact A1|intros _; exact A2]|]. split; [exact A3|]. intros p Hp. rewrite Rmult_1_l. eapply Rle_trans; [apply A4, Hp|]. apply Rmult_le_compat_l; [exact Hdt|].
    pose proof (E_pos M HM dt Hdt). lra.
  - assert (exists n, st = LSRK n /\ (n = 1 \/ n = 5)) as (n & En & Hn) by (destruct E as [-> | ->]; eauto). rewrite En in *.
    destruct (lsrk_one S Hok Hdc m0 Hr bx T M HM FM FL t dt r1 Ht Hdt HT2 y Hb Hr1 n m1 Hn I1 Hy) as (z & A1 & A2 & A3). exists z. cbn [step_fn].
    split; [split; [exact A1|discriminate]|]. split; [exact A2|exact A3].
Qed.
Local Notation C1 := (66 * (M * (1 + 64 * M)))%R.
Lemma C1_pos : (0 <= C1)%R.
Proof using HM. apply Rmult_le_pos; [lra|]. apply Rmult_le_pos; lra. Qed.
Definition eb (dt : R) (n : Z) : R := (IZR n * (C1 * dt * dt) * exp (2 * M * (IZR n * dt)))%R.
Lemma eb_step dt n : (0 <= dt)%R -> 0 <= n -> (eb dt n * (1 + 2 * M * dt) + C1 * dt * dt <= eb dt (n + 1))%R.
Proof using HM.
  intros Hdt Hn. unfold eb. rewrite plus_IZR. replace (2 * M * ((IZR n + 1) * dt))%R with (2 * M * (IZR n * dt) + 2 * M * dt)%R by ring. rewrite exp_plus.
  apply IZR_le in Hn. pose proof C1_pos as CP. set (q := (C1 * dt * dt)%R). assert (Hq : (0 <= q)%R) by (unfold q; apply Rmult_le_pos; [apply Rmult_le_pos; lra|lra]). clearbody q.
  assert (Hx : (0 <= 2 * M * dt)%R) by (apply Rmult_le_pos; lra). assert (Hx2 : (0 <= 2 * M * (IZR n * dt))%R) by (apply Rmult_le_pos; [lra|]; apply Rmult_le_pos; lra).
  assert (E1 : (1 + 2 * M * dt <= exp (2 * M * dt))%R) by (destruct (Req_dec (2 * M * dt) 0) as [->|]; [rewrite exp_0; lra|left; apply exp_ineq1; assumption]).
  assert (E2 : (1 <= exp (2 * M * (IZR n * dt)))%R) by (rewrite <- exp_0; destruct (Req_dec (2 * M * (IZR n * dt)) 0) as [->|]; [lra|left; apply exp_increasing; lra]).
  set (a := exp (2 * M * (IZR n * dt))) in *. set (b := exp (2 * M * dt)) in *. set (x := (2 * M * dt)%R) in *. clearbody a b x.
  assert (1 <= a * b)%R by nra. assert (0 <= IZR n * q * a)%R by (apply Rmult_le_pos; [apply Rmult_le_pos; lra|lra]).
  assert (IZR n * q * a * (1 + x) <= IZR n * q * a * b)%R by (apply Rmult_le_compat_l; lra). nra.
Qed.
Lemma eb_le dt n N : (0 <= dt)%R -> 0 <= n <= N -> (eb dt n <= eb dt N)%R.
Proof using HM.
  intros Hdt Hn. pose proof C1_pos as CP. assert (Hq : (0 <= C1 * dt * dt)%R) by (apply Rmult_le_pos; [apply Rmult_le_pos; lra|lra]).
  assert (N1 : (0 <= IZR n <= IZR N)%R) by (split; apply IZR_le; lia). unfold eb.
  apply Rmult_le_compat; [apply Rmult_le_pos; lra|left; apply exp_pos|apply Rmult_le_compat_r; lra|].
  assert (2 * M * (IZR n * dt) <= 2 * M * (IZR N * dt))%R by (apply Rmult_le_compat_l; [lra|]; apply Rmult_le_compat_r; lra).
  destruct (Req_dec (2 * M * (IZR n * dt)) (2 * M * (IZR N * dt))) as [->|]; [lra|]. left. apply exp_increasing. lra.
Qed.
Lemma run_near N dt m1 : 1 <= N -> (0 <= dt)%R -> (IZR N * dt <= T)%R -> (64 * M * dt <= r / 2)%R -> (eb dt N <= r / 2)%R -> inv S st m1 -> holds S St m1 (Y 0) ->
  forall n : nat, Z.of_nat n <= N -> let m' := run_fn S st (loop_steps (A:=RA) (Z.of_nat n) dt) m1 in
    inv S st m' /\ exists z, holds S St m' z /\ close S (eb dt (Z.of_nat n)) z (Y (IZR (Z.of_nat n) * dt)).
Proof using Hok Hdc Hr Kn Uf HM FM FL Tb Hr0 DY HT.
  intros HN Hdt HND H64 HebN I1 Hy. induction n as [|n IH]; intros Hn.
  - cbn zeta. change (Z.of_nat 0) with 0. replace (run_fn S st (loop_steps (A:=RA) 0 dt) m1) with m1 by (destruct st; reflexivity). split; [exact I1|]. exists (Y 0). split; [exact Hy|].
    intros p Hp. rewrite Rmult_0_l, Rminus_diag_eq, Rabs_R0 by reflexivity. unfold eb. rewrite !Rmult_0_l. lra.
  - destruct (IH ltac:(lia)) as (I2 & z & Hz & Cz). cbv zeta. replace (Z.of_nat (Datatypes.S n)) with (Z.of_nat n + 1) by lia. set (k := Z.of_nat n) in *. assert (Hk : 0 <= k) by lia.
    assert (E : loop_steps (A:=RA) (k + 1) dt = loop_steps (A:=RA) k dt ++ [((IZR k * dt)%R, dt)]) by (unfold loop_steps; rewrite zseq_succ by lia; rewrite map_app; reflexivity).
    rewrite E, run_snoc. set (t := (IZR k * dt)%R) in *.
    assert (K0 : (0 <= IZR k)%R) by (apply IZR_le; lia). assert (KN : (IZR k + 1 <= IZR N)%R) by (rewrite <- plus_IZR; apply IZR_le; lia).
    assert (t0 : (0 <= t)%R) by (unfold t; apply Rmult_le_pos; lra). assert (tT : (t + dt <= T)%R). { assert ((IZR k + 1) * dt <= IZR N * dt)%R by (apply Rmult_le_compat_r; lra). unfold t. lra. }
    pose proof (eb_le dt k N Hdt ltac:(lia)) as Ek.
    assert (Eb0 : (0 <= eb dt k)%R). { pose proof (eb_le dt 0 k Hdt ltac:(lia)) as A. unfold eb in A at 1. rewrite !Rmult_0_l in A. exact A. }
    destruct (step_one t dt (r / 2) z (run_fn S st (loop_steps (A:=RA) k dt) m1)) as (z2 & I3 & Hz2 & C2); auto.
    { intros z' Hz'. apply (Tb t); [lra|]. intros p Hp. specialize (Hz' p Hp). specialize (Cz p Hp). replace (val z' p - val (Y t) p)%R with ((val z' p - val z p) + (val z p - val (Y t) p))%R by ring. eapply Rle_trans; [apply Rabs_triang|]. lra. }
    split; [exact I3|]. exists z2. split; [exact Hz2|]. intros p Hp. rewrite plus_IZR. replace ((IZR k + IZR 1) * dt)%R with (t + dt)%R by (unfold t; ring).
    assert (Bz : bx z). { apply (Tb t); [lra|]. intros q Hq. specialize (Cz q Hq). lra. }
    pose proof (C2 p Hp) as D1. pose proof (exact_step t dt p Hp t0 Hdt tT) as D2. pose proof (FL t t z (Y t) p (eb dt k) ltac:(lra) ltac:(lra) Bz (bxY t ltac:(lra)) Hp Eb0 Cz) as D3. specialize (Cz p Hp).
    rewrite (Rminus_diag_eq t t eq_refl), Rabs_R0, Rplus_0_l in D3. pose proof w_range as W.
    eapply Rle_trans; [|apply eb_step; [exact Hdt|exact Hk]].
    replace (val z2 p - val (Y (t + dt)) p)%R with ((val z2 p - (val z p + dt * (w * f t z p))) + (val z p - val (Y t) p) + dt * (w * (f t z p - f t (Y t) p)) - (val (Y (t + dt)) p - (val (Y t) p + dt * (w * f t (Y t) p))))%R by ring.
    assert (D4 : (Rabs (dt * (w * (f t z p - f t (Y t) p))) <= dt * (2 * (M * eb dt k)))%R).
    { rewrite !Rabs_mult, (Rabs_pos_eq dt), (Rabs_pos_eq w) by lra. apply Rmult_le_compat_l; [lra|]. apply Rmult_le_compat; try lra. apply Rabs_pos. }
    assert (D5 : (2 * M * (1 + 2 * M) * dt * dt <= 2 * (M * (1 + 64 * M)) * dt * dt)%R) by (apply Rmult_le_compat_r; [lra|]; apply Rmult_le_compat_r; [lra|]; nra).
    set (x1 := (val z2 p - (val z p + dt * (w * f t z p)))%R) in *. set (x2 := (val z p - val (Y t) p)%R) in *. set (x3 := (dt * (w * (f t z p - f t (Y t) p)))%R) in *. set (x4 := (val (Y (t + dt)) p - (val (Y t) p + dt * (w * f t (Y t) p)))%R) in *.
    assert (Rabs (x1 + x2 + x3 - x4) <= Rabs x1 + Rabs x2 + Rabs x3 + Rabs x4)%R by (clear; split_Rabs; lra).
    eapply Rle_trans; [eassumption|]. lra.
Qed.
End Bounds.

Theorem converges : (st = RK4 -> unforced S) -> exists C, (0 <= C)%R /\ forall N, (C <= IZR N)%R -> 1 <= N -> forall m1, inv S st m1 -> holds S St m1 (Y 0) ->
  exists z, holds S St (run_fn S st (loop_steps (A:=RA) N (T / IZR N)%R) m1) z /\ close S (C / IZR N) z (Y T).
Proof using Hok Hdc Hr Kn HT DY PY HL FP.
  intros Uf. destruct setting as (bx & M & r & HM & Hr0 & Tb & FM & FL).
  set (K := (66 * (M * (1 + 64 * M)) * T * T * exp (2 * M * T))%R).
  assert (HK : (0 <= K)%R). { unfold K. apply Rmult_le_pos; [|left; apply exp_pos]. pose proof (C1_pos M HM). apply Rmult_le_pos; [apply Rmult_le_pos|]; lra. }
  pose proof (Rinv_0_lt_compat r Hr0) as Ir. assert (HMT : (0 <= M * T)%R) by (apply Rmult_le_pos; lra).
  assert (K1 : (0 <= 2 * K * / r)%R) by (apply Rmult_le_pos; lra). assert (K2 : (0 <= 128 * (M * T) * / r)%R) by (apply Rmult_le_pos; lra).
  exists (K + 2 * K * / r + 128 * (M * T) * / r)%R. split; [lra|]. intros N HC HN m1 I1 Hy.
  assert (Np : (1 <= IZR N)%R) by (apply IZR_le; lia). pose proof (Rinv_0_lt_compat (IZR N) ltac:(lra)) as IN. set (dt := (T / IZR N)%R).
  assert (Hdt : (0 <= dt)%R) by (unfold dt; apply Rmult_le_pos; lra). assert (E : (IZR N * dt = T)%R) by (unfold dt; field; lra).
  assert (Ee : eb M dt N = (K / IZR N)%R). { unfold eb. rewrite E. unfold K. transitivity (66 * (M * (1 + 64 * M)) * dt * (IZR N * dt) * exp (2 * M * T))%R; [ring|]. rewrite E. unfold dt. field. lra. }
  assert (Q1 : (64 * M * dt <= r / 2)%R).
  { apply (Rmult_le_reg_l (IZR N)); [lra|]. replace (IZR N * (64 * M * dt))%R with (64 * M * (IZR N * dt))%R by ring. rewrite E. apply (Rmult_le_reg_r (/ r)); [exact Ir|]. replace (IZR N * (r / 2) * / r)%R with (IZR N / 2)%R by (field; lra). lra. }
  assert (Q2 : (eb M dt N <= r / 2)%R).
  { rewrite Ee. apply (Rmult_le_reg_l (IZR N)); [lra|]. replace (IZR N * (K / IZR N))%R with K by (field; lra). apply (Rmult_le_reg_r (/ r)); [exact Ir|]. replace (IZR N * (r / 2) * / r)%R with (IZR N / 2)%R by (field; lra). lra. }
  destruct (run_near Uf bx M r HM Hr0 Tb FM FL N dt m1 HN Hdt ltac:(lra) Q1 Q2 I1 Hy (Z.to_nat N) ltac:(lia)) as (_ & z & Hz & Cz). rewrite Z2Nat.id in * by lia.
  exists z. split; [exact Hz|]. rewrite E, Ee in Cz. intros p Hp. eapply Rle_trans; [apply Cz, Hp|]. apply Rmult_le_compat_r; lra.
Qed.
End Conv.
