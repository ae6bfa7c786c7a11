(** Rounding errors of the total mass in binary64 runs. *)
From Coq Require Import ZArith Reals List Bool Lia Lra FunctionalExtensionality.
From Coq Require Import Floats.SpecFloat.
From Flocq Require Import Core.Core.
From Verif Require Import Arith Arrays Prog Conc Launch Mesh AuxVars Tend Model Hex MeshProof MeshMem Over Formulas KernBase Terms KernAux KernTend TendFn StepFn Ready Rel RelRun Relate TendVal StepVal StepRun RSum FloatFacts FloatMass.
Import ListNotations.
Open Scope Z_scope.

Lemma meq_eq {A : Arith} (m m' : mem A) : meq m m' -> m = m'.
Proof.
  intros [E1 E2]. destruct m as [i r], m' as [i' r']. cbn in *. f_equal; do 2 (apply functional_extensionality; intros); auto.
Qed.

(** ** Memories between the launches *)
Section Along.
Context {A : Arith} (D : dims).
Implicit Types (m : mem A) (Ls : list (launch A)).
(** Every memory reached after some of the launches, in whatever schedule. *)
Definition along Ls m (Q : mem A -> Prop) : Prop :=
  forall ls ls' m1, Ls = ls ++ ls' -> exec D ls m (OK m1) -> Q m1.
Lemma exec_app L1 L2 m m1 o : exec D L1 m (OK m1) -> exec D L2 m1 o -> exec D (L1 ++ L2) m o.
Proof.
  revert m. induction L1 as [|L L1 IH]; intros m H1 H2; inversion H1; subst; [exact H2|]. cbn. econstructor; eauto.
Qed.
Lemma along_here Ls m Q : along Ls m Q -> Q m.
Proof. intros H. apply (H [] Ls m eq_refl). constructor. Qed.
Lemma along_seq L1 L2 m Q (f : mem A -> mem A) : hsafe D L1 m (fun M => meq M (f m)) -> along (L1 ++ L2) m Q -> along L2 (f m) Q.
Proof.
  intros H HA ls ls' m1 -> Hx. destruct (hsafe_always _ _ _ _ H) as [H1 [m2 H2]]. destruct (H1 _ H2) as (m3 & E & E3).
  injection E as <-. apply meq_eq in E3. subst m2. apply (HA (L1 ++ ls) ls'); [now rewrite app_assoc|]. eapply exec_app; eauto.
Qed.
End Along.

(** ** Sums *)
Lemma pow6 : (q64 ^ 6 - 1 <= 6 * eps64 * q64 ^ 6)%R.
Proof.
  pose proof eps_pos as He. pose proof (qk1 6) as Q. replace (q64 ^ 6 - 1)%R with (eps64 * (1 + q64 ^ 1 + q64 ^ 2 + q64 ^ 3 + q64 ^ 4 + q64 ^ 5))%R by (unfold q64; ring).
  pose proof (qk_mono 1 6 ltac:(lia)). pose proof (qk_mono 2 6 ltac:(lia)). pose proof (qk_mono 3 6 ltac:(lia)). pose proof (qk_mono 4 6 ltac:(lia)). pose proof (qk_mono 5 6 ltac:(lia)).
  replace (6 * eps64 * q64 ^ 6)%R with (eps64 * (6 * q64 ^ 6))%R by ring. apply Rmult_le_compat_l; lra.
Qed.

Section Sums.
Context (cc ss : spec_float -> spec_float) (pp : spec_float).
Local Notation A := (SFA cc ss pp).
Lemma axpy_fin (x y t w : F A) : dbl x -> dbl t -> dbl w -> y = (x + w * t)%fp -> fin y ->
  fin x /\ fin t /\ fin w /\ val y = rnd (val x + rnd (val w * val t)).
Proof.
  intros Dx Dt Dw -> Hf. destruct (fin_add cc ss pp _ _ Dx (dbl_mul cc ss pp _ _ Dw Dt) Hf) as (F1 & F2 & E1).
  destruct (fin_mul cc ss pp _ _ Dw Dt F2) as (F3 & F4 & E2). rewrite E1, E2. auto.
Qed.
Lemma axpy_err (x y t w : F A) (Hb M wb : R) : dbl x -> dbl t -> dbl w -> y = (x + w * t)%fp -> fin y ->
  (Rabs (val y) <= Hb)%R -> (Rabs (val t) <= M)%R -> (Rabs (val w) <= wb)%R -> (tiny <= wb * M)%R ->
  (Rabs (val y - (val x + val w * val t)) <= eps64 * Hb + eps64 * (wb * M))%R.
Proof.
  intros Dx Dt Dw Ey Hf By Bt Bw Ht. destruct (axpy_fin x y t w Dx Dt Dw Ey Hf) as (F1 & F2 & F3 & E).
  assert (Fwt : fin (w * t)%fp).
  { rewrite Ey in Hf. apply (fin_add cc ss pp _ _ Dx (dbl_mul cc ss pp _ _ Dw Dt) Hf). }
  destruct (fin_mul cc ss pp _ _ Dw Dt Fwt) as (_ & _ & Ewt).
  assert (P : (Rabs (val w * val t) <= wb * M)%R) by (rewrite Rabs_mult; apply Rmult_le_compat; auto using Rabs_pos).
  pose proof (rnd_err _ _ P Ht) as R1. pose proof (add_err_r x (w * t)%fp Dx (fin_dbl _ Fwt)) as R2. rewrite Ewt, <- E in R2.
  pose proof eps_pos as He. assert (R3 : (eps64 * Rabs (val y) <= eps64 * Hb)%R) by (apply Rmult_le_compat_l; lra).
  replace (val y - (val x + val w * val t))%R with ((val y - (val x + rnd (val w * val t))) + (rnd (val w * val t) - val w * val t))%R by ring.
  eapply Rle_trans; [apply Rabs_triang|]. lra.
Qed.
Lemma axpy_sum N (x y t : Z -> F A) (w : F A) (Hb M wb E : R) : 0 < N ->
  (forall c, 0 <= c < N -> dbl (x c)) -> (forall c, 0 <= c < N -> dbl (t c)) -> dbl w ->
  (forall c, 0 <= c < N -> y c = (x c + w * t c)%fp) -> (forall c, 0 <= c < N -> fin (y c)) ->
  (forall c, 0 <= c < N -> (Rabs (val (y c)) <= Hb)%R) ->
  (forall c, 0 <= c < N -> (Rabs (val (t c)) <= M)%R) -> (Rabs (rsum N (fun c => val (t c))) <= IZR N * E)%R ->
  (Rabs (val w) <= wb)%R -> (tiny <= wb * M)%R ->
  (Rabs (rsum N (fun c => val (y c)) - rsum N (fun c => val (x c))) <= IZR N * (eps64 * Hb + eps64 * (wb * M) + wb * E))%R.
Proof.
  intros HN Dx Dt Dw Ey Fy By Bt BE Bw Ht.
  replace (rsum N (fun c => val (y c)) - rsum N (fun c => val (x c)))%R
    with (rsum N (fun c => val (y c) - (val (x c) + val w * val (t c))) + val w * rsum N (fun c => val (t c)))%R.
  2:{ rewrite <- rsum_scal, <- rsum_plus, <- rsum_minus. apply rsum_ext. intros c Hc. ring. }
  eapply Rle_trans; [apply Rabs_triang|].
  assert (B1 : (Rabs (rsum N (fun c => val (y c) - (val (x c) + val w * val (t c)))) <= IZR N * (eps64 * Hb + eps64 * (wb * M)))%R).
  { eapply Rle_trans; [apply Rabs_rsum|]. rewrite <- rsum_const by lia. apply rsum_le. intros c Hc.
    apply (axpy_err (x c) (y c) (t c) w); auto. }
  assert (B2 : (Rabs (val w * rsum N (fun c => val (t c))) <= wb * (IZR N * E))%R).
  { rewrite Rabs_mult. apply Rmult_le_compat; auto using Rabs_pos. }
  lra.
Qed.
(** Weights [dt * b]. *)
Lemma weight (dt b : F A) (Db beta : R) : dbl dt -> dbl b -> fin (dt * b)%fp -> (Rabs (val dt) <= Db)%R -> (Rabs (val b) <= beta)%R -> (tiny <= Db * beta)%R ->
  (Rabs (val (dt * b)%fp) <= q64 * (Db * beta))%R.
Proof.
  intros D1 D2 Hf B1 B2 Ht. destruct (fin_mul cc ss pp _ _ D1 D2 Hf) as (_ & _ & ->). apply rnd_le; [|exact Ht].
  rewrite Rabs_mult. apply Rmult_le_compat; auto using Rabs_pos.
Qed.
End Sums.

(** A number, and a layer of a state, that are finite and bounded. *)
Definition fin_le {cc ss pp} (b : R) (x : F (SFA cc ss pp)) : Prop := fin x /\ (Rabs (val x) <= b)%R.
Definition bounded {cc ss pp} (S : setup (SFA cc ss pp)) (k : Z) (Hb Vb : R) (s : sid) (m : mem (SFA cc ss pp)) : Prop :=
  (forall c, 0 <= c < d_ncells (sdims S) -> fin_le Hb (mr m (HCell s) [c; k])) /\
  (forall e, 0 <= e < d_nedges (sdims S) -> fin_le Vb (mr m (VnEdge s) [e; k])).
(** The sum of the thicknesses of a layer, in exact arithmetic. *)
Definition total {cc ss pp} (S : setup (SFA cc ss pp)) (k : Z) (s : sid) (m : mem (SFA cc ss pp)) : R :=
  rsum (d_ncells (sdims S)) (fun c => val (mr m (HCell s) [c; k])).

Lemma q_ub : (q64 <= 1 + 1 / 1000000)%R.
Proof. unfold q64. pose proof eps_small as E0. lra. Qed.
Lemma q2_ub : (q64 * q64 <= 1 + 3 / 1000000)%R.
Proof. pose proof q_ub as Q. pose proof q0 as Q0. assert (q64 * q64 <= (1 + 1 / 1000000) * (1 + 1 / 1000000))%R by (apply Rmult_le_compat; lra). lra. Qed.
Section Quot.
Context (cc ss : spec_float -> spec_float) (pp : spec_float).
Local Notation A := (SFA cc ss pp).
Lemma b_quot a b : a <> 0 -> Z.abs a < 2 ^ 53 -> 0 < b < 2 ^ 53 -> fin_le (q64 * (IZR (Z.abs a) / IZR b)) (fofZ a / fofZ b : F A)%fp.
Proof.
  intros Na Ha Hb0. destruct (ofZ_val cc ss pp a Ha) as [Fa Ea]. destruct (ofZ_val cc ss pp b ltac:(lia)) as [Fb Eb].
  assert (Ra : rng (IZR (Z.abs a)) 0 53) by (apply rng_Z; lia). assert (Rb : rng (IZR b) 0 53) by (apply rng_Z; lia).
  pose proof (rng_pos _ _ _ Rb) as Pb. destruct (rng_div _ _ _ _ _ _ Ra Rb) as [L1 L2]. set (r := (IZR (Z.abs a) / IZR b)%R) in *.
  assert (Er : Rabs (IZR a / IZR b) = r). { unfold Rdiv. rewrite Rabs_mult, <- abs_IZR, Rabs_inv, (Rabs_pos_eq (IZR b)) by lra. reflexivity. }
  assert (T : (tiny <= r)%R) by (eapply Rle_trans; [|exact L1]; now apply bpow_le).
  assert (B : (Rabs (rnd (IZR a / IZR b)) <= q64 * r)%R) by (apply rnd_le; [rewrite Er; lra|exact T]).
  destruct (div_ok cc ss pp (fofZ a) (fofZ b) Fa Fb) as [G1 G2]; rewrite ?Ea, ?Eb; [lra| |].
  - unfold small. eapply Rle_lt_trans; [exact B|]. apply Rle_lt_trans with (2 * bpow radix2 53)%R.
    + apply Rmult_le_compat; [pose proof q1; lra|apply Rlt_le, (rng_pos r _ _ (conj L1 L2))|pose proof (qk_2 1 ltac:(lia)) as Q; cbn [pow] in Q; lra|exact L2].
    + replace 2%R with (bpow radix2 1) by reflexivity. rewrite <- bpow_plus. now apply bpow_lt.
  - split; [exact G1|]. rewrite G2, Ea, Eb. exact B.
Qed.
Lemma quot_le a b r : a <> 0 -> Z.abs a < 2 ^ 53 -> 0 < b < 2 ^ 53 -> (q64 * (IZR (Z.abs a) / IZR b) <= r)%R -> fin_le r (fofZ a / fofZ b : F A)%fp.
Proof. intros H1 H3 H4 H5. destruct (b_quot a b H1 H3 H4) as [F1 F2]. split; [exact F1|lra]. Qed.
End Quot.

Section Run.
Context (cc ss : spec_float -> spec_float) (pp : spec_float).
Local Notation A := (SFA cc ss pp).
Context (S : setup A) (Hok : setup_ok S).
Local Notation cf := (cfg_of S).
Local Notation P := (par_of S).
Local Notation D := (sdims S).
Local Notation h := (mesh_of_setup S).
Local Notation NC := (nx h * ny h).
Implicit Types (m n : mem A).
Context (HX : 2 <= nx h) (HY : 2 <= ny h).
Context (d : R) (Hd1 : fin (dc h)) (Hd2 : val (dc h) = d) (Hd3 : rng d (-200) 200).
Context (Eh : disable_h P = false) (Ek : hook S = None).
Context (k : Z) (Hk : 0 <= k < d_nlayers D).
Context (Hb Vb Db : R) (HH : (bpow radix2 (-200) <= Hb)%R) (HV : (bpow radix2 (-200) <= Vb)%R) (HD : (bpow radix2 (-200) <= Db)%R).
Local Notation H2 := (fun m : mem A => bounded S k Hb Vb St m /\ bounded S k Hb Vb Provis m).
Local Notation tot := (fun m : mem A => total S k St m).
Local Notation U := (4 * Hb * Vb / d)%R.
Local Notation M := (q64 ^ 19 * U)%R.
Local Notation E := (6 * eps64 * M)%R.
Lemma NC_pos : 0 < NC. Proof. nia. Qed.
Lemma dpos : (0 < d)%R. Proof. exact (rng_pos _ _ _ Hd3). Qed.

(** ** Bounds of the tendencies *)
Definition TJ (Mq Eq : R) n : Prop := (forall c, 0 <= c < NC -> dbl (mr n (HCell Tend) [c; k])) /\
  ((forall c, 0 <= c < NC -> fin (mr n (HCell Tend) [c; k])) ->
   (forall c, 0 <= c < NC -> (Rabs (val (mr n (HCell Tend) [c; k])) <= Mq)%R) /\
   (Rabs (total S k Tend n) <= IZR NC * Eq)%R).
Local Notation TI := (TJ M E).
Lemma six_fb : (q64 ^ 6 * (6 * fb d Hb Vb) = M)%R.
Proof. unfold fb. pose proof dpos. field. lra. Qed.
Lemma M_low : (bpow radix2 (-601) <= M)%R.
Proof.
  pose proof dpos as Hp. pose proof (rng_div _ _ _ _ _ _ z1 Hd3) as [L _]. pose proof (qk1 19) as Q.
  assert (T1 : (bpow radix2 (-400) <= Hb * Vb)%R).
  { change (-400) with (-200 + -200). rewrite bpow_plus. apply Rmult_le_compat; try apply bpow_ge_0; assumption. }
  assert (T2 : (bpow radix2 (-601) <= Hb * Vb * (1 / d))%R).
  { change (-601) with (-400 + -201). rewrite bpow_plus. apply Rmult_le_compat; try apply bpow_ge_0; [exact T1|].
    eapply Rle_trans; [|exact L]. now apply bpow_le. }
  pose proof (bpow_gt_0 radix2 (-601)) as Z0.
  assert (T3 : (bpow radix2 (-601) <= U)%R) by (replace U with (4 * (Hb * Vb * (1 / d)))%R by (field; lra); lra).
  apply Rle_trans with (1 * U)%R; [lra|]. apply Rmult_le_compat_r; lra.
Qed.
Lemma M_pos : (0 < M)%R. Proof. pose proof M_low. pose proof (bpow_gt_0 radix2 (-601)). lra. Qed.
Lemma fold_M s n : ready S n -> bounded S k Hb Vb s n ->
  (forall c, 0 <= c < NC -> dbl (fold_h cc ss pp S s k n c)) /\
  ((forall c, 0 <= c < NC -> fin (fold_h cc ss pp S s k n c)) ->
   (forall c, 0 <= c < NC -> (Rabs (val (fold_h cc ss pp S s k n c)) <= M)%R) /\
   (Rabs (rsum NC (fun c => val (fold_h cc ss pp S s k n c))) <= IZR NC * E)%R).
Proof.
  intros Hr [B1 B2].
  assert (Dh : forall c, 0 <= c < NC -> dbl (mr n (HCell s) [c; k])) by (intros; now apply fin_dbl, B1).
  assert (Dv : forall e, 0 <= e < 3 * NC -> dbl (mr n (VnEdge s) [e; k])) by (intros; now apply fin_dbl, B2).
  split; [intros c Hc; now apply (fold_facts cc ss pp S Hok HX HY d Hd1 Hd2 Hd3 s k n Hr Dh Dv c Hc)|].
  intros Hf. pose proof (fold_bounds cc ss pp S Hok HX HY d Hd1 Hd2 Hd3 s k n Hr Hk Dh Dv Hb Vb HH HV) as G.
  destruct G as [G1 G2]; auto; try (intros; now apply B1 || apply B2). rewrite six_fb in G1. split; [exact G1|].
  eapply Rle_trans; [exact G2|]. apply Rmult_le_compat_l; [apply IZR_le; pose proof NC_pos; lia|].
  rewrite <- six_fb. set (x := (6 * fb d Hb Vb)%R).
  replace (6 * eps64 * (q64 ^ 6 * x))%R with (6 * eps64 * q64 ^ 6 * x)%R by ring. apply Rmult_le_compat_r; [|apply pow6].
  pose proof M_pos as MP. rewrite <- six_fb in MP. fold x in MP. pose proof (qk0 6) as Q.
  destruct (Rle_or_lt 0 x) as [L|L]; [exact L|]. assert (q64 ^ 6 * x < q64 ^ 6 * 0)%R by now apply Rmult_lt_compat_l. lra.
Qed.
Lemma tend_val s time md n c : ready S n -> 0 <= c < NC ->
  mr (tendency_fn S Tend s time md n) (HCell Tend) [c; k] = (zr md (mr n (HCell Tend) [c; k]) + fold_h cc ss pp S s k n c)%fp.
Proof.
  intros Hr Hc. rewrite (val_h S) by assumption. unfold hk_h. rewrite Ek, Eh. now apply hadv_fold.
Qed.
Lemma TI_tend s time n : ready S n -> bounded S k Hb Vb s n -> TI (tendency_fn S Tend s time Replace n).
Proof.
  intros Hr HB. destruct (fold_M s n Hr HB) as [F1 F2].
  assert (V : forall c, 0 <= c < NC -> mr (tendency_fn S Tend s time Replace n) (HCell Tend) [c; k] = (#0 + fold_h cc ss pp S s k n c)%fp) by (intros; now apply (tend_val s time Replace)).
  assert (D0 : dbl (@fofZ A 0)) by apply dbl_ofZ.
  split; [intros c Hc; rewrite V by exact Hc; now apply dbl_add; [|apply F1]|]. intros Hf.
  assert (W : forall c, 0 <= c < NC -> fin (fold_h cc ss pp S s k n c) /\ val (mr (tendency_fn S Tend s time Replace n) (HCell Tend) [c; k]) = val (fold_h cc ss pp S s k n c)).
  { intros c Hc. specialize (Hf c Hc). rewrite V in * by exact Hc. destruct (fin_add cc ss pp _ _ D0 (F1 c Hc) Hf) as (_ & G1 & G2).
    split; [exact G1|]. etransitivity; [exact G2|]. rewrite (proj2 (ofZ_val cc ss pp 0 ltac:(reflexivity))), Rplus_0_l. apply rnd_val. now apply F1. }
  destruct F2 as [G1 G2]; [intros; now apply W|]. split.
  - intros c Hc. rewrite (proj2 (W c Hc)). auto.
  - unfold total. rewrite (rsum_ext _ _ (fun c => val (fold_h cc ss pp S s k n c))); [exact G2|]. intros c Hc. now apply W.
Qed.

(** ** One update *)
Lemma axpy_h dst base (dt b : F A) n c : 0 <= c < NC ->
  mr (axpy S dst base dt b n) (HCell dst) [c; k] = (mr n (HCell base) [c; k] + dt * b * mr n (HCell Tend) [c; k])%fp.
Proof.
  intros Hc. unfold axpy. cbv zeta.
  transitivity (mr (upd D (HCell dst) n (on2 (fun c k x => if sid_eq_dec dst base then x + dt * b * mr n (HCell Tend) [c; k]
                                     else mr n (HCell base) [c; k] + dt * b * mr n (HCell Tend) [c; k])%fp)) (HCell dst) [c; k]).
  - destruct (0 <? ntracers P); rewrite !upd_other by discriminate; reflexivity.
  - rewrite upd_same by (cbn [rext]; apply inb2; split; assumption). cbn [on2]. destruct (sid_eq_dec dst base) as [->|]; reflexivity.
Qed.
Lemma upd_gen (dt b : F A) (beta Mq Eq : R) n : fin_le Db dt -> fin_le beta b -> (bpow radix2 (-10) <= beta)%R -> (bpow radix2 (-700) <= Mq)%R ->
  bounded S k Hb Vb St n -> TJ Mq Eq n -> bounded S k Hb Vb St (axpy S St St dt b n) ->
  (Rabs (tot (axpy S St St dt b n) - tot n) <= IZR NC * (eps64 * Hb + eps64 * (q64 * (Db * beta) * Mq) + q64 * (Db * beta) * Eq))%R.
Proof.
  intros [Fdt Bdt] [Fb Bb] Hbeta ML [B1 _] [T1 T2] [B1' _].
  pose proof (fin_dbl _ Fdt) as Ddt. pose proof (fin_dbl _ Fb) as Dbb. pose proof (bpow_gt_0 radix2 (-10)) as Z1. pose proof (bpow_gt_0 radix2 (-200)) as Z2.
  assert (Dw : dbl (dt * b)%fp) by now apply dbl_mul.
  assert (Y : forall c, 0 <= c < NC -> mr (axpy S St St dt b n) (HCell St) [c; k] = (mr n (HCell St) [c; k] + dt * b * mr n (HCell Tend) [c; k])%fp) by (intros; now apply axpy_h).
  assert (G : forall c, 0 <= c < NC -> fin (mr n (HCell Tend) [c; k]) /\ fin (dt * b)%fp).
  { intros c Hc. destruct (axpy_fin cc ss pp _ _ _ _ (fin_dbl _ (proj1 (B1 c Hc))) (T1 c Hc) Dw (Y c Hc) (proj1 (B1' c Hc))) as (_ & G1 & G2 & _). auto. }
  pose proof NC_pos as HN. destruct T2 as [T2 T3]; [intros; now apply G|]. destruct (G 0 ltac:(lia)) as [_ Fw].
  assert (tD : (bpow radix2 (-210) <= Db * beta)%R).
  { change (-210) with (-200 + -10). rewrite bpow_plus. apply Rmult_le_compat; try apply bpow_ge_0; assumption. }
  assert (t1 : (tiny <= Db * beta)%R) by (eapply Rle_trans; [|exact tD]; now apply bpow_le).
  pose proof (weight cc ss pp dt b Db beta Ddt Dbb Fw Bdt Bb t1) as BW. pose proof q1 as Q1.
  pose proof (axpy_sum cc ss pp NC (fun c => mr n (HCell St) [c; k]) (fun c => mr (axpy S St St dt b n) (HCell St) [c; k]) (fun c => mr n (HCell Tend) [c; k]) (dt * b)%fp Hb Mq (q64 * (Db * beta)) Eq HN) as G2.
  apply G2; auto.
  - intros c Hc. now apply fin_dbl, B1.
  - intros c Hc. now apply B1'.
  - intros c Hc. now apply B1'.
  - pose proof (bpow_gt_0 radix2 (-210)) as Z3. pose proof (bpow_gt_0 radix2 (-700)) as Z4.
    assert (T : (bpow radix2 (-210) * bpow radix2 (-700) <= q64 * (Db * beta) * Mq)%R).
    { apply Rmult_le_compat; try apply bpow_ge_0; [|exact ML]. apply Rle_trans with (1 * (Db * beta))%R; [lra|]. apply Rmult_le_compat_r; lra. }
    eapply Rle_trans; [|exact T]. rewrite <- bpow_plus. now apply bpow_le.
Qed.
Lemma upd_drift (dt b : F A) (beta : R) n : fin_le Db dt -> fin_le beta b -> (bpow radix2 (-10) <= beta)%R ->
  bounded S k Hb Vb St n -> TI n -> bounded S k Hb Vb St (axpy S St St dt b n) ->
  (Rabs (tot (axpy S St St dt b n) - tot n) <= IZR NC * eps64 * (Hb + 7 * (q64 ^ 20 * (beta * Db * U))))%R.
Proof.
  intros H1 H3 H4 H5 H6 H7. pose proof M_low as ML. eapply Rle_trans; [apply (upd_gen dt b beta M E n); auto|].
  - eapply Rle_trans; [|exact ML]. now apply bpow_le.
  - right. replace (q64 ^ 20)%R with (q64 * q64 ^ 19)%R by (cbn [pow]; ring). field. pose proof dpos. lra.
Qed.

(** ** The classical Runge-Kutta method *)
Lemma hs_save n : hsafe D [deep_copy_rr D (HCell Old) (HCell St); deep_copy_rr D (VnEdge Old) (VnEdge St); deep_copy_rr D (TrCell Old) (TrCell St)] n
  (fun m' => meq m' (save_fn S n)).
Proof.
  eapply (hsafe_seq D [_] [_; _]); [apply hs_copy; [discriminate|reflexivity]|].
  unfold save_fn. cbv zeta. match goal with |- hsafe _ _ _ (fun m' => meq m' (upd _ _ ?m1 _)) => apply (hsafe_seq D [_] [_] _ m1) end;
    apply hs_copy; discriminate || reflexivity.
Qed.
Definition rk4_beta (i : Z) : R := if (i =? 0) || (i =? 3) then (1 / 6)%R else (1 / 3)%R.
Lemma rk4_b_le i : fin_le (q64 * rk4_beta i) (rk4_b i : F A).
Proof. unfold rk4_b, rk4_beta. destruct (_ || _); [apply (b_quot cc ss pp 1 6)|apply (b_quot cc ss pp 1 3)]; lia. Qed.
Lemma rk4_b_low i : (bpow radix2 (-10) <= q64 * rk4_beta i)%R.
Proof.
  assert (E1 : bpow radix2 (-10) = (/ 1024)%R) by reflexivity. rewrite E1. pose proof q1.
  unfold rk4_beta. destruct (_ || _); lra.
Qed.
Local Notation good := (fun m : mem A => bounded S k Hb Vb St m /\ bounded S k Hb Vb Provis m).
Lemma rk4_upd i (dt : F A) n : fin_le Db dt -> good n -> TI n -> good (axpy S St St dt (rk4_b i) n) ->
  (Rabs (tot (axpy S St St dt (rk4_b i) n) - tot n) <= IZR NC * eps64 * (Hb + 7 * (q64 ^ 21 * (rk4_beta i * Db * U))))%R.
Proof.
  intros Hdt [B1 _] HT [B2 _]. eapply Rle_trans; [apply (upd_drift dt (rk4_b i) (q64 * rk4_beta i) n Hdt (rk4_b_le i) (rk4_b_low i) B1 HT B2)|].
  right. replace (q64 ^ 21)%R with (q64 * q64 ^ 20)%R by (cbn [pow]; ring). field. pose proof dpos. lra.
Qed.
Lemma TI_other Mq Eq n n' : (forall c, 0 <= c < NC -> mr n' (HCell Tend) [c; k] = mr n (HCell Tend) [c; k]) -> TJ Mq Eq n -> TJ Mq Eq n'.
Proof.
  intros Ee [T1 T2]. split; [intros c Hc; rewrite Ee by exact Hc; auto|]. intros Hf. destruct T2 as [T2 T3]; [intros c Hc; rewrite <- Ee by exact Hc; auto|].
  split; [intros c Hc; rewrite Ee by exact Hc; auto|]. unfold total in *. rewrite (rsum_ext _ _ (fun c => val (mr n (HCell Tend) [c; k]))); [exact T3|].
  intros c Hc. now rewrite Ee.
Qed.
Lemma tot_other n n' : (forall c, 0 <= c < NC -> mr n' (HCell St) [c; k] = mr n (HCell St) [c; k]) -> tot n' = tot n.
Proof. intros Ee. apply rsum_ext. intros c Hc. now rewrite Ee. Qed.
Lemma rk4_st (t dt : F A) i n Ls : i < 3 -> fin_le Db dt -> ready S n -> TI n -> along D (rk4_stage S t dt i ++ Ls) n good ->
  let n' := rk4_stage_fn S t dt i n in
  ready S n' /\ TI n' /\ along D Ls n' good /\ (Rabs (tot n' - tot n) <= IZR NC * eps64 * (Hb + 7 * (q64 ^ 21 * (rk4_beta i * Db * U))))%R.
Proof.
  intros Hi Hdt Hr HT HA. pose proof (ok_wfd S Hok) as Hw. pose proof (ok_ntr S Hok) as Hnt. unfold rk4_stage, rk4_stage_fn in *. cbv zeta in *.
  replace (i <? 4 - 1) with true in * by (symmetry; apply Z.ltb_lt; lia). cbn [whenL] in HA.
  pose proof (along_here _ _ _ _ HA) as G0. rewrite <- !app_assoc in HA.
  apply (along_seq D _ _ n good _ (hs_accumulate S dt (rk4_b i) n)) in HA.
  set (n1 := axpy S St St dt (rk4_b i) n) in *. assert (R1 : ready S n1) by (eapply ready_cst; [apply cst_axpy|exact Hr]).
  pose proof (along_here _ _ _ _ HA) as G1. apply (along_seq D _ _ n1 good _ (hs_provis S dt (rk4_a i) n1)) in HA.
  set (n2 := axpy S Provis Old dt (rk4_a i) n1) in *. assert (R2 : ready S n2) by (eapply ready_cst; [apply cst_axpy|exact R1]).
  pose proof (along_here _ _ _ _ HA) as G2. apply (along_seq D _ _ n2 good _ (rd_tendency S Hok Tend Provis _ Replace n2 R2 ltac:(discriminate))) in HA.
  split; [eapply ready_cst; [apply cst_tendency|exact R2]|]. split; [apply TI_tend; [exact R2|apply G2]|]. split; [exact HA|].
  rewrite (tot_other n2) by (intros; apply tend_other; reflexivity || discriminate).
  rewrite (tot_other n1 n2) by (intros; now apply axpy_other). now apply rk4_upd.
Qed.
Lemma rk4_drift (t dt : F A) n Ls : fin_le Db dt -> ready S n -> along D (rk4_step S t dt ++ Ls) n good ->
  let n' := rk4_fn S t dt n in
  ready S n' /\ along D Ls n' good /\ (Rabs (tot n' - tot n) <= IZR NC * eps64 * (4 * Hb + 7 * (q64 ^ 21 * (Db * U))))%R.
Proof.
  intros Hdt Hr HA. unfold rk4_step in HA. rewrite <- !app_assoc in HA.
  apply (along_seq D _ _ n good _ (hs_save n)) in HA. set (n0 := save_fn S n) in *.
  assert (R0 : ready S n0) by (eapply ready_cst; [apply cst_save|exact Hr]). pose proof (along_here _ _ _ _ HA) as G0.
  apply (along_seq D _ _ n0 good _ (rd_tendency S Hok Tend St t Replace n0 R0 ltac:(discriminate))) in HA.
  assert (T0 : tot (tendency_fn S Tend St t Replace n0) = tot n).
  { rewrite (tot_other n0) by (intros; apply tend_other; reflexivity || discriminate). apply tot_other. intros. now apply save_other. }
  pose proof (TI_tend St t n0 R0 (proj1 G0)) as I0.
  assert (R1 : ready S (tendency_fn S Tend St t Replace n0)) by (eapply ready_cst; [apply cst_tendency|exact R0]).
  unfold rk4_fn. fold n0. rewrite <- T0. clear T0. set (m0 := tendency_fn S Tend St t Replace n0) in *. clearbody m0. clear n n0 Hr R0 G0.
  change (zseq 4) with [0; 1; 2; 3] in *. cbn [flat_map fold_left] in *. rewrite <- !app_assoc in HA.
  destruct (rk4_st t dt 0 m0 _ ltac:(lia) Hdt R1 I0 HA) as (Ra & Ia & HA1 & B0). set (m1 := rk4_stage_fn S t dt 0 m0) in *. clearbody m1. clear HA.
  destruct (rk4_st t dt 1 m1 _ ltac:(lia) Hdt Ra Ia HA1) as (Rb & Ib & HA2 & B1). set (m2 := rk4_stage_fn S t dt 1 m1) in *. clearbody m2. clear HA1.
  destruct (rk4_st t dt 2 m2 _ ltac:(lia) Hdt Rb Ib HA2) as (Rc & Ic & HA3 & B2). set (m3 := rk4_stage_fn S t dt 2 m2) in *. clearbody m3. clear HA2.
  unfold rk4_stage, rk4_stage_fn in *. cbv zeta in *. change (3 <? 4 - 1) with false in *. cbn [whenL app] in HA3. rewrite app_nil_r in HA3.
  pose proof (along_here _ _ _ _ HA3) as G3. apply (along_seq D _ _ m3 good _ (hs_accumulate S dt (rk4_b 3) m3)) in HA3.
  pose proof (rk4_upd 3 dt m3 Hdt G3 Ic (along_here _ _ _ _ HA3)) as B3. set (m4 := axpy S St St dt (rk4_b 3) m3) in *.
  split; [eapply ready_cst; [apply cst_axpy|exact Rc]|]. split; [exact HA3|].
  unfold rk4_beta in *. cbn [Z.eqb orb Pos.eqb] in *. set (w := (Db * U)%R) in *. set (z := (IZR NC * eps64)%R) in *.
  replace (tot m4 - tot m0)%R with ((tot m4 - tot m3) + ((tot m3 - tot m2) + ((tot m2 - tot m1) + (tot m1 - tot m0))))%R by ring.
  eapply Rle_trans; [apply Rabs_triang|]. eapply Rle_trans; [apply Rplus_le_compat_l, Rabs_triang|]. eapply Rle_trans; [apply Rplus_le_compat_l, Rplus_le_compat_l, Rabs_triang|].
  replace (1 / 6 * Db * U)%R with (1 / 6 * w)%R in * by (unfold w; ring). replace (1 / 3 * Db * U)%R with (1 / 3 * w)%R in * by (unfold w; ring).
  set (q := (q64 ^ 21)%R) in *. lra.
Qed.
Lemma rk4_run_drift steps m : (forall x, In x steps -> fin_le Db (snd x)) -> ready S m -> along D (rk4_run S steps) m good ->
  (Rabs (tot (rk4_run_fn S steps m) - tot m) <= INR (length steps) * (IZR NC * eps64 * (4 * Hb + 7 * (q64 ^ 21 * (Db * U)))))%R.
Proof.
  revert m. induction steps as [|x l IH]; intros m Hx Hr HA.
  - cbn [rk4_run_fn fold_left length INR]. rewrite Rminus_diag_eq, Rabs_R0 by reflexivity. lra.
  - change (rk4_run S (x :: l)) with (rk4_step S (fst x) (snd x) ++ rk4_run S l) in HA.
    destruct (rk4_drift (fst x) (snd x) m _ (Hx x (or_introl eq_refl)) Hr HA) as (R1 & HA1 & B1).
    change (rk4_run_fn S (x :: l) m) with (rk4_run_fn S l (rk4_fn S (fst x) (snd x) m)). set (m1 := rk4_fn S (fst x) (snd x) m) in *.
    pose proof (IH m1 (fun y Hy => Hx y (or_intror Hy)) R1 HA1) as B2. change (length (x :: l)) with (Datatypes.S (length l)). rewrite S_INR.
    set (m2 := rk4_run_fn S l m1) in *. replace (tot m2 - tot m)%R with ((tot m2 - tot m1) + (tot m1 - tot m))%R by ring.
    eapply Rle_trans; [apply Rabs_triang|]. lra.
Qed.

(** ** The low storage method *)
Lemma scale_h (a : F A) n c : 0 <= c < NC -> mr (scale_fn S a n) (HCell Tend) [c; k] = (mr n (HCell Tend) [c; k] * a)%fp.
Proof.
  intros Hc. unfold scale_fn. cbv zeta.
  transitivity (mr (upd D (HCell Tend) n (on2 (fun c k x => x * a)%fp)) (HCell Tend) [c; k]).
  - destruct (0 <? ntracers P); rewrite !upd_other by discriminate; reflexivity.
  - rewrite upd_same by (cbn [rext]; apply inb2; split; assumption). reflexivity.
Qed.
Lemma scale_other (a : F A) n b ix : is_st Tend b = false -> mr (scale_fn S a n) b ix = mr n b ix.
Proof.
  intros H. unfold scale_fn. cbv zeta. destruct (0 <? ntracers P); rewrite !upd_other; try reflexivity; intros ->; discriminate H.
Qed.
(** The work array after [tend *= a]: by zero, and by another number. *)
Lemma scale0 n : (forall c, 0 <= c < NC -> dbl (mr n (HCell Tend) [c; k])) -> TJ 0 0 (scale_fn S (#0)%fp n).
Proof.
  intros Dn. assert (D0 : dbl (@fofZ A 0)) by apply dbl_ofZ. destruct (ofZ_val cc ss pp 0 ltac:(reflexivity)) as [_ E0].
  split; [intros c Hc; rewrite scale_h by exact Hc; now apply dbl_mul; [apply Dn|]|]. intros Hf.
  assert (V : forall c, 0 <= c < NC -> val (mr (scale_fn S (#0)%fp n) (HCell Tend) [c; k]) = 0%R).
  { intros c Hc. specialize (Hf c Hc). rewrite scale_h in * by exact Hc. destruct (fin_mul cc ss pp _ _ (Dn c Hc) D0 Hf) as (_ & _ & Ee).
    etransitivity; [exact Ee|]. rewrite E0, Rmult_0_r. apply rnd_0. }
  split; [intros c Hc; rewrite V, Rabs_R0 by exact Hc; lra|]. unfold total. rewrite rsum_zero by exact V. rewrite Rabs_R0. lra.
Qed.
Lemma scale_TJ (a : F A) (alpha Mq Eq : R) n : fin_le alpha a -> (bpow radix2 (-10) <= alpha)%R -> (bpow radix2 (-700) <= Mq)%R -> TJ Mq Eq n ->
  TJ (q64 * (alpha * Mq)) (alpha * Eq + eps64 * (alpha * Mq)) (scale_fn S a n).
Proof.
  intros [Fa Ba] La Lm [T1 T2]. pose proof (fin_dbl _ Fa) as Da. pose proof NC_pos as HN.
  assert (t1 : (tiny <= alpha * Mq)%R).
  { apply Rle_trans with (bpow radix2 (-10 + -700)); [now apply bpow_le|]. rewrite bpow_plus. apply Rmult_le_compat; try apply bpow_ge_0; assumption. }
  split; [intros c Hc; rewrite scale_h by exact Hc; now apply dbl_mul; [apply T1|]|]. intros Hf.
  assert (V : forall c, 0 <= c < NC -> fin (mr n (HCell Tend) [c; k]) /\ val (mr (scale_fn S a n) (HCell Tend) [c; k]) = rnd (val (mr n (HCell Tend) [c; k]) * val a)).
  { intros c Hc. specialize (Hf c Hc). rewrite scale_h in * by exact Hc. destruct (fin_mul cc ss pp _ _ (T1 c Hc) Da Hf) as (G1 & _ & Ee). auto. }
  destruct T2 as [T2 T3]; [intros; now apply V|].
  assert (B : forall c, 0 <= c < NC -> (Rabs (val (mr n (HCell Tend) [c; k]) * val a) <= alpha * Mq)%R).
  { intros c Hc. rewrite Rabs_mult, Rmult_comm. apply Rmult_le_compat; auto using Rabs_pos. }
  split.
  - intros c Hc. rewrite (proj2 (V c Hc)). apply rnd_le; auto.
  - unfold total in *. rewrite (rsum_ext _ _ (fun c => val (mr n (HCell Tend) [c; k]) * val a + (rnd (val (mr n (HCell Tend) [c; k]) * val a) - val (mr n (HCell Tend) [c; k]) * val a))%R)
      by (intros c Hc; rewrite (proj2 (V c Hc)); ring).
    rewrite rsum_plus, rsum_scal_r. eapply Rle_trans; [apply Rabs_triang|]. rewrite Rmult_plus_distr_l. apply Rplus_le_compat.
    + rewrite Rabs_mult, Rmult_comm. replace (IZR NC * (alpha * Eq))%R with (alpha * (IZR NC * Eq))%R by ring. apply Rmult_le_compat; auto using Rabs_pos.
    + eapply Rle_trans; [apply Rabs_rsum|]. rewrite <- rsum_const by (cbn; lia). apply rsum_le. intros c Hc. apply rnd_err; auto.
Qed.
(** The work array after the tendency has been added. *)
Lemma incr_TJ s time (Mq Eq : R) n : s <> Tend -> ready S n -> bounded S k Hb Vb s n -> TJ Mq Eq n ->
  TJ (q64 * (Mq + M)) (Eq + E + eps64 * (Mq + M)) (tendency_fn S Tend s time Increment n).
Proof.
  intros Hs Hr HB [T1 T2]. destruct (fold_M s n Hr HB) as [F1 F2]. pose proof NC_pos as HN.
  assert (V : forall c, 0 <= c < NC -> mr (tendency_fn S Tend s time Increment n) (HCell Tend) [c; k] = (mr n (HCell Tend) [c; k] + fold_h cc ss pp S s k n c)%fp) by (intros; now apply (tend_val s time Increment)).
  revert F1 F2 V. generalize (fold_h cc ss pp S s k n). intros fh F1 F2 V.
  split; [intros c Hc; rewrite V by exact Hc; now apply dbl_add; [apply T1|apply F1]|]. intros Hf.
  assert (W : forall c, 0 <= c < NC -> fin (mr n (HCell Tend) [c; k]) /\ fin (fh c) /\
    val (mr (tendency_fn S Tend s time Increment n) (HCell Tend) [c; k]) = rnd (val (mr n (HCell Tend) [c; k]) + val (fh c))).
  { intros c Hc. specialize (Hf c Hc). rewrite V in * by exact Hc. apply (fin_add cc ss pp _ _ (T1 c Hc) (F1 c Hc) Hf). }
  destruct T2 as [T2 T3]; [intros; now apply W|]. destruct F2 as [F2 F3]; [intros; now apply W|].
  assert (B : forall c, 0 <= c < NC -> (Rabs (val (mr n (HCell Tend) [c; k]) + val (fh c)) <= Mq + M)%R).
  { intros c Hc. eapply Rle_trans; [apply Rabs_triang|]. apply Rplus_le_compat; auto. }
  pose proof eps_pos as He.
  assert (Er : forall c, 0 <= c < NC -> (Rabs (rnd (val (mr n (HCell Tend) [c; k]) + val (fh c)) - (val (mr n (HCell Tend) [c; k]) + val (fh c))) <= eps64 * (Mq + M))%R).
  { intros c Hc. eapply Rle_trans; [apply add_err; auto|]. apply Rmult_le_compat_l; [lra|auto]. }
  split.
  - intros c Hc. rewrite (proj2 (proj2 (W c Hc))). specialize (B c Hc). specialize (Er c Hc).
    set (x := (val (mr n (HCell Tend) [c; k]) + val (fh c))%R) in *.
    replace (rnd x) with ((rnd x - x) + x)%R by ring. eapply Rle_trans; [apply Rabs_triang|].
    replace (q64 * (Mq + M))%R with (eps64 * (Mq + M) + (Mq + M))%R by (unfold q64; ring). lra.
  - unfold total in *.
    rewrite (rsum_ext _ _ (fun c => (val (mr n (HCell Tend) [c; k]) + val (fh c)) + (rnd (val (mr n (HCell Tend) [c; k]) + val (fh c)) - (val (mr n (HCell Tend) [c; k]) + val (fh c))))%R)
      by (intros c Hc; rewrite (proj2 (proj2 (W c Hc))); ring).
    rewrite !rsum_plus. eapply Rle_trans; [apply Rabs_triang|]. rewrite !Rmult_plus_distr_l. rewrite <- Rmult_plus_distr_l, <- Rmult_plus_distr_l.
    match goal with |- (?a + ?b <= _)%R => assert (I1 : (a <= IZR NC * (Eq + E))%R); [|assert (I2 : (b <= IZR NC * (eps64 * (Mq + M)))%R)] end.
    + eapply Rle_trans; [apply Rabs_triang|]. rewrite Rmult_plus_distr_l. apply Rplus_le_compat; assumption.
    + eapply Rle_trans; [apply Rabs_rsum|]. rewrite <- rsum_const by (cbn; lia). apply rsum_le. exact Er.
    + eapply Rle_trans; [apply Rplus_le_compat; [exact I1|exact I2]|]. right. ring.
Qed.
Lemma TJ_weak M1 E1 M2 E2 n : (M1 <= M2)%R -> (E1 <= E2)%R -> TJ M1 E1 n -> TJ M2 E2 n.
Proof.
  intros HM HE [T1 T2]. split; [exact T1|]. intros Hf. destruct (T2 Hf) as [G1 G2]. pose proof NC_pos as HN.
  split; [intros c Hc; eapply Rle_trans; [now apply G1|exact HM]|]. eapply Rle_trans; [exact G2|]. apply Rmult_le_compat_l; [apply IZR_le; lia|exact HE].
Qed.

(** One stage, with explicit constants. *)
Lemma M_low7 mu : (1 <= mu)%R -> (bpow radix2 (-700) <= mu * M)%R.
Proof.
  intros Hmu. pose proof M_low as ML. pose proof M_pos as MP. apply Rle_trans with M; [eapply Rle_trans; [|exact ML]; now apply bpow_le|].
  apply Rle_trans with (1 * M)%R; [lra|]. apply Rmult_le_compat_r; lra.
Qed.
Local Notation LI mu sg := (TJ (mu * M) (sg * (eps64 * M))).
Lemma lsrk_incr0 time n : ready S n -> bounded S k Hb Vb St n -> (forall c, 0 <= c < NC -> dbl (mr n (HCell Tend) [c; k])) ->
  bounded S k Hb Vb St (scale_fn S (#0)%fp n) ->
  LI (1001 / 1000) 7 (tendency_fn S Tend St time Increment (scale_fn S (#0)%fp n)).
Proof.
  intros Hr HB Dn HB'. assert (R1 : ready S (scale_fn S (#0)%fp n)) by (eapply ready_cst; [apply cst_scale|exact Hr]).
  pose proof M_pos as MP. pose proof eps_pos as EP. pose proof q_ub as QU.
  eapply TJ_weak; [| |apply (incr_TJ St time 0 0); [discriminate|exact R1|exact HB'|now apply scale0]].
  - rewrite Rplus_0_l. apply Rmult_le_compat_r; lra.
  - rewrite !Rplus_0_l. lra.
Qed.
Lemma lsrk_incr (a : F A) (alpha mu sg mu' sg' : R) time n : fin_le alpha a -> (1 / 1000 <= alpha)%R -> (1 <= mu)%R ->
  (q64 * q64 * (alpha * mu) + q64 <= mu')%R -> (alpha * sg + alpha * mu + 7 + q64 * (alpha * mu) <= sg')%R ->
  ready S n -> LI mu sg n -> bounded S k Hb Vb St (scale_fn S a n) ->
  LI mu' sg' (tendency_fn S Tend St time Increment (scale_fn S a n)).
Proof.
  intros Ha La Lm L1 L2 Hr HT HB'. assert (R1 : ready S (scale_fn S a n)) by (eapply ready_cst; [apply cst_scale|exact Hr]).
  pose proof M_pos as MP. pose proof eps_pos as EP. pose proof (M_low7 mu Lm) as ML.
  assert (La' : (bpow radix2 (-10) <= alpha)%R) by (replace (bpow radix2 (-10)) with (/ 1024)%R by reflexivity; lra).
  pose proof (scale_TJ a alpha _ _ n Ha La' ML HT) as T1.
  eapply TJ_weak; [| |apply (incr_TJ St time _ _ _ ltac:(discriminate) R1 HB' T1)].
  - replace (q64 * (q64 * (alpha * (mu * M)) + M))%R with ((q64 * q64 * (alpha * mu) + q64) * M)%R by ring. apply Rmult_le_compat_r; lra.
  - set (e := (eps64 * M)%R). assert (0 < e)%R by (apply Rmult_lt_0_compat; lra).
    replace (alpha * (sg * e) + eps64 * (alpha * (mu * M)) + 6 * eps64 * M + eps64 * (q64 * (alpha * (mu * M)) + M))%R
      with ((alpha * sg + alpha * mu + 7 + q64 * (alpha * mu)) * e)%R by (unfold e; ring). apply Rmult_le_compat_r; lra.
Qed.
Lemma lsrk_upd (dt b : F A) (beta mu sg : R) n : fin_le Db dt -> fin_le beta b -> (1 / 1000 <= beta)%R -> (1 <= mu)%R ->
  bounded S k Hb Vb St n -> LI mu sg n -> bounded S k Hb Vb St (axpy S St St dt b n) ->
  (Rabs (tot (axpy S St St dt b n) - tot n) <= IZR NC * eps64 * (Hb + beta * (mu + sg) * (q64 ^ 20 * (Db * U))))%R.
Proof.
  intros Hdt Hbb Lb Lm HB HT HB'. assert (Lb' : (bpow radix2 (-10) <= beta)%R) by (replace (bpow radix2 (-10)) with (/ 1024)%R by reflexivity; lra).
  eapply Rle_trans; [apply (upd_gen dt b beta _ _ n Hdt Hbb Lb' (M_low7 mu Lm) HB HT HB')|].
  right. replace (q64 ^ 20)%R with (q64 * q64 ^ 19)%R by (cbn [pow]; ring). field. pose proof dpos. lra.
Qed.
Local Notation St_ok := (fun m : mem A => bounded S k Hb Vb St m).
Definition dblT n : Prop := forall c, 0 <= c < NC -> dbl (mr n (HCell Tend) [c; k]).
Lemma lsrk_st (t dt : F A) i n Ls (beta mu sg : R) : fin_le Db dt -> fin_le beta (lsrk_b 5 i : F A) -> (1 / 1000 <= beta)%R -> (1 <= mu)%R ->
  ready S n -> along D (lsrk_stage S 5 t dt i ++ Ls) n St_ok ->
  (bounded S k Hb Vb St n -> bounded S k Hb Vb St (scale_fn S (lsrk_a 5 i) n) ->
   LI mu sg (tendency_fn S Tend St (t + lsrk_c 5 i * dt)%fp Increment (scale_fn S (lsrk_a 5 i) n))) ->
  let n' := lsrk_stage_fn S 5 t dt i n in
  ready S n' /\ LI mu sg n' /\ along D Ls n' St_ok /\ (Rabs (tot n' - tot n) <= IZR NC * eps64 * (Hb + beta * (mu + sg) * (q64 ^ 20 * (Db * U))))%R.
Proof.
  intros Hdt Hbb Lb Lm Hr HA HL. unfold lsrk_stage, lsrk_stage_fn in *. rewrite <- !app_assoc in HA. pose proof (along_here _ _ _ _ HA) as G0.
  pose proof (ok_wfd S Hok) as Hw. pose proof (ok_ntr S Hok) as Hnt.
  apply (along_seq D _ _ n St_ok _ (hs_scale S (lsrk_a 5 i) n)) in HA. pose proof (along_here _ _ _ _ HA) as G1.
  specialize (HL G0 G1). set (n1 := scale_fn S (lsrk_a 5 i) n) in *. assert (R1 : ready S n1) by (eapply ready_cst; [apply cst_scale|exact Hr]).
  apply (along_seq D _ _ n1 St_ok _ (rd_tendency S Hok Tend St _ Increment n1 R1 ltac:(discriminate))) in HA. pose proof (along_here _ _ _ _ HA) as G2.
  set (n2 := tendency_fn S Tend St (t + lsrk_c 5 i * dt)%fp Increment n1) in *. assert (R2 : ready S n2) by (eapply ready_cst; [apply cst_tendency|exact R1]).
  apply (along_seq D _ _ n2 St_ok _ (hs_accumulate S dt (lsrk_b 5 i) n2)) in HA. pose proof (along_here _ _ _ _ HA) as G3.
  split; [eapply ready_cst; [apply cst_axpy|exact R2]|]. split.
  { apply (TI_other _ _ n2); [|exact HL]. intros. now apply axpy_other. }
  split; [exact HA|].
  assert (Et : tot n2 = tot n).
  { rewrite (tot_other n1) by (intros; apply tend_other; reflexivity || discriminate). apply tot_other. intros. now apply scale_other. }
  rewrite <- Et. now apply lsrk_upd.
Qed.
Ltac ql := apply quot_le; [lia|lia|lia|cbn [Z.abs]; pose proof q_ub; lra].
Lemma lsrk_drift (t dt : F A) n Ls : fin_le Db dt -> ready S n -> dblT n -> along D (lsrk_step S 5 t dt ++ Ls) n St_ok ->
  let n' := lsrk_fn S 5 t dt n in
  ready S n' /\ dblT n' /\ along D Ls n' St_ok /\ (Rabs (tot n' - tot n) <= IZR NC * eps64 * (5 * Hb + 88.2 * (q64 ^ 20 * (Db * U))))%R.
Proof.
  intros Hdt Hr Dn HA. pose proof q_ub as Q1. pose proof q2_ub as Q2. pose proof q0 as Q0.
  unfold lsrk_step, lsrk_fn in *. change (zseq 5) with [0; 1; 2; 3; 4] in *. cbn [flat_map fold_left] in *. rewrite <- !app_assoc in HA.
  destruct (lsrk_st t dt 0 n _ 0.15 1.001 7 Hdt ltac:(ql) ltac:(lra) ltac:(lra) Hr HA) as (R0 & L0 & HA0 & B0).
  { intros G0 G1. replace 1.001%R with (1001 / 1000)%R by lra. now apply lsrk_incr0. }
  set (n0 := lsrk_stage_fn S 5 t dt 0 n) in *. clearbody n0. clear HA.
  destruct (lsrk_st t dt 1 n0 _ 0.38 1.42 10.78 Hdt ltac:(ql) ltac:(lra) ltac:(lra) R0 HA0) as (R1 & L1 & HA1 & B1).
  { intros G0 G1. apply (lsrk_incr (lsrk_a 5 1) 0.418 1.001 7); auto; [ql|lra|lra|lra|lra]. }
  set (n1 := lsrk_stage_fn S 5 t dt 1 n0) in *. clearbody n1. clear HA0.
  destruct (lsrk_st t dt 2 n1 _ 0.823 2.7 23.26 Hdt ltac:(ql) ltac:(lra) ltac:(lra) R1 HA1) as (R2 & L2 & HA2 & B2).
  { intros G0 G1. apply (lsrk_incr (lsrk_a 5 2) 1.193 1.42 10.78); auto; [ql|lra|lra|lra|lra]. }
  set (n2 := lsrk_stage_fn S 5 t dt 2 n1) in *. clearbody n2. clear HA1.
  destruct (lsrk_st t dt 3 n2 _ 0.6995 5.59 55.7 Hdt ltac:(ql) ltac:(lra) ltac:(lra) R2 HA2) as (R3 & L3 & HA3 & B3).
  { intros G0 G1. apply (lsrk_incr (lsrk_a 5 3) 1.698 2.7 23.26); auto; [ql|lra|lra|lra|lra]. }
  set (n3 := lsrk_stage_fn S 5 t dt 3 n2) in *. clearbody n3. clear HA2.
  destruct (lsrk_st t dt 4 n3 _ 0.1531 9.48 108.4 Hdt ltac:(ql) ltac:(lra) ltac:(lra) R3 HA3) as (R4 & L4 & HA4 & B4).
  { intros G0 G1. apply (lsrk_incr (lsrk_a 5 4) 1.515 5.59 55.7); auto; [ql|lra|lra|lra|lra]. }
  set (n4 := lsrk_stage_fn S 5 t dt 4 n3) in *. clearbody n4. clear HA3.
  split; [exact R4|]. split; [exact (proj1 L4)|]. split; [exact HA4|].
  set (w := (q64 ^ 20 * (Db * U))%R) in *. assert (W0 : (0 <= w)%R).
  { unfold w. pose proof M_pos as MP. pose proof (qk0 19) as Q19. pose proof (qk0 20) as Q20. pose proof (bpow_gt_0 radix2 (-200)) as Z2.
    assert (U0 : (0 <= U)%R) by (destruct (Rle_or_lt 0 U) as [l|l]; [exact l|]; assert (q64 ^ 19 * U < q64 ^ 19 * 0)%R by (now apply Rmult_lt_compat_l); lra).
    apply Rmult_le_pos; [lra|]. apply Rmult_le_pos; [lra|exact U0]. }
  set (z := (IZR NC * eps64)%R) in *.
  assert (Z0 : (0 <= z)%R) by (apply Rmult_le_pos; [apply IZR_le; pose proof NC_pos; lia|pose proof eps_pos; lra]).
  assert (Zw : (0 <= z * w)%R) by now apply Rmult_le_pos.
  replace (tot n4 - tot n)%R with ((tot n4 - tot n3) + ((tot n3 - tot n2) + ((tot n2 - tot n1) + ((tot n1 - tot n0) + (tot n0 - tot n)))))%R by ring.
  eapply Rle_trans; [apply Rabs_triang|]. eapply Rle_trans; [apply Rplus_le_compat_l, Rabs_triang|]. eapply Rle_trans; [apply Rplus_le_compat_l, Rplus_le_compat_l, Rabs_triang|].
  eapply Rle_trans; [apply Rplus_le_compat_l, Rplus_le_compat_l, Rplus_le_compat_l, Rabs_triang|].
  lra.
Qed.
Lemma lsrk_run_drift steps m : (forall x, In x steps -> fin_le Db (snd x)) -> ready S m -> dblT m -> along D (lsrk_run S 5 steps) m St_ok ->
  (Rabs (tot (lsrk_run_fn S 5 steps m) - tot m) <= INR (length steps) * (IZR NC * eps64 * (5 * Hb + 88.2 * (q64 ^ 20 * (Db * U)))))%R.
Proof.
  revert m. induction steps as [|x l IH]; intros m Hx Hr Dn HA.
  - cbn [lsrk_run_fn fold_left length INR]. rewrite Rminus_diag_eq, Rabs_R0 by reflexivity. lra.
  - change (lsrk_run S 5 (x :: l)) with (lsrk_step S 5 (fst x) (snd x) ++ lsrk_run S 5 l) in HA.
    destruct (lsrk_drift (fst x) (snd x) m _ (Hx x (or_introl eq_refl)) Hr Dn HA) as (R1 & D1 & HA1 & B1).
    change (lsrk_run_fn S 5 (x :: l) m) with (lsrk_run_fn S 5 l (lsrk_fn S 5 (fst x) (snd x) m)). set (m1 := lsrk_fn S 5 (fst x) (snd x) m) in *.
    pose proof (IH m1 (fun y Hy => Hx y (or_intror Hy)) R1 D1 HA1) as B2. change (length (x :: l)) with (Datatypes.S (length l)). rewrite S_INR.
    set (m2 := lsrk_run_fn S 5 l m1) in *. replace (tot m2 - tot m)%R with ((tot m2 - tot m1) + (tot m1 - tot m))%R by ring.
    eapply Rle_trans; [apply Rabs_triang|]. lra.
Qed.
End Run.
