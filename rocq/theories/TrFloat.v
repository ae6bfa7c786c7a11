(** Tracer content in binary64: the amounts that a term exchanges through the two sides of an edge are
    exactly opposite numbers, so that only the rounding of the sums and of the updates changes the total. *)
From Coq Require Import ZArith Reals List Bool Lia Lra.
From Coq Require Import Floats.SpecFloat.
From Flocq Require Import Core.Core.
From Verif Require Import Arith Arrays Prog Conc Launch Mesh AuxVars Tend Model Hex MeshProof MeshMem Over Formulas KernBase Terms KernAux KernTend TendFn StepFn Ready Rel RelRun Relate TendVal StepVal StepRun RSum FloatFacts FloatMass FloatRun.
Import ListNotations.
Open Scope Z_scope.

(** ** Signs *)
Lemma round_aux_opp s m e l : binary_round_aux 53 1024 (negb s) m e l = SFopp (binary_round_aux 53 1024 s m e l).
Proof.
  unfold binary_round_aux. destruct (shr_fexp 53 1024 m e l) as [a b]. destruct (shr_fexp 53 1024 (round_nearest_even (shr_m a) (loc_of_shr_record a)) b loc_Exact) as [a' b'].
  destruct (shr_m a'); [reflexivity| |reflexivity]. destruct (b' <=? 1024 - 53); reflexivity.
Qed.
Lemma mul_opp_l x y : SFmul 53 1024 (SFopp x) y = SFopp (SFmul 53 1024 x y).
Proof.
  destruct x as [s|s| |s m e], y as [t|t| |t n f]; cbn [SFopp SFmul]; try reflexivity; try (f_equal; now destruct s, t).
  rewrite <- round_aux_opp. f_equal. now destruct s, t.
Qed.
Lemma mul_opp_r x y : SFmul 53 1024 x (SFopp y) = SFopp (SFmul 53 1024 x y).
Proof.
  destruct x as [s|s| |s m e], y as [t|t| |t n f]; cbn [SFopp SFmul]; try reflexivity; try (f_equal; now destruct s, t).
  rewrite <- round_aux_opp. f_equal. now destruct s, t.
Qed.
Lemma sub_opp x y : SFsub 53 1024 x (SFopp y) = SFadd 53 1024 x y.
Proof.
  destruct x as [s|s| |s m e], y as [t|t| |t n f]; cbn [SFopp SFsub SFadd]; try reflexivity; try (now destruct s, t).
Qed.
Lemma opp_opp x : SFopp (SFopp x) = x.
Proof. destruct x as [s|s| |s m e]; cbn; rewrite ?negb_involutive; reflexivity. Qed.
Lemma fin_opp x : fin (SFopp x) <-> fin x.
Proof. split; intros [H1 H2]; split; destruct x; auto. Qed.

Section Le.
Context (cc ss : spec_float -> spec_float) (pp : spec_float).
Local Notation A := (SFA cc ss pp).
Lemma m1_opp : @fofZ A (-1) = SFopp (@fofZ A 1). Proof. reflexivity. Qed.

(** [x] is at most [r] in absolute value, up to [k] roundings, if it is finite; [r] is at least [2^a]. *)
Definition lek (x : F A) (k : nat) (a : Z) (r : R) : Prop := dbl x /\ (bpow radix2 a <= r)%R /\ (fin x -> (Rabs (val x) <= q64 ^ k * r)%R).
Lemma lek_low x k a r : lek x k a r -> (0 < r)%R.
Proof. intros (_ & H & _). pose proof (bpow_gt_0 radix2 a). lra. Qed.
Lemma lek_eq x k a r r' : lek x k a r -> r = r' -> lek x k a r'. Proof. now intros H <-. Qed.
Lemma lek_up x k a r k' a' : (k <= k')%nat -> a' <= a -> lek x k a r -> lek x k' a' r.
Proof.
  intros Hk Ha HL. pose proof (lek_low _ _ _ _ HL) as P. destruct HL as (D & L & B). split; [exact D|]. split; [apply Rle_trans with (bpow radix2 a); [now apply bpow_le|exact L]|].
  intros Hf. eapply Rle_trans; [now apply B|]. apply Rmult_le_compat_r; [lra|now apply qk_mono].
Qed.
Lemma lek_mul x y i j a b r s : lek x i a r -> lek y j b s -> -1000 <= a + b -> lek (x * y)%fp (1 + (i + j)) (a + b) (r * s).
Proof.
  intros HX HY Hab. pose proof (lek_low _ _ _ _ HX) as P1. pose proof (lek_low _ _ _ _ HY) as P2. destruct HX as (D1 & L1 & B1), HY as (D2 & L2 & B2).
  split; [now apply dbl_mul|]. assert (L : (bpow radix2 (a + b) <= r * s)%R) by (rewrite bpow_plus; apply Rmult_le_compat; try apply bpow_ge_0; assumption).
  split; [exact L|]. intros Hf. destruct (fin_mul cc ss pp _ _ D1 D2 Hf) as (F1 & F2 & E). specialize (B1 F1). specialize (B2 F2). rewrite E.
  pose proof (qk1 (i + j)) as Q. pose proof (Rmult_lt_0_compat _ _ P1 P2) as P3.
  replace (q64 ^ (1 + (i + j)) * (r * s))%R with ((1 + eps64) * (q64 ^ (i + j) * (r * s)))%R by (rewrite (pow_add q64 1), pow_1; change (1 + eps64)%R with q64; ring). apply rnd_le.
  - rewrite Rabs_mult, pow_add. replace (q64 ^ i * q64 ^ j * (r * s))%R with (q64 ^ i * r * (q64 ^ j * s))%R by ring. apply Rmult_le_compat; auto using Rabs_pos.
  - apply Rle_trans with (1 * bpow radix2 (a + b))%R; [rewrite Rmult_1_l; apply bpow_le; lia|]. apply Rmult_le_compat; [lra|apply bpow_ge_0|exact Q|exact L].
Qed.
Lemma lek_sub x y i a r s : lek x i a r -> lek y i a s -> lek (x - y)%fp (1 + i) a (r + s).
Proof.
  intros HX HY. pose proof (lek_low _ _ _ _ HX) as P1. pose proof (lek_low _ _ _ _ HY) as P2. destruct HX as (D1 & L1 & B1), HY as (D2 & L2 & B2).
  split; [now apply dbl_sub|]. split; [lra|]. intros Hf. destruct (fin_sub cc ss pp _ _ D1 D2 Hf) as (F1 & F2 & E). specialize (B1 F1). specialize (B2 F2). rewrite E.
  pose proof (sub_err x y D1 D2) as Er. pose proof eps_pos as Ep.
  assert (B : (Rabs (val x - val y) <= q64 ^ i * (r + s))%R).
  { eapply Rle_trans; [apply Rabs_triang|]. rewrite Rabs_Ropp, Rmult_plus_distr_l. lra. }
  set (z := (val x - val y)%R) in *. replace (rnd z) with ((rnd z - z) + z)%R by ring. eapply Rle_trans; [apply Rabs_triang|].
  assert (eps64 * Rabs z <= eps64 * (q64 ^ i * (r + s)))%R by (apply Rmult_le_compat_l; lra).
  cbn [Nat.add pow]. unfold q64 at 1. lra.
Qed.
Lemma lek_opp x i a r : lek x i a r -> lek (SFopp x) i a r.
Proof. intros (D & L & B). split; [now apply dbl_opp|]. split; [exact L|]. intros Hf. rewrite val_opp, Rabs_Ropp. apply B. now apply fin_opp. Qed.
Lemma lek_add x y i a r s : lek x i a r -> lek y i a s -> lek (x + y)%fp (1 + i) a (r + s).
Proof. intros HX HY. change (x + y)%fp with (SFadd 53 1024 x y). rewrite <- sub_opp. apply (lek_sub x (SFopp y)); [exact HX|now apply lek_opp]. Qed.
Lemma lek_ap x r k a : approx x r k -> (bpow radix2 a <= r)%R -> lek x k a r.
Proof.
  intros [F1 [B1 B2]] L. split; [now apply fin_dbl|]. split; [exact L|]. intros _. pose proof (bpow_gt_0 radix2 a) as P. pose proof (qk0 k) as Q.
  rewrite Rabs_pos_eq; [lra|]. eapply Rle_trans; [|exact B1]. apply Rlt_le, Rmult_lt_0_compat; [lra|now apply Rinv_0_lt_compat].
Qed.
Lemma lek_fin x b a : fin_le b x -> (bpow radix2 a <= b)%R -> lek x 0 a b.
Proof. intros [F1 B] L. split; [now apply fin_dbl|]. split; [exact L|]. intros _. cbn [pow]. lra. Qed.
Lemma lek_1 : lek (#1)%fp 0 0 1.
Proof. apply lek_ap; [now apply (ap_ofZ cc ss pp 1)|cbn; lra]. Qed.
Lemma lek_sg z : z = 1 \/ z = -1 -> lek (fofZ z) 0 0 1.
Proof. intros [-> | ->]; [apply lek_1|]. rewrite m1_opp. apply lek_opp, lek_1. Qed.
Lemma half_v : fin (@fhalf A) /\ val (@fhalf A) = (1 / 2)%R.
Proof.
  destruct (ofZ_val cc ss pp 1 ltac:(reflexivity)) as [F1 E1]. destruct (ofZ_val cc ss pp 2 ltac:(reflexivity)) as [F2 E2].
  assert (E : rnd (1 / 2) = (1 / 2)%R) by (replace (1 / 2)%R with (bpow radix2 (-1)) by (cbn; lra); now apply rnd_bpow).
  destruct (div_ok cc ss pp _ _ F1 F2) as [G1 G2]; rewrite ?E1, ?E2; [lra| |].
  - unfold small. rewrite E, Rabs_pos_eq by lra. apply Rlt_trans with (bpow radix2 0); [cbn; lra|now apply bpow_lt].
  - split; [exact G1|]. unfold fhalf. rewrite G2, E1, E2. exact E.
Qed.
Lemma lek_half : lek (@fhalf A) 0 (-1) (1 / 2).
Proof. destruct half_v as [F1 E1]. apply lek_fin; [split; [exact F1|rewrite E1, Rabs_pos_eq; lra]|cbn; lra]. Qed.

(** ** Sums over the cells *)
Definition J (N : Z) (Mq Eq : R) (x : Z -> F A) : Prop := (forall c, 0 <= c < N -> dbl (x c)) /\
  ((forall c, 0 <= c < N -> fin (x c)) -> (forall c, 0 <= c < N -> (Rabs (val (x c)) <= Mq)%R) /\ (Rabs (rsum N (fun c => val (x c))) <= IZR N * Eq)%R).
Lemma J_weak N M1 E1 M2 E2 x : 0 <= N -> (M1 <= M2)%R -> (E1 <= E2)%R -> J N M1 E1 x -> J N M2 E2 x.
Proof.
  intros HN HM HE [T1 T2]. split; [exact T1|]. intros Hf. destruct (T2 Hf) as [G1 G2].
  split; [intros c Hc; eapply Rle_trans; [now apply G1|exact HM]|]. eapply Rle_trans; [exact G2|]. apply Rmult_le_compat_l; [apply IZR_le; lia|exact HE].
Qed.
Lemma J_ext N Mq Eq x y : (forall c, 0 <= c < N -> y c = x c) -> J N Mq Eq x -> J N Mq Eq y.
Proof.
  intros E [T1 T2]. split; [intros c Hc; rewrite E by exact Hc; auto|]. intros Hf. destruct T2 as [G1 G2]; [intros c Hc; rewrite <- E by exact Hc; auto|].
  split; [intros c Hc; rewrite E by exact Hc; auto|]. rewrite (rsum_ext _ _ (fun c => val (x c))); [exact G2|]. intros c Hc. now rewrite E.
Qed.
Lemma J_add N M1 E1 M2 E2 x y : 0 <= N -> J N M1 E1 x -> J N M2 E2 y -> J N (q64 * (M1 + M2)) (E1 + E2 + eps64 * (M1 + M2)) (fun c => x c + y c)%fp.
Proof.
  intros HN [T1 T2] [F1 F2]. split; [intros c Hc; apply dbl_add; auto|]. intros Hf.
  assert (W : forall c, 0 <= c < N -> fin (x c) /\ fin (y c) /\ val (x c + y c)%fp = rnd (val (x c) + val (y c))) by (intros c Hc; apply fin_add; auto).
  destruct T2 as [T2 T3]; [intros; now apply W|]. destruct F2 as [F2 F3]; [intros; now apply W|].
  assert (B : forall c, 0 <= c < N -> (Rabs (val (x c) + val (y c)) <= M1 + M2)%R).
  { intros c Hc. eapply Rle_trans; [apply Rabs_triang|]. apply Rplus_le_compat; auto. }
  pose proof eps_pos as He.
  assert (Er : forall c, 0 <= c < N -> (Rabs (rnd (val (x c) + val (y c)) - (val (x c) + val (y c))) <= eps64 * (M1 + M2))%R).
  { intros c Hc. eapply Rle_trans; [apply add_err; auto|]. apply Rmult_le_compat_l; [lra|auto]. }
  split.
  - intros c Hc. rewrite (proj2 (proj2 (W c Hc))). specialize (B c Hc). specialize (Er c Hc). set (z := (val (x c) + val (y c))%R) in *.
    replace (rnd z) with ((rnd z - z) + z)%R by ring. eapply Rle_trans; [apply Rabs_triang|]. unfold q64. lra.
  - rewrite (rsum_ext _ _ (fun c => (val (x c) + val (y c)) + (rnd (val (x c) + val (y c)) - (val (x c) + val (y c))))%R)
      by (intros c Hc; rewrite (proj2 (proj2 (W c Hc))); ring).
    rewrite rsum_plus. rewrite (rsum_plus N (fun c => val (x c)) (fun c => val (y c))).
    assert (I2 : (Rabs (rsum N (fun c => rnd (val (x c) + val (y c)) - (val (x c) + val (y c)))) <= IZR N * (eps64 * (M1 + M2)))%R).
    { eapply Rle_trans; [apply Rabs_rsum|]. rewrite <- rsum_const by exact HN. apply rsum_le. exact Er. }
    eapply Rle_trans; [apply Rabs_triang|]. eapply Rle_trans; [apply Rplus_le_compat_r, Rabs_triang|]. lra.
Qed.
Lemma J_0 N : 0 <= N -> J N 0 0 (fun _ => #0)%fp.
Proof.
  intros HN. destruct (ofZ_val cc ss pp 0 ltac:(reflexivity)) as [F0 E0]. split; [intros; now apply fin_dbl|]. intros _. split; intros; rewrite ?E0.
  - rewrite Rabs_R0. lra.
  - rewrite rsum_zero by (intros; exact E0). rewrite Rabs_R0. lra.
Qed.
(** Three terms added one after the other, some perhaps missing. *)
Lemma J_skip N Mq Eq M2 E2 x : 0 <= N -> (0 <= Mq)%R -> (0 <= M2)%R -> (0 <= E2)%R -> J N Mq Eq x -> J N (q64 * (Mq + M2)) (Eq + E2 + eps64 * (Mq + M2)) x.
Proof.
  intros HN H0 H1 H2. pose proof eps_pos as He. assert (0 <= eps64 * (Mq + M2))%R by (apply Rmult_le_pos; lra).
  apply J_weak; [exact HN| |lra]. unfold q64. lra.
Qed.
Lemma three_sums N (b2 b3 : bool) Mx Ex M1 M2 M3 w x f1 f2 f3 : 0 <= N -> (0 <= Mx)%R -> (0 <= M1)%R -> (0 <= M2)%R -> (0 <= M3)%R ->
  (M1 + M2 + M3 <= q64 ^ 47 * w)%R ->
  J N Mx Ex x -> J N M1 (6 * eps64 * M1) f1 -> (b2 = true -> J N M2 (6 * eps64 * M2) f2) -> (b3 = true -> J N M3 (6 * eps64 * M3) f3) ->
  J N (q64 ^ 3 * Mx + q64 ^ 50 * w) (Ex + 9 * eps64 * (q64 ^ 50 * w) + 3 * eps64 * (q64 ^ 3 * Mx))
    (fun c => let y := (x c + f1 c)%fp in let y := if b2 then (y + f2 c)%fp else y in if b3 then (y + f3 c)%fp else y).
Proof.
  intros HN P0 P1 P2 P3 HW JX J1 J2 J3. cbv zeta. pose proof eps_pos as He. pose proof q1 as Q1.
  set (Ma := (q64 * (Mx + M1))%R). set (Ea := (Ex + 6 * eps64 * M1 + eps64 * (Mx + M1))%R).
  assert (JA : J N Ma Ea (fun c => x c + f1 c)%fp) by now apply J_add.
  assert (PA : (0 <= Ma)%R) by (apply Rmult_le_pos; lra).
  set (Mb := (q64 * (Ma + M2))%R). set (Eb := (Ea + 6 * eps64 * M2 + eps64 * (Ma + M2))%R).
  assert (PE : forall z, (0 <= z)%R -> (0 <= 6 * eps64 * z)%R) by (intros; apply Rmult_le_pos; lra).
  assert (JB : J N Mb Eb (fun c => if b2 then (x c + f1 c + f2 c)%fp else (x c + f1 c)%fp)).
  { destruct b2; [apply (J_add N Ma Ea M2 _ (fun c => x c + f1 c)%fp f2 HN JA); auto|]. apply J_skip; auto. }
  assert (PB : (0 <= Mb)%R) by (apply Rmult_le_pos; lra).
  set (Mc := (q64 * (Mb + M3))%R). set (Ec := (Eb + 6 * eps64 * M3 + eps64 * (Mb + M3))%R).
  assert (JC : J N Mc Ec (fun c => if b3 then ((if b2 then (x c + f1 c + f2 c)%fp else (x c + f1 c)%fp) + f3 c)%fp else if b2 then (x c + f1 c + f2 c)%fp else (x c + f1 c)%fp)).
  { destruct b3; [apply (J_add N Mb Eb M3 _ (fun c => if b2 then (x c + f1 c + f2 c)%fp else (x c + f1 c)%fp) f3 HN JB); auto|]. apply J_skip; auto. }
  assert (Q2 : (q64 <= q64 ^ 3)%R) by (pose proof (qk_mono 1 3 ltac:(lia)) as Q; cbn [pow] in *; lra).
  assert (Q3 : (q64 * q64 <= q64 ^ 3)%R) by (pose proof (qk_mono 2 3 ltac:(lia)) as Q; cbn [pow] in *; lra).
  set (Q := (q64 ^ 3)%R) in *. assert (QQ : (q64 * (q64 * q64) = Q)%R) by (unfold Q; cbn [pow]; ring).
  assert (QP : (1 <= Q)%R) by apply qk1.
  assert (H47 : (Q * (M1 + M2 + M3) <= q64 ^ 50 * w)%R).
  { replace (q64 ^ 50)%R with (Q * q64 ^ 47)%R by (unfold Q; rewrite <- pow_add; reflexivity). rewrite (Rmult_assoc Q). apply Rmult_le_compat_l; lra. }
  assert (K : forall a z, (0 <= z)%R -> (a <= Q)%R -> (a * z <= Q * z)%R) by (intros; now apply Rmult_le_compat_r).
  pose proof (K q64 M3 P3 Q2) as K3. pose proof (K (q64 * q64)%R M2 P2 Q3) as K2. pose proof (K (q64 * q64)%R M1 P1 Q3) as K1. pose proof (K (q64 * q64)%R Mx P0 Q3) as K0.
  pose proof (K q64 M2 P2 Q2) as k2. pose proof (K q64 M1 P1 Q2) as k1. pose proof (K q64 Mx P0 Q2) as k0.
  pose proof (K 1%R M3 P3 QP) as j3. pose proof (K 1%R M2 P2 QP) as j2. pose proof (K 1%R M1 P1 QP) as j1. pose proof (K 1%R Mx P0 QP) as j0.
  assert (TM : (Mc <= Q * Mx + q64 ^ 50 * w)%R).
  { unfold Mc, Mb, Ma. replace (q64 * (q64 * (q64 * (Mx + M1) + M2) + M3))%R with (q64 * (q64 * q64) * (Mx + M1) + q64 * q64 * M2 + q64 * M3)%R by ring. rewrite QQ. lra. }
  assert (TE : (Ec <= Ex + 9 * eps64 * (q64 ^ 50 * w) + 3 * eps64 * (Q * Mx))%R).
  { unfold Ec, Eb, Ea, Mb, Ma.
    replace (Ex + 6 * eps64 * M1 + eps64 * (Mx + M1) + 6 * eps64 * M2 + eps64 * (q64 * (Mx + M1) + M2) + 6 * eps64 * M3 + eps64 * (q64 * (q64 * (Mx + M1) + M2) + M3))%R
      with (Ex + eps64 * (6 * (M1 + M2 + M3) + (Mx + M1) + (q64 * Mx + q64 * M1 + M2) + (q64 * q64 * Mx + q64 * q64 * M1 + q64 * M2 + M3)))%R by ring.
    replace (Ex + 9 * eps64 * (q64 ^ 50 * w) + 3 * eps64 * (Q * Mx))%R with (Ex + eps64 * (9 * (q64 ^ 50 * w) + 3 * (Q * Mx)))%R by ring.
    apply Rplus_le_compat_l, Rmult_le_compat_l; [lra|]. lra. }
  exact (J_weak N Mc Ec _ _ _ HN TM TE JC).
Qed.
End Le.
