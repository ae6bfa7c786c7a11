(** Facts about the binary64 operations of [SFA] (Arith.v): the real number a datum denotes, the
    rounding of each operation, and its error.  Flocq supplies the theory of rounding. *)
From Coq Require Import ZArith Reals Bool Lia Lra Floats.SpecFloat.
From Flocq Require Import Core.Core IEEE754.BinarySingleNaN.
Require Import Flocq.Prop.Relative Flocq.Prop.Plus_error.
From Verif Require Import Arith Prog CeilThms RSum.
Open Scope Z_scope.

Local Notation prec := 53%Z.
Local Notation emax := 1024%Z.
Local Notation Hp := CeilThms.Hp.
Local Notation Hm := CeilThms.Hm.
Local Existing Instance CeilThms.Hp.
Local Existing Instance CeilThms.Hm.
Local Notation bin := (binary_float prec emax).
Local Notation fx := (SpecFloat.fexp prec emax).

(** [x] is a binary64 datum; it is finite; the real number it denotes (0 for infinities and NaN). *)
Definition dbl (x : spec_float) : Prop := valid_binary prec emax x = true.
Definition fin (x : spec_float) : Prop := valid_binary prec emax x = true /\ is_finite_SF x = true.
Definition val (x : spec_float) : R := SF2R radix2 x.
Definition rnd (r : R) : R := round radix2 fx ZnearestE r.

Lemma dbl_ex x : dbl x -> exists b : bin, x = B2SF b.
Proof. intros H. exists (SF2B x H). symmetry. apply B2SF_SF2B. Qed.
Lemma dbl_B (b : bin) : dbl (B2SF b). Proof. apply valid_binary_B2SF. Qed.
Lemma fin_dbl x : fin x -> dbl x. Proof. intros [H _]. exact H. Qed.
Lemma fin_B (b : bin) : fin (B2SF b) <-> is_finite b = true.
Proof. unfold fin. rewrite is_finite_SF_B2SF. pose proof (valid_binary_B2SF prec emax b). tauto. Qed.
Lemma val_B (b : bin) : val (B2SF b) = B2R b. Proof. apply SF2R_B2SF. Qed.
Lemma fin_ex x : fin x -> exists b : bin, x = B2SF b /\ is_finite b = true.
Proof. intros [H F]. destruct (dbl_ex x H) as [b ->]. exists b. split; [reflexivity|]. now apply fin_B. Qed.

(** The operations of the standard library and of Flocq agree. *)
Lemma mul_equiv (x y : bin) : SFmul prec emax (B2SF x) (B2SF y) = B2SF (Bmult mode_NE x y).
Proof.
  destruct x as [sx|sx| |sx mx ex Bx], y as [sy|sy| |sy my ey By]; try reflexivity.
  cbn. rewrite B2SF_SF2B. apply round_aux_equiv.
Qed.
Lemma add_equiv (x y : bin) : SFadd prec emax (B2SF x) (B2SF y) = B2SF (Bplus mode_NE x y).
Proof.
  destruct x as [sx|sx| |sx mx ex Bx], y as [sy|sy| |sy my ey By];
    try (reflexivity || (cbn; destruct sx, sy; reflexivity)).
  apply normalize_equiv.
Qed.
Lemma sub_equiv (x y : bin) : SFsub prec emax (B2SF x) (B2SF y) = B2SF (Bminus mode_NE x y).
Proof.
  destruct x as [sx|sx| |sx mx ex Bx], y as [sy|sy| |sy my ey By];
    try (reflexivity || (cbn; destruct sx, sy; reflexivity)).
  cbn. unfold Zminus. rewrite <- cond_Zopp_negb. apply normalize_equiv.
Qed.
Lemma sqrt_equiv (x : bin) : SFsqrt prec emax (B2SF x) = B2SF (Bsqrt mode_NE x).
Proof.
  destruct x as [sx|sx| |sx mx ex Bx]; try (destruct sx; reflexivity); try reflexivity.
  destruct sx; [reflexivity|]. cbn. rewrite B2SF_SF2B.
  destruct (SFsqrt_core_binary _ _ _ _) as [[mz ez] lz]. apply round_aux_equiv.
Qed.
Lemma opp_equiv (x : bin) : SFopp (B2SF x) = B2SF (Bopp x).
Proof. destruct x; reflexivity. Qed.

Section Ops.
Context (cc ss : spec_float -> spec_float) (pp : spec_float).
Local Notation A := (SFA cc ss pp).
Implicit Types x y : F A.

Lemma dbl_add x y : dbl x -> dbl y -> dbl (x + y)%fp.
Proof. intros Hx Hy. apply dbl_ex in Hx as [a ->], Hy as [b ->]. cbn. rewrite add_equiv. apply dbl_B. Qed.
Lemma dbl_sub x y : dbl x -> dbl y -> dbl (x - y)%fp.
Proof. intros Hx Hy. apply dbl_ex in Hx as [a ->], Hy as [b ->]. cbn. rewrite sub_equiv. apply dbl_B. Qed.
Lemma dbl_mul x y : dbl x -> dbl y -> dbl (x * y)%fp.
Proof. intros Hx Hy. apply dbl_ex in Hx as [a ->], Hy as [b ->]. cbn. rewrite mul_equiv. apply dbl_B. Qed.
Lemma dbl_div x y : dbl x -> dbl y -> dbl (x / y)%fp.
Proof. intros Hx Hy. apply dbl_ex in Hx as [a ->], Hy as [b ->]. cbn. rewrite div_equiv. apply dbl_B. Qed.
Lemma dbl_sqrt x : dbl x -> dbl (@fsqrt A x)%fp.
Proof. intros Hx. apply dbl_ex in Hx as [a ->]. cbn. rewrite sqrt_equiv. apply dbl_B. Qed.
Lemma dbl_ofZ z : dbl (@fofZ A z).
Proof. cbn. rewrite normalize_equiv. apply dbl_B. Qed.

(** Integers below 2^53. *)
Lemma ofZ_val z : Z.abs z < 2 ^ 53 -> fin (@fofZ A z) /\ val (@fofZ A z) = IZR z.
Proof.
  intros H. cbn. rewrite normalize_equiv. fold (ofZ z). destruct (ofZ_exact z H) as [H1 H2].
  split; [now apply fin_B|]. now rewrite val_B.
Qed.

(** A finite result comes from finite operands by rounding. *)
Lemma ovf_inf (b : bin) s : B2SF b = binary_overflow prec emax mode_NE s -> is_finite b = false.
Proof. intros E. destruct b; cbn in E; try discriminate E; reflexivity. Qed.
Lemma fin_add x y : dbl x -> dbl y -> fin (x + y)%fp -> fin x /\ fin y /\ val (x + y)%fp = rnd (val x + val y).
Proof.
  intros Hx Hy. apply dbl_ex in Hx as [a ->], Hy as [b ->]. cbn. rewrite add_equiv, !fin_B, !val_B. intros Hf.
  assert (Fa : is_finite a = true) by (destruct a as [|?| |], b; cbn in Hf; try reflexivity; try discriminate; destruct (Bool.eqb _ _) in Hf; discriminate).
  assert (Fb : is_finite b = true) by (destruct a, b as [|?| |]; cbn in Hf; try reflexivity; discriminate).
  split; [exact Fa|split; [exact Fb|]]. pose proof (Bplus_correct prec emax Hp Hm mode_NE a b Fa Fb) as H.
  destruct (Rlt_bool _ _) in H; [apply H|]. destruct H as [H _]. apply ovf_inf in H. congruence.
Qed.
Lemma fin_sub x y : dbl x -> dbl y -> fin (x - y)%fp -> fin x /\ fin y /\ val (x - y)%fp = rnd (val x - val y).
Proof.
  intros Hx Hy. apply dbl_ex in Hx as [a ->], Hy as [b ->]. cbn. rewrite sub_equiv, !fin_B, !val_B. intros Hf.
  assert (Fa : is_finite a = true) by (destruct a as [|?| |], b; cbn in Hf; try reflexivity; try discriminate; destruct (Bool.eqb _ _) in Hf; discriminate).
  assert (Fb : is_finite b = true) by (destruct a, b as [|?| |]; cbn in Hf; try reflexivity; discriminate).
  split; [exact Fa|split; [exact Fb|]]. pose proof (Bminus_correct prec emax Hp Hm mode_NE a b Fa Fb) as H.
  destruct (Rlt_bool _ _) in H; [apply H|]. destruct H as [H _]. apply ovf_inf in H. congruence.
Qed.
Lemma fin_mul x y : dbl x -> dbl y -> fin (x * y)%fp -> fin x /\ fin y /\ val (x * y)%fp = rnd (val x * val y).
Proof.
  intros Hx Hy. apply dbl_ex in Hx as [a ->], Hy as [b ->]. cbn. rewrite mul_equiv, !fin_B, !val_B. intros Hf.
  assert (Fa : is_finite a = true) by (destruct a as [|?| |], b; cbn in Hf; try reflexivity; discriminate).
  assert (Fb : is_finite b = true) by (destruct a, b as [|?| |]; cbn in Hf; try reflexivity; discriminate).
  split; [exact Fa|split; [exact Fb|]]. pose proof (Bmult_correct prec emax Hp Hm mode_NE a b) as H.
  destruct (Rlt_bool _ _) in H; [apply H|]. apply ovf_inf in H. congruence.
Qed.
Lemma B2R_fin0 (b : bin) : B2R b <> 0%R -> is_finite b = true.
Proof. destruct b; cbn; congruence. Qed.

(** A result that does not overflow is finite. *)
Definition small (r : R) : Prop := (Rabs (rnd r) < bpow radix2 emax)%R.
Lemma add_ok x y : fin x -> fin y -> small (val x + val y) -> fin (x + y)%fp /\ val (x + y)%fp = rnd (val x + val y).
Proof.
  intros Hx Hy. apply fin_ex in Hx as (a & -> & Fa), Hy as (b & -> & Fb). cbn. rewrite add_equiv, !fin_B, !val_B. intros Hs.
  pose proof (Bplus_correct prec emax Hp Hm mode_NE a b Fa Fb) as H. rewrite Rlt_bool_true in H by exact Hs. tauto.
Qed.
Lemma sub_ok x y : fin x -> fin y -> small (val x - val y) -> fin (x - y)%fp /\ val (x - y)%fp = rnd (val x - val y).
Proof.
  intros Hx Hy. apply fin_ex in Hx as (a & -> & Fa), Hy as (b & -> & Fb). cbn. rewrite sub_equiv, !fin_B, !val_B. intros Hs.
  pose proof (Bminus_correct prec emax Hp Hm mode_NE a b Fa Fb) as H. rewrite Rlt_bool_true in H by exact Hs. tauto.
Qed.
Lemma mul_ok x y : fin x -> fin y -> small (val x * val y) -> fin (x * y)%fp /\ val (x * y)%fp = rnd (val x * val y).
Proof.
  intros Hx Hy. apply fin_ex in Hx as (a & -> & Fa), Hy as (b & -> & Fb). cbn. rewrite mul_equiv, !fin_B, !val_B. intros Hs.
  pose proof (Bmult_correct prec emax Hp Hm mode_NE a b) as H. rewrite Rlt_bool_true in H by exact Hs. rewrite Fa, Fb in H. tauto.
Qed.
Lemma div_ok x y : fin x -> fin y -> val y <> 0%R -> small (val x / val y) -> fin (x / y)%fp /\ val (x / y)%fp = rnd (val x / val y).
Proof.
  intros Hx Hy. apply fin_ex in Hx as (a & -> & Fa), Hy as (b & -> & Fb). cbn. rewrite div_equiv, !fin_B, !val_B. intros H0 Hs.
  pose proof (Bdiv_correct prec emax Hp Hm mode_NE a b H0) as H. rewrite Rlt_bool_true in H by exact Hs. rewrite Fa in H. tauto.
Qed.
Lemma sqrt_ok x : fin x -> (0 < val x)%R -> fin (@fsqrt A x) /\ val (@fsqrt A x) = rnd (sqrt (val x)).
Proof.
  intros Hx. apply fin_ex in Hx as (a & -> & Fa). cbn. rewrite sqrt_equiv, !fin_B, !val_B. intros H0.
  destruct (Bsqrt_correct prec emax Hp Hm mode_NE a) as (H1 & H2 & _). split; [|exact H1]. rewrite H2.
  destruct a as [s|s| |s mm e B]; cbn in H0; try lra. destruct s; [|reflexivity].
  exfalso. revert H0. apply Rle_not_lt. apply F2R_le_0. cbn. lia.
Qed.
End Ops.

(** ** Rounding *)
Open Scope R_scope.
Definition eps64 : R := bpow radix2 (-53).
Lemma eps_pos : 0 < eps64. Proof. apply bpow_gt_0. Qed.
Lemma eps_val : eps64 = / 9007199254740992.
Proof. unfold eps64. change (-53)%Z with (- (53))%Z. rewrite bpow_opp. f_equal. Qed.
Lemma eps_small : eps64 <= / 1000000000000000.
Proof. rewrite eps_val. apply Rinv_le_contravar; lra. Qed.
Lemma uro : u_ro radix2 prec = eps64.
Proof. unfold u_ro, eps64. rewrite <- (bpow_plus radix2 (-1)). reflexivity. Qed.

Lemma rnd_opp r : rnd (- r) = - rnd r. Proof. apply round_NE_opp. Qed.
Lemma rnd_val x : dbl x -> rnd (val x) = val x.
Proof. intros H. apply dbl_ex in H as [b ->]. rewrite val_B. apply round_generic; [auto with typeclass_instances|apply generic_format_B2R]. Qed.
Lemma fmt_val x : dbl x -> generic_format radix2 fx (val x).
Proof. intros H. apply dbl_ex in H as [b ->]. rewrite val_B. apply generic_format_B2R. Qed.
Lemma rnd_0 : rnd 0 = 0. Proof. apply round_0. auto with typeclass_instances. Qed.
Lemma rnd_mono a b : a <= b -> rnd a <= rnd b.
Proof. apply round_le; [apply (fexp_correct prec emax Hp)|auto with typeclass_instances]. Qed.
Lemma rnd_bpow e : (-1074 <= e)%Z -> rnd (bpow radix2 e) = bpow radix2 e.
Proof.
  intros H. apply round_generic; [auto with typeclass_instances|]. apply generic_format_bpow.
  unfold SpecFloat.fexp, SpecFloat.emin. lia.
Qed.
Lemma rnd_abs r : Rabs (rnd r) = rnd (Rabs r).
Proof.
  destruct (Rle_or_lt 0 r) as [H|H].
  - rewrite (Rabs_pos_eq r) by exact H. apply Rabs_pos_eq. rewrite <- rnd_0. now apply rnd_mono.
  - rewrite (Rabs_left r) by exact H. rewrite rnd_opp. rewrite <- (Ropp_involutive r) at 1.
    rewrite rnd_opp, Rabs_Ropp. rewrite <- rnd_opp. apply Rabs_pos_eq. rewrite <- rnd_0. apply rnd_mono. lra.
Qed.
(** Sums: relative error, also for subnormal results. *)
Lemma add_err' x y : dbl x -> dbl y -> Rabs (rnd (val x + val y) - (val x + val y)) <= eps64 / (1 + eps64) * Rabs (val x + val y).
Proof.
  intros Hx Hy.
  destruct (FLT_plus_error_N_ex radix2 (SpecFloat.emin prec emax) prec (fun x => negb (Z.even x)) (val x) (val y)
    (fmt_val x Hx) (fmt_val y Hy)) as (e & He & E).
  change (round radix2 _ _ (val x + val y)) with (rnd (val x + val y)) in E. rewrite E.
  replace ((val x + val y) * (1 + e) - (val x + val y)) with (e * (val x + val y)) by ring. rewrite Rabs_mult.
  apply Rmult_le_compat_r; [apply Rabs_pos|]. rewrite uro in He. exact He.
Qed.
Lemma eps_div : eps64 / (1 + eps64) <= eps64.
Proof. rewrite <- uro. apply u_rod1pu_ro_le_u_ro. Qed.
Lemma add_err x y : dbl x -> dbl y -> Rabs (rnd (val x + val y) - (val x + val y)) <= eps64 * Rabs (val x + val y).
Proof.
  intros Hx Hy. eapply Rle_trans; [now apply add_err'|]. apply Rmult_le_compat_r; [apply Rabs_pos|apply eps_div].
Qed.
(** The error relative to the rounded sum. *)
Lemma add_err_r x y : dbl x -> dbl y -> Rabs (rnd (val x + val y) - (val x + val y)) <= eps64 * Rabs (rnd (val x + val y)).
Proof.
  intros Hx Hy. pose proof (add_err' x y Hx Hy) as H. set (z := val x + val y) in *. set (r := rnd z) in *. pose proof eps_pos as He.
  assert (T : Rabs z <= Rabs r + Rabs (r - z)) by (replace z with (r - (r - z)) at 1 by ring; eapply Rle_trans; [apply Rabs_triang|]; rewrite Rabs_Ropp; lra).
  assert (H' : (1 + eps64) * Rabs (r - z) <= eps64 * Rabs z).
  { apply Rmult_le_reg_l with (/ (1 + eps64)); [apply Rinv_0_lt_compat; lra|]. rewrite <- Rmult_assoc, Rinv_l, Rmult_1_l by lra.
    eapply Rle_trans; [exact H|]. right. field. lra. }
  pose proof (Rabs_pos (r - z)). assert (eps64 * Rabs z <= eps64 * (Rabs r + Rabs (r - z))) by (apply Rmult_le_compat_l; lra). lra.
Qed.
Lemma val_opp x : val (SFopp x) = - val x.
Proof. destruct x as [s|s| |s m e]; unfold val; cbn [SFopp SF2R]; try ring. rewrite <- F2R_Zopp. destruct s; reflexivity. Qed.
Lemma dbl_opp x : dbl x -> dbl (SFopp x).
Proof. intros H. apply dbl_ex in H as [b ->]. rewrite opp_equiv. apply dbl_B. Qed.
Lemma sub_err x y : dbl x -> dbl y -> Rabs (rnd (val x - val y) - (val x - val y)) <= eps64 * Rabs (val x - val y).
Proof. intros Hx Hy. pose proof (add_err x (SFopp y) Hx (dbl_opp y Hy)) as H. rewrite val_opp in H. exact H. Qed.
(** Other operations: relative error down to the smallest normal number. *)
Definition tiny : R := bpow radix2 (-1022).
Lemma rnd_err r B : Rabs r <= B -> tiny <= B -> Rabs (rnd r - r) <= eps64 * B.
Proof.
  intros H1 H2. destruct (Rle_or_lt tiny (Rabs r)) as [H|H].
  - pose proof (relative_error_N_FLT radix2 (SpecFloat.emin prec emax) prec Hp (fun x => negb (Z.even x)) r H) as E.
    change (round radix2 _ _ r) with (rnd r) in E. eapply Rle_trans; [exact E|].
    fold (u_ro radix2 prec). rewrite uro.
    apply Rmult_le_compat_l; [apply Rlt_le, eps_pos|exact H1].
  - apply Rle_trans with (eps64 * tiny); [|apply Rmult_le_compat_l; [apply Rlt_le, eps_pos|exact H2]].
    apply Rle_trans with (/ 2 * ulp radix2 fx r).
    + apply error_le_half_ulp. apply (fexp_correct prec emax Hp).
    + rewrite (ulp_FLT_small radix2 (SpecFloat.emin prec emax) prec); [|apply Rlt_trans with tiny; [exact H|apply bpow_lt; reflexivity]].
      change (/ 2) with (bpow radix2 (-1)). unfold eps64, tiny. rewrite <- !bpow_plus. apply bpow_le. cbn. lia.
Qed.
Lemma rnd_le r B : Rabs r <= B -> tiny <= B -> Rabs (rnd r) <= (1 + eps64) * B.
Proof.
  intros H1 H2. pose proof (rnd_err r B H1 H2) as H. replace (rnd r) with ((rnd r - r) + r) by ring.
  eapply Rle_trans; [apply Rabs_triang|]. lra.
Qed.

(** Positive numbers in the normal range: rounding changes them by a factor of at most [1 + eps64]. *)
Lemma rnd_normal r : tiny <= Rabs r -> Rabs (rnd r - r) <= eps64 / (1 + eps64) * Rabs r.
Proof.
  intros H. unfold rnd. change fx with (FLT_exp (SpecFloat.emin prec emax) prec).
  rewrite (round_FLT_FLX radix2 (SpecFloat.emin prec emax) prec) by exact H. rewrite <- uro.
  apply relative_error_N_FLX'. exact Hp.
Qed.
Lemma rnd_pos r : tiny <= r -> r / (1 + eps64) <= rnd r <= r * (1 + eps64).
Proof.
  intros H. pose proof eps_pos as He. assert (T : 0 < tiny) by apply bpow_gt_0.
  pose proof (rnd_normal r) as N. rewrite (Rabs_pos_eq r) in N by lra. specialize (N H). apply Rabs_le_inv in N.
  pose proof eps_div as Hd. assert (eps64 / (1 + eps64) * r <= eps64 * r) by (apply Rmult_le_compat_r; lra).
  replace (r / (1 + eps64)) with (r - eps64 / (1 + eps64) * r) by (field; lra). lra.
Qed.

(** ** Approximations: [x] is [r] up to [k] roundings. *)
Definition q64 : R := 1 + eps64.
Definition approx (x : spec_float) (r : R) (k : nat) : Prop := fin x /\ r / q64 ^ k <= val x <= r * q64 ^ k.
Lemma q1 : 1 < q64. Proof. pose proof eps_pos. unfold q64. lra. Qed.
Lemma q0 : 0 < q64. Proof. pose proof q1. lra. Qed.
Lemma qk0 k : 0 < q64 ^ k. Proof. apply pow_lt, q0. Qed.
Lemma qk1 k : 1 <= q64 ^ k. Proof. apply pow_R1_Rle. pose proof q1. lra. Qed.
Lemma qk_mono k l : (k <= l)%nat -> q64 ^ k <= q64 ^ l. Proof. intros H. apply Rle_pow; [pose proof q1; lra|exact H]. Qed.
Lemma qk_lin k : (k <= 1000)%nat -> q64 ^ k <= 1 + 2 * INR k * eps64.
Proof.
  intros Hk. induction k as [|k IH]; [cbn [pow INR]; lra|]. specialize (IH ltac:(lia)). rewrite S_INR. cbn [pow].
  pose proof eps_pos as He. pose proof eps_small as Hs.
  assert (K0 : 0 <= INR k) by apply pos_INR. assert (K1 : INR k <= 1000) by (change 1000 with (IZR (Z.of_nat 1000)); rewrite <- INR_IZR_INZ; apply le_INR; lia).
  assert (H1 : q64 * q64 ^ k <= q64 * (1 + 2 * INR k * eps64)) by (apply Rmult_le_compat_l; [apply Rlt_le, q0|exact IH]).
  unfold q64 in H1 at 3. assert (E1 : INR k * eps64 <= 1000 * / 1000000000000000) by (apply Rmult_le_compat; lra).
  assert (E2 : eps64 * (2 * INR k * eps64) <= eps64 * 1) by (apply Rmult_le_compat_l; lra). lra.
Qed.
Lemma qk_2 k : (k <= 1000)%nat -> q64 ^ k <= 2.
Proof.
  intros Hk. eapply Rle_trans; [now apply qk_lin|]. pose proof eps_pos as He. pose proof eps_small as Hs.
  assert (K0 : 0 <= INR k) by apply pos_INR. assert (K1 : INR k <= 1000) by (change 1000 with (IZR (Z.of_nat 1000)); rewrite <- INR_IZR_INZ; apply le_INR; lia).
  assert (E1 : INR k * eps64 <= 1000 * / 1000000000000000) by (apply Rmult_le_compat; lra). lra.
Qed.

(** Rounding a number known up to [k] roundings, in a range without overflow and underflow. *)
Definition mid (r : R) : Prop := bpow radix2 (-1000) <= r <= bpow radix2 1000.
Lemma tiny_mid r k : mid r -> (k <= 1000)%nat -> tiny <= r / q64 ^ k.
Proof.
  intros [H _] Hk. pose proof (qk0 k) as P. pose proof (qk_2 k Hk) as Q. apply Rmult_le_reg_r with (q64 ^ k); [exact P|].
  unfold Rdiv. rewrite Rmult_assoc, Rinv_l, Rmult_1_r by lra.
  apply Rle_trans with (tiny * 2); [apply Rmult_le_compat_l; [apply bpow_ge_0|exact Q]|].
  eapply Rle_trans; [|exact H]. change 2 with (bpow radix2 1). unfold tiny. rewrite <- bpow_plus. now apply bpow_le.
Qed.
Lemma rnd_ap r z k : mid r -> (k < 1000)%nat -> r / q64 ^ k <= z <= r * q64 ^ k ->
  small z /\ r / q64 ^ S k <= rnd z <= r * q64 ^ S k.
Proof.
  intros Hr Hk [H1 H2]. pose proof (tiny_mid r k Hr ltac:(lia)) as T. pose proof (rnd_pos z ltac:(lra)) as [L U].
  fold q64 in L, U. pose proof q0 as Q0. pose proof (qk0 k) as Qk.
  assert (L2 : r / q64 ^ S k <= rnd z).
  { eapply Rle_trans; [|exact L]. cbn [pow]. replace (r / (q64 * q64 ^ k)) with (r / q64 ^ k / q64) by (field; lra).
    apply Rmult_le_compat_r; [apply Rlt_le, Rinv_0_lt_compat, Q0|exact H1]. }
  assert (U2 : rnd z <= r * q64 ^ S k).
  { eapply Rle_trans; [exact U|]. cbn [pow]. replace (r * (q64 * q64 ^ k)) with (r * q64 ^ k * q64) by ring.
    apply Rmult_le_compat_r; [lra|exact H2]. }
  split; [|split; assumption]. unfold small. assert (0 < rnd z).
  { eapply Rlt_le_trans; [|exact L2]. pose proof (tiny_mid r (S k) Hr ltac:(lia)). pose proof (bpow_gt_0 radix2 (-1022)). fold tiny in *. lra. }
  rewrite Rabs_pos_eq by lra. eapply Rle_lt_trans; [exact U2|]. destruct Hr as [_ Hr].
  apply Rle_lt_trans with (bpow radix2 1000 * 2).
  - apply Rmult_le_compat; [|apply Rlt_le, qk0|exact Hr|apply qk_2; lia]. pose proof (bpow_gt_0 radix2 (-1000)).
    apply Rmult_le_reg_r with (q64 ^ S k); [apply qk0|]. rewrite Rmult_0_l. lra.
  - change 2 with (bpow radix2 1). rewrite <- bpow_plus. now apply bpow_lt.
Qed.

Section Approx.
Context (cc ss : spec_float -> spec_float) (pp : spec_float).
Local Notation A := (SFA cc ss pp).
Implicit Types x y : F A.

Lemma ap_ofZ z : (Z.abs z < 2 ^ 53)%Z -> approx (@fofZ A z) (IZR z) 0.
Proof. intros H. destruct (ofZ_val cc ss pp z H) as [H1 H2]. split; [exact H1|]. rewrite H2. cbn [pow]. lra. Qed.
Lemma ap_weak x r k l : 0 < r -> (k <= l)%nat -> approx x r k -> approx x r l.
Proof.
  intros Hr Hkl [F1 [F2 F3]]. split; [exact F1|]. pose proof (qk_mono k l Hkl) as M. pose proof (qk0 k) as Q. split.
  - eapply Rle_trans; [|exact F2]. apply Rmult_le_compat_l; [lra|]. now apply Rinv_le_contravar.
  - eapply Rle_trans; [exact F3|]. apply Rmult_le_compat_l; lra.
Qed.
Lemma ap_mul x y r s k l : 0 < r -> 0 < s -> approx x r k -> approx y s l -> mid (r * s) -> (k + l < 1000)%nat ->
  approx (x * y)%fp (r * s) (S (k + l)).
Proof.
  intros Hr Hs [Fx [X1 X2]] [Fy [Y1 Y2]] Hm Hk. pose proof (qk0 k) as Qk. pose proof (qk0 l) as Ql.
  assert (Ik : 0 < r / q64 ^ k) by (apply Rmult_lt_0_compat; [exact Hr|now apply Rinv_0_lt_compat]).
  assert (Il : 0 < s / q64 ^ l) by (apply Rmult_lt_0_compat; [exact Hs|now apply Rinv_0_lt_compat]).
  destruct (rnd_ap (r * s) (val x * val y) (k + l) Hm Hk) as [S1 S2].
  { rewrite pow_add. split.
    - replace (r * s / (q64 ^ k * q64 ^ l)) with ((r / q64 ^ k) * (s / q64 ^ l)) by (field; lra). apply Rmult_le_compat; lra.
    - replace (r * s * (q64 ^ k * q64 ^ l)) with ((r * q64 ^ k) * (s * q64 ^ l)) by ring. apply Rmult_le_compat; lra. }
  destruct (mul_ok cc ss pp x y Fx Fy S1) as [M1 M2]. split; [exact M1|]. rewrite M2. exact S2.
Qed.
Lemma ap_div x y r s k l : 0 < r -> 0 < s -> approx x r k -> approx y s l -> mid (r / s) -> (k + l < 1000)%nat ->
  approx (x / y)%fp (r / s) (S (k + l)).
Proof.
  intros Hr Hs [Fx [X1 X2]] [Fy [Y1 Y2]] Hm Hk. pose proof (qk0 k) as Qk. pose proof (qk0 l) as Ql.
  assert (Ik : 0 < r / q64 ^ k) by (apply Rmult_lt_0_compat; [exact Hr|now apply Rinv_0_lt_compat]).
  assert (Il : 0 < s / q64 ^ l) by (apply Rmult_lt_0_compat; [exact Hs|now apply Rinv_0_lt_compat]).
  assert (V : 0 < val y) by lra.
  destruct (rnd_ap (r / s) (val x / val y) (k + l) Hm Hk) as [S1 S2].
  { rewrite pow_add. split.
    - replace (r / s / (q64 ^ k * q64 ^ l)) with ((r / q64 ^ k) * / (s * q64 ^ l)) by (field; lra).
      apply Rmult_le_compat; [lra| |exact X1|apply Rinv_le_contravar; lra].
      apply Rlt_le, Rinv_0_lt_compat, Rmult_lt_0_compat; lra.
    - replace (r / s * (q64 ^ k * q64 ^ l)) with ((r * q64 ^ k) * / (s / q64 ^ l)) by (field; lra).
      apply Rmult_le_compat; [lra| |exact X2|apply Rinv_le_contravar; lra].
      now apply Rlt_le, Rinv_0_lt_compat. }
  destruct (div_ok cc ss pp x y Fx Fy ltac:(lra) S1) as [M1 M2]. split; [exact M1|]. rewrite M2. exact S2.
Qed.
(** The literal [sqrt(3.)]. *)
Lemma ap_sqrt3 : approx (@fsqrt A (#3)%fp) (sqrt 3) 1.
Proof.
  destruct (ofZ_val cc ss pp 3 ltac:(reflexivity)) as [H1 H2].
  destruct (sqrt_ok cc ss pp (#3)%fp H1 ltac:(rewrite H2; lra)) as [M1 M2]. split; [exact M1|]. rewrite M2, H2.
  assert (S0 : 1 <= sqrt 3 <= 2).
  { rewrite <- sqrt_1 at 1. replace 2 with (sqrt (2 * 2)) by (apply sqrt_square; lra). split; apply sqrt_le_1; lra. }
  apply (rnd_ap (sqrt 3) (sqrt 3) 0); [|lia|cbn [pow]; lra].
  split; [apply Rle_trans with (bpow radix2 0); [apply bpow_le; lia|apply S0]|].
  apply Rle_trans with (bpow radix2 1); [apply S0|apply bpow_le; lia].
Qed.
(** Multiplication by a sign is exact. *)
Lemma fin_lt x : fin x -> Rabs (val x) < bpow radix2 1024.
Proof. intros H. apply fin_ex in H as (b & -> & Fb). rewrite val_B. apply abs_B2R_lt_emax. Qed.
Lemma mul_sign x s : fin x -> (s = 1 \/ s = -1)%Z -> fin (x * fofZ s)%fp /\ val (x * fofZ s)%fp = IZR s * val x.
Proof.
  intros Fx Hs. destruct (ofZ_val cc ss pp s ltac:(destruct Hs; subst; reflexivity)) as [H1 H2].
  assert (E : rnd (val x * IZR s) = IZR s * val x).
  { destruct Hs as [-> | ->].
    - rewrite Rmult_1_r, Rmult_1_l. apply rnd_val, fin_dbl, Fx.
    - replace (val x * -1) with (- val x) by ring. rewrite rnd_opp, rnd_val by apply fin_dbl, Fx. ring. }
  destruct (mul_ok cc ss pp x (fofZ s) Fx H1) as [M1 M2].
  - unfold small. rewrite H2, E, Rabs_mult. replace (Rabs (IZR s)) with 1 by (destruct Hs; subst; [rewrite Rabs_R1|rewrite Rabs_left]; lra).
    rewrite Rmult_1_l. now apply fin_lt.
  - split; [exact M1|]. now rewrite M2, H2.
Qed.

(** A sum of [n] terms subtracted one after the other from zero. *)
Lemma fold_sub n (p : Z -> F A) : (0 <= n)%Z -> (forall j, (0 <= j < n)%Z -> dbl (p j)) ->
  let T := iterZ n (fun j a => (a - p j)%fp) (#0)%fp in
  dbl T /\ (fin T -> (forall j, (0 <= j < n)%Z -> fin (p j)) /\
  Rabs (val T + rsum n (fun j => val (p j))) <= (q64 ^ Z.to_nat n - 1) * rsum n (fun j => Rabs (val (p j)))).
Proof.
  intros Hn Hd. cbv zeta. revert Hd. pattern n. apply natlike_ind; [| |exact Hn]; clear n Hn.
  - intros _. rewrite iterZ_0. destruct (ofZ_val cc ss pp 0 ltac:(reflexivity)) as [H1 H2]. split; [apply H1|]. intros _.
    split; [intros; lia|]. rewrite !rsum_0, H2. cbn [Z.to_nat pow]. rewrite Rplus_0_r, Rabs_R0. lra.
  - intros n Hn IH Hd. unfold Z.succ in *. destruct IH as [D IH]; [intros; apply Hd; lia|]. rewrite iterZ_succ by exact Hn.
    set (T := iterZ n (fun j a => (a - p j)%fp) (#0)%fp) in *. assert (Dn : dbl (p n)) by (apply Hd; lia).
    split; [now apply dbl_sub|]. intros Hf. destruct (fin_sub cc ss pp T (p n) D Dn Hf) as (F1 & F2 & E).
    destruct (IH F1) as [I1 I2]. split.
    { intros j Hj. destruct (Z.eq_dec j n) as [->|]; [exact F2|]. apply I1. lia. }
    rewrite !rsum_succ by exact Hn. set (s := rsum n (fun j => val (p j))) in *. set (a := rsum n (fun j => Rabs (val (p j)))) in *.
    assert (Sa : Rabs s <= a).
    { unfold s, a. clear. assert (G : forall k, (0 <= k)%Z -> Rabs (rsum k (fun j => val (p j))) <= rsum k (fun j => Rabs (val (p j)))).
      { apply natlike_ind; [rewrite !rsum_0, Rabs_R0; lra|]. intros k Hk IH. unfold Z.succ. rewrite !rsum_succ by exact Hk.
        eapply Rle_trans; [apply Rabs_triang|]. lra. }
      destruct (Z.le_gt_cases 0 n); [now apply G|]. rewrite !rsum_neg, Rabs_R0 by lia. lra. }
    pose proof (sub_err T (p n) D Dn) as E2. rewrite <- E in E2. set (v := val (@fsub A T (p n))) in *. set (b := val (p n)) in *.
    replace (Z.to_nat (n + 1)) with (S (Z.to_nat n)) by lia. cbn [pow]. set (k := q64 ^ Z.to_nat n) in *.
    pose proof (qk1 (Z.to_nat n)) as K1. fold k in K1. pose proof eps_pos as Hp.
    assert (B1 : Rabs (val T - b) <= (k - 1) * a + a + Rabs b).
    { replace (val T - b) with ((val T + s) + (- s - b)) by ring. eapply Rle_trans; [apply Rabs_triang|].
      assert (Rabs (- s - b) <= Rabs s + Rabs b) by (eapply Rle_trans; [apply Rabs_triang|rewrite !Rabs_Ropp; lra]). lra. }
    assert (B2 : Rabs (v + (s + b)) <= Rabs (v - (val T - b)) + Rabs (val T + s)).
    { replace (v + (s + b)) with ((v - (val T - b)) + (val T + s)) by ring. apply Rabs_triang. }
    assert (B3 : eps64 * Rabs (val T - b) <= eps64 * ((k - 1) * a + a + Rabs b)) by (apply Rmult_le_compat_l; lra).
    assert (B4 : 0 <= (k - 1) * Rabs b) by (apply Rmult_le_pos; [lra|apply Rabs_pos]).
    assert (B5 : 0 <= eps64 * ((k - 1) * Rabs b)) by (apply Rmult_le_pos; lra).
    replace (q64 * k) with (k + eps64 * k) by (unfold q64; ring). lra.
Qed.
End Approx.
