(** Proof of the property of [PropsCeil.v]: [std::ceil(Real(n) / v)] in binary64 is the exact ceiling.
    Flocq supplies the theory of rounding; the lemmas [*_equiv] connect its operations to the standard
    library's [SpecFloat], of which [SFA] consists (Flocq proves them only for primitive floats). *)
From Coq Require Import ZArith Reals Bool Lia Lra Floats.SpecFloat.
From Flocq Require Import Core.Core IEEE754.BinarySingleNaN.
Require Import Flocq.Prop.Relative.
From Verif Require Import Arith Mesh.
Open Scope Z_scope.

Local Notation prec := 53%Z.
Local Notation emax := 1024%Z.
Local Lemma Hp : Prec_gt_0 prec. Proof. reflexivity. Qed.
Local Lemma Hm : Prec_lt_emax prec emax. Proof. reflexivity. Qed.
Local Existing Instance Hp.
Local Existing Instance Hm.
Local Notation bin := (binary_float prec emax).

Lemma choice_equiv s m l : round_nearest_even m l = choice_mode mode_NE s m l.
Proof. destruct l as [|[]]; try reflexivity. cbn. unfold Round.cond_incr. now destruct (Z.even m). Qed.
Lemma round_aux_equiv sx mx ex lx :
  SpecFloat.binary_round_aux prec emax sx mx ex lx = BinarySingleNaN.binary_round_aux prec emax mode_NE sx mx ex lx.
Proof.
  unfold SpecFloat.binary_round_aux, BinarySingleNaN.binary_round_aux.
  destruct (shr_fexp _ _ _ _ _) as [mrs' e']. now rewrite (choice_equiv sx).
Qed.
Lemma round_equiv s m e :
  SpecFloat.binary_round prec emax s m e = BinarySingleNaN.binary_round prec emax mode_NE s m e.
Proof.
  unfold SpecFloat.binary_round, BinarySingleNaN.binary_round, shl_align_fexp.
  destruct (shl_align _ _ _) as [mz ez]. apply round_aux_equiv.
Qed.
Lemma normalize_equiv m e szero :
  SpecFloat.binary_normalize prec emax m e szero
  = B2SF (BinarySingleNaN.binary_normalize prec emax Hp Hm mode_NE m e szero).
Proof. destruct m; cbn; [reflexivity| |]; rewrite B2SF_SF2B; apply round_equiv. Qed.
Lemma div_equiv (x y : bin) : SFdiv prec emax (B2SF x) (B2SF y) = B2SF (Bdiv mode_NE x y).
Proof.
  destruct x as [sx|sx| |sx mx ex Bx], y as [sy|sy| |sy my ey By]; try reflexivity.
  cbn. rewrite B2SF_SF2B. destruct (SFdiv_core_binary _ _ _ _ _ _) as [[mz ez] lz]. apply round_aux_equiv.
Qed.

(** An integer below 2^53 is converted exactly. *)
Definition ofZ (z : Z) : bin := BinarySingleNaN.binary_normalize prec emax Hp Hm mode_NE z 0 false.
Lemma ofZ_exact z : Z.abs z < 2 ^ 53 -> B2R (ofZ z) = IZR z /\ is_finite (ofZ z) = true.
Proof.
  intros Hz. pose proof (binary_normalize_correct prec emax Hp Hm mode_NE z 0 false) as H. cbv zeta in H.
  assert (E : F2R (Float radix2 z 0) = IZR z) by (unfold F2R; cbn; lra).
  assert (G : generic_format radix2 (SpecFloat.fexp prec emax) (IZR z)).
  { rewrite <- E. apply generic_format_FLT with (emin := (SpecFloat.emin prec emax)) (prec := prec).
    exists (Float radix2 z 0); [reflexivity|exact Hz|cbn; lia]. }
  rewrite E in H. rewrite (round_generic radix2 (SpecFloat.fexp prec emax) (round_mode mode_NE) (IZR z) G) in H.
  rewrite Rlt_bool_true in H; [unfold ofZ; tauto|].
  rewrite <- abs_IZR. change (bpow radix2 emax) with (IZR (2 ^ 1024)). apply IZR_lt.
  apply Z.lt_trans with (2 ^ 53); [exact Hz|]. now apply Z.pow_lt_mono_r.
Qed.

(** [std::ceil] followed by the conversion to an integer, exactly; [None] for infinities and NaN. *)
Definition sf_ceil (x : spec_float) : option Z :=
  match x with
  | S754_zero _ => Some 0
  | S754_finite s m e =>
      let z := if s then Z.neg m else Z.pos m in
      Some (if 0 <=? e then z * 2 ^ e else zceil z (2 ^ (- e)))
  | _ => None
  end.

Lemma zceil_lt n v : 0 < v -> n <= zceil n v * v < n + v.
Proof.
  intros Hv. unfold zceil. pose proof (Z.div_mod (- n) v ltac:(lia)). pose proof (Z.mod_pos_bound (- n) v Hv). nia.
Qed.
Lemma Zceil_zceil n v : 0 < v -> Zceil (IZR n / IZR v) = zceil n v.
Proof.
  intros Hv. assert (V : (0 < IZR v)%R) by (apply IZR_lt; lia). pose proof (zceil_lt n v Hv) as [A B].
  apply Zceil_imp. split.
  - apply Rmult_lt_reg_r with (IZR v); [exact V|]. unfold Rdiv. rewrite Rmult_assoc, Rinv_l, Rmult_1_r by lra.
    rewrite <- mult_IZR. apply IZR_lt. lia.
  - apply Rmult_le_reg_r with (IZR v); [exact V|]. unfold Rdiv. rewrite Rmult_assoc, Rinv_l, Rmult_1_r by lra.
    rewrite <- mult_IZR. apply IZR_le. lia.
Qed.
Lemma sf_ceil_B (x : bin) : is_finite x = true -> sf_ceil (B2SF x) = Some (Zceil (B2R x)).
Proof.
  destruct x as [s|s| |s m e B]; try discriminate; intros _.
  - cbn. f_equal. symmetry. apply (Zceil_IZR 0).
  - cbn [B2SF sf_ceil B2R]. f_equal. unfold F2R. cbn [Fnum Fexp].
    replace (cond_Zopp s (Z.pos m)) with (if s then Z.neg m else Z.pos m) by (destruct s; reflexivity).
    set (z := if s then Z.neg m else Z.pos m). destruct (Z.leb_spec 0 e).
    + rewrite <- IZR_Zpower by lia. rewrite <- mult_IZR, Zceil_IZR. reflexivity.
    + rewrite <- Zceil_zceil by (apply Z.pow_pos_nonneg; lia). f_equal. unfold Rdiv. f_equal.
      symmetry. transitivity (/ bpow radix2 (- e))%R; [rewrite <- bpow_opp; f_equal; lia|f_equal; now rewrite <- IZR_Zpower by lia].
Qed.

Lemma C15_binary64_ceiling_proof :
  forall (c s : spec_float -> spec_float) (p : spec_float) (n v : Z),
  - 2 ^ 31 <= n < 2 ^ 31 -> 0 < v < 2 ^ 31 ->
  sf_ceil (@fdiv (SFA c s p) (@fofZ (SFA c s p) n) (@fofZ (SFA c s p) v)) = Some (zceil n v).
Proof.
  intros c s p n v Hn Hv. cbn [fdiv fofZ SFA]. rewrite !normalize_equiv. fold (ofZ n) (ofZ v). rewrite div_equiv.
  destruct (ofZ_exact n) as [N1 N2]; [lia|]. destruct (ofZ_exact v) as [V1 V2]; [lia|].
  assert (V0 : (0 < IZR v)%R) by (apply IZR_lt; lia).
  pose proof (Bdiv_correct prec emax Hp Hm mode_NE (ofZ n) (ofZ v)) as H. rewrite V1 in H. specialize (H ltac:(lra)).
  rewrite N1 in H. set (x := (IZR n / IZR v)%R) in *.
  set (r := round radix2 (SpecFloat.fexp prec emax) (round_mode mode_NE) x) in *.
  pose proof (zceil_lt n v ltac:(lia)) as [Q1 Q2]. set (q := zceil n v) in *.
  assert (Qb : - 2 ^ 31 <= q <= 2 ^ 31) by nia.
  assert (G : forall z, - 2 ^ 31 <= z <= 2 ^ 31 -> generic_format radix2 (SpecFloat.fexp prec emax) (IZR z)).
  { intros z Hz. destruct (ofZ_exact z) as [<- _]; [lia|]. apply generic_format_B2R. }
  assert (Xm : (x * IZR v = IZR n)%R) by (unfold x, Rdiv; rewrite Rmult_assoc, Rinv_l by lra; ring).
  assert (Xq : (x <= IZR q)%R).
  { apply Rmult_le_reg_r with (IZR v); [exact V0|]. rewrite Xm, <- mult_IZR. now apply IZR_le. }
  assert (Xl : (IZR (q - 1) + / IZR v <= x)%R).
  { apply Rmult_le_reg_r with (IZR v); [exact V0|]. rewrite Xm, Rmult_plus_distr_r, Rinv_l, <- mult_IZR, <- plus_IZR by lra.
    apply IZR_le. lia. }
  assert (Rq : (r <= IZR q)%R) by (apply round_le_generic; [apply (fexp_correct prec emax Hp)|apply valid_rnd_round_mode|now apply G|exact Xq]).
  assert (Rl : (IZR (q - 1) < r)%R).
  { destruct (Z.eq_dec n 0) as [->|N0].
    - assert (x = 0%R) by (unfold x; lra). unfold r. rewrite H0, round_0 by apply valid_rnd_round_mode. apply IZR_lt. nia.
    - assert (Xb : (bpow radix2 (SpecFloat.emin prec emax + prec - 1) <= Rabs x)%R).
      { apply Rle_trans with (bpow radix2 (-31)); [apply bpow_le; cbn; lia|].
        unfold x, Rdiv. rewrite Rabs_mult, Rabs_inv, (Rabs_pos_eq (IZR v)), <- abs_IZR by lra.
        apply Rmult_le_reg_r with (IZR v); [exact V0|]. rewrite Rmult_assoc, Rinv_l, Rmult_1_r by lra.
        apply Rle_trans with (bpow radix2 (-31) * bpow radix2 31)%R.
        - apply Rmult_le_compat_l; [apply bpow_ge_0|]. change (bpow radix2 31) with (IZR (2 ^ 31)). apply IZR_le. lia.
        - rewrite <- bpow_plus. apply (IZR_le 1). lia. }
      pose proof (relative_error_N_FLT radix2 (SpecFloat.emin prec emax) prec Hp (fun x => negb (Z.even x)) x Xb) as E.
      change (Rabs (r - x) <= / 2 * bpow radix2 (- prec + 1) * Rabs x)%R in E.
      assert (Xa : (Rabs x <= bpow radix2 31 * / IZR v)%R).
      { unfold x, Rdiv. rewrite Rabs_mult, Rabs_inv, (Rabs_pos_eq (IZR v)), <- abs_IZR by lra.
        apply Rmult_le_compat_r; [apply Rlt_le, Rinv_0_lt_compat, V0|]. change (bpow radix2 31) with (IZR (2 ^ 31)). apply IZR_le. lia. }
      assert (I0 : (0 < / IZR v)%R) by now apply Rinv_0_lt_compat.
      assert (Eb : (Rabs (r - x) <= / 2 * / IZR v)%R).
      { eapply Rle_trans; [exact E|]. rewrite Rmult_assoc. apply Rmult_le_compat_l; [lra|].
        eapply Rle_trans; [apply Rmult_le_compat_l; [apply bpow_ge_0|exact Xa]|]. rewrite <- Rmult_assoc, <- bpow_plus.
        rewrite <- (Rmult_1_l (/ IZR v)) at 2. apply Rmult_le_compat_r; [lra|]. apply (bpow_le radix2 (- prec + 1 + 31) 0). lia. }
      apply Rabs_le_inv in Eb. lra. }
  assert (Fin : (Rabs r < bpow radix2 emax)%R).
  { apply Rle_lt_trans with (IZR (2 ^ 31 + 1)).
    - apply Rabs_le. split; [rewrite <- opp_IZR; apply Rlt_le, Rle_lt_trans with (IZR (q - 1)); [apply IZR_le; lia|exact Rl]|].
      eapply Rle_trans; [exact Rq|]. apply IZR_le. lia.
    - apply Rlt_trans with (bpow radix2 32); [|apply bpow_lt; lia]. change (bpow radix2 32) with (IZR (2 ^ 32)). apply IZR_lt. lia. }
  rewrite Rlt_bool_true in H by exact Fin. destruct H as (E1 & E2 & _). rewrite sf_ceil_B by congruence. f_equal. rewrite E1.
  apply Zceil_imp. split; assumption.
Qed.
