(** The vector Laplacian applied twice: what the hyperviscous term computes. *)
From Coq Require Import ZArith Reals Lia Lra.
From Verif Require Import Deriv Stencil Taylor Accur Accur2 Accur3 Accur4 Waves.
Open Scope R_scope.

(** ** The Laplacian as a linear operator on edge fields *)
Lemma Vl_ext d G H q x y : (forall q x y, (0 <= q < 3)%Z -> G q x y = H q x y) -> Vl d G q x y = Vl d H q x y.
Proof. intros E. unfold Vl, Gr, Rg, Ou, Vo, Df. rewrite !E by lia. reflexivity. Qed.
Lemma Vl_plus d G H q x y : d <> 0 -> Vl d (fun q x y => G q x y + H q x y) q x y = Vl d G q x y + Vl d H q x y.
Proof. intros Hd. pose proof S3pos. unfold Vl, Gr, Rg, Ou, Vo, Df. field. repeat split; lra. Qed.
Lemma Vl_scal d c G q x y : d <> 0 -> Vl d (fun q x y => c * G q x y) q x y = c * Vl d G q x y.
Proof. intros Hd. pose proof S3pos. unfold Vl, Gr, Rg, Ou, Vo, Df. field. repeat split; lra. Qed.

Lemma abs_div_pos a b : 0 < b -> Rabs (a / b) = Rabs a / b.
Proof. intros H. unfold Rdiv. rewrite Rabs_mult, Rabs_inv, (Rabs_pos_eq b); lra. Qed.
Lemma abs_mul_pos a b : 0 < a -> Rabs (a * b) = a * Rabs b.
Proof. intros H. rewrite Rabs_mult, (Rabs_pos_eq a); lra. Qed.
Lemma Rabs_le_inv a b : Rabs a <= b -> - b <= a <= b.
Proof. unfold Rabs. destruct (Rcase_abs a); lra. Qed.
Lemma S3le : sqrt 3 <= 2. Proof. pose proof S3. pose proof S3pos. nra. Qed.
Lemma Ou_bound d (G : Z -> fn2) M x y : 0 < d -> (forall q x y, (0 <= q < 3)%Z -> Rabs (G q x y) <= M) -> Rabs (Ou d G x y) <= 4 * M / d.
Proof.
  intros Hd B. unfold Ou, Df. rewrite abs_mul_pos by (apply Rdiv_lt_0_compat; lra).
  apply Rle_trans with (2 / (3 * d) * (6 * M)); [|right; field; lra].
  apply Rmult_le_compat_l; [left; apply Rdiv_lt_0_compat; lra|].
  pose proof (B 0%Z (x + d / 2 * cq 0) (y + d / 2 * sq 0) ltac:(lia)) as B1. pose proof (B 0%Z (x - d / 2 * cq 0) (y - d / 2 * sq 0) ltac:(lia)) as B2.
  pose proof (B 1%Z (x + d / 2 * cq 1) (y + d / 2 * sq 1) ltac:(lia)) as B3. pose proof (B 1%Z (x - d / 2 * cq 1) (y - d / 2 * sq 1) ltac:(lia)) as B4.
  pose proof (B 2%Z (x + d / 2 * cq 2) (y + d / 2 * sq 2) ltac:(lia)) as B5. pose proof (B 2%Z (x - d / 2 * cq 2) (y - d / 2 * sq 2) ltac:(lia)) as B6.
  apply Rabs_le. apply Rabs_le_inv in B1, B2, B3, B4, B5, B6. lra.
Qed.
Lemma sg_bound p a : Rabs (sg p * a) = Rabs a.
Proof. destruct (sg_cases p) as [-> | ->]; [f_equal; ring|]. rewrite <- Rabs_Ropp. f_equal. ring. Qed.
Lemma Vo_bound d (G : Z -> fn2) M p x y : 0 < d -> (forall q x y, (0 <= q < 3)%Z -> Rabs (G q x y) <= M) -> Rabs (Vo d G p x y) <= 12 * M / (sqrt 3 * d).
Proof.
  intros Hd B. pose proof S3pos as H3. assert (0 < sqrt 3 * d) by (now apply Rmult_lt_0_compat).
  unfold Vo. rewrite abs_mul_pos, sg_bound by (apply Rdiv_lt_0_compat; lra).
  apply Rle_trans with (4 / (sqrt 3 * d) * (3 * M)); [|right; field; split; lra].
  apply Rmult_le_compat_l; [left; apply Rdiv_lt_0_compat; lra|].
  match goal with |- Rabs (?a + ?b - ?c) <= _ => assert (B1 : Rabs a <= M) by (apply B; lia); assert (B2 : Rabs b <= M) by (apply B; lia); assert (B3 : Rabs c <= M) by (apply B; lia) end.
  apply Rabs_le. apply Rabs_le_inv in B1, B2, B3. lra.
Qed.
Lemma Vl_bound d (G : Z -> fn2) M q x y : 0 < d -> (forall q x y, (0 <= q < 3)%Z -> Rabs (G q x y) <= M) -> Rabs (Vl d G q x y) <= 32 * M / (d * d).
Proof.
  intros Hd B. pose proof S3pos as H3. pose proof S3 as S3e. assert (0 < d * sqrt 3 / 3) by (apply Rdiv_lt_0_compat; [now apply Rmult_lt_0_compat|lra]).
  assert (E1 : Rabs (Gr d (Ou d G) q x y) <= 8 * M / (d * d)).
  { unfold Gr. rewrite abs_div_pos by lra. apply Rle_trans with ((4 * M / d + 4 * M / d) / d); [|right; field; lra].
    apply Rmult_le_compat_r; [left; now apply Rinv_0_lt_compat|].
    eapply Rle_trans; [apply Rabs_triang|]. rewrite Rabs_Ropp. apply Rplus_le_compat; now apply Ou_bound. }
  assert (E2 : Rabs (Rg d (Vo d G) q x y) <= 24 * M / (d * d)).
  { unfold Rg. rewrite abs_div_pos by lra. apply Rle_trans with ((12 * M / (sqrt 3 * d) + 12 * M / (sqrt 3 * d)) / (d * sqrt 3 / 3)).
    - apply Rmult_le_compat_r; [left; now apply Rinv_0_lt_compat|].
      eapply Rle_trans; [apply Rabs_triang|]. rewrite Rabs_Ropp. apply Rplus_le_compat; now apply Vo_bound.
    - right. transitivity (72 * M / (sqrt 3 * sqrt 3) / (d * d)); [field; split; lra|]. rewrite S3e. field. lra. }
  unfold Vl. eapply Rle_trans; [apply Rabs_triang|]. rewrite Rabs_Ropp.
  replace (32 * M / (d * d)) with (8 * M / (d * d) + 24 * M / (d * d)) by (field; lra). now apply Rplus_le_compat.
Qed.

(** A field whose sign alternates with the edge direction is seen by the curls at its full strength. *)
Section Alt.
Context (g gx gy : fn2) (Hx : is_dx g gx) (Hy : is_dy g gy) (Sg : smooth 1 g).
Let G : Z -> fn2 := fun q x y => sgq q * g x y.
Lemma sgq_abs q a : Rabs (sgq q * a) = Rabs a.
Proof. unfold sgq. apply sg_bound. Qed.
Lemma alt_Vl : exists C, 0 <= C /\ forall d q x y, 0 < d -> (0 <= q < 3)%Z ->
  Rabs (Vl d G q x y + 24 / (d * d) * (sgq q * g x y)) <= C / d.
Proof using All.
  destruct (lip2 g gx gy Hx Hy) as (L & HL & B).
  { eapply smooth_bounded, smooth_dx; eauto. } { eapply smooth_bounded, smooth_dy; eauto. }
  pose proof S3pos as H3. pose proof S3 as S3e. pose proof S3le as H3'.
  exists (104 * L). split; [lra|]. intros d q x y Hd Hq.
  assert (HB : forall x y x' y', - d <= x' - x <= d -> - d <= y' - y <= d -> Rabs (g x' y' - g x y) <= 2 * L * d).
  { intros a b a' b' H1 H2. eapply Rle_trans; [apply B|]. apply Rabs_le in H1, H2. nra. }
  assert (Hcq : forall q, -1 <= cq q <= 1) by (intros r; unfold cq; destruct (r =? 0)%Z, (r =? 1)%Z; lra).
  assert (Hsq : forall q, -1 <= sq q <= 1) by (intros r; unfold sq; destruct (r =? 0)%Z; lra).
  assert (E1 : forall x y, Rabs (Ou d G x y) <= 4 * L).
  { intros a b. unfold Ou, Df, G. rewrite abs_mul_pos by (apply Rdiv_lt_0_compat; lra).
    apply Rle_trans with (2 / (3 * d) * (6 * (L * d))); [|right; field; lra].
    apply Rmult_le_compat_l; [left; apply Rdiv_lt_0_compat; lra|].
    assert (D : forall r, Rabs (sgq r * g (a + d / 2 * cq r) (b + d / 2 * sq r) - sgq r * g (a - d / 2 * cq r) (b - d / 2 * sq r)) <= 2 * (L * d)).
    { intros r. rewrite <- Rmult_minus_distr_l, sgq_abs. replace (2 * (L * d)) with (2 * L * d) by ring.
      apply HB; pose proof (Hcq r); pose proof (Hsq r); nra. }
    pose proof (D 0%Z) as D0. pose proof (D 1%Z) as D1. pose proof (D 2%Z) as D2.
    apply Rabs_le. apply Rabs_le_inv in D0, D1, D2. lra. }
  assert (E2 : Rabs (Gr d (Ou d G) q x y) <= 8 * L / d).
  { unfold Gr. rewrite abs_div_pos by lra. apply Rmult_le_compat_r; [left; now apply Rinv_0_lt_compat|].
    eapply Rle_trans; [apply Rabs_triang|]. rewrite Rabs_Ropp.
    match goal with |- Rabs ?a + Rabs ?b <= _ => assert (Rabs a <= 4 * L) by apply E1; assert (Rabs b <= 4 * L) by apply E1 end. lra. }
  assert (E3 : forall p x y, Rabs (Vo d G p x y - 4 / (sqrt 3 * d) * (sg p * (3 * g x y))) <= 4 / (sqrt 3 * d) * (6 * (L * d))).
  { intros p a b. unfold Vo, G.
    assert (Hsd : 0 < sqrt 3 * d) by (now apply Rmult_lt_0_compat).
    rewrite <- Rmult_minus_distr_l, <- Rmult_minus_distr_l, abs_mul_pos, sg_bound by (apply Rdiv_lt_0_compat; lra).
    apply Rmult_le_compat_l; [left; apply Rdiv_lt_0_compat; lra|].
    change (sgq 0) with 1. change (sgq 1) with (-1). change (sgq 2) with 1.
    assert (Hs : -1 <= sg p <= 1) by (destruct (sg_cases p) as [-> | ->]; lra).
    assert (D0 : Rabs (g a (b - sg p * (d * sqrt 3 / 6)) - g a b) <= 2 * L * d) by (apply HB; destruct (sg_cases p) as [Es | Es]; rewrite ?Es; nra).
    assert (D1 : Rabs (g (a + sg p * (d / 4)) (b + sg p * (d * sqrt 3 / 12)) - g a b) <= 2 * L * d) by (apply HB; destruct (sg_cases p) as [Es | Es]; rewrite ?Es; nra).
    assert (D2 : Rabs (g (a - sg p * (d / 4)) (b + sg p * (d * sqrt 3 / 12)) - g a b) <= 2 * L * d) by (apply HB; destruct (sg_cases p) as [Es | Es]; rewrite ?Es; nra).
    apply Rabs_le. apply Rabs_le_inv in D0, D1, D2. lra. }
  assert (E4 : Rabs (Rg d (Vo d G) q x y - 24 / (d * d) * (sgq q * g x y)) <= 96 * L / d).
  { unfold Rg.
    set (x1 := x - d * sqrt 3 / 6 * sq q). set (y1 := y + d * sqrt 3 / 6 * cq q).
    set (x0 := x + d * sqrt 3 / 6 * sq q). set (y0 := y - d * sqrt 3 / 6 * cq q).
    assert (He : 0 <= d * sqrt 3 / 6 <= d) by nra.
    pose proof (E3 (pv1 q) x1 y1) as F1. pose proof (E3 (pv0 q) x0 y0) as F0.
    assert (K1 : Rabs (g x1 y1 - g x y) <= 2 * L * d) by (apply HB; unfold x1, y1; pose proof (Hcq q); pose proof (Hsq q); generalize dependent (d * sqrt 3 / 6); intros; nra).
    assert (K0 : Rabs (g x0 y0 - g x y) <= 2 * L * d) by (apply HB; unfold x0, y0; pose proof (Hcq q); pose proof (Hsq q); generalize dependent (d * sqrt 3 / 6); intros; nra).
    assert (S1 : sg (pv1 q) = sgq q) by reflexivity.
    assert (S0 : sg (pv0 q) = - sgq q) by (unfold sgq, pv0, pv1; destruct (q =? 1)%Z; unfold sg; cbn [Z.eqb]; lra).
    rewrite S1 in F1. rewrite S0 in F0.
    set (V1 := Vo d G (pv1 q) x1 y1) in *. set (V0 := Vo d G (pv0 q) x0 y0) in *.
    assert (Q : (V1 - V0) / (d * sqrt 3 / 3) - 24 / (d * d) * (sgq q * g x y)
      = sqrt 3 / d * (V1 - 4 / (sqrt 3 * d) * (sgq q * (3 * g x1 y1))) - sqrt 3 / d * (V0 - 4 / (sqrt 3 * d) * (- sgq q * (3 * g x0 y0)))
        + 12 / (d * d) * (sgq q * (g x1 y1 - g x y)) + 12 / (d * d) * (sgq q * (g x0 y0 - g x y))).
    { replace (d * sqrt 3 / 3) with (d / sqrt 3) by (apply (Rmult_eq_reg_r (3 * sqrt 3)); [|lra]; transitivity (3 * d); [field; lra|]; rewrite <- S3e at 1; field).
      field. split; lra. }
    assert (T : forall a b c e ra rb rc re, Rabs a <= ra -> Rabs b <= rb -> Rabs c <= rc -> Rabs e <= re -> Rabs (a - b + c + e) <= ra + rb + rc + re).
    { intros a b c e ra rb rc re A1 A2 A3 A4. apply Rabs_le. apply Rabs_le_inv in A1, A2, A3, A4. lra. }
    rewrite Q.
    replace (96 * L / d) with (sqrt 3 / d * (4 / (sqrt 3 * d) * (6 * (L * d))) + sqrt 3 / d * (4 / (sqrt 3 * d) * (6 * (L * d))) + 12 / (d * d) * (2 * L * d) + 12 / (d * d) * (2 * L * d)) by (field; split; lra).
    assert (Hdd : 0 < d * d) by (now apply Rmult_lt_0_compat).
    apply T; (rewrite abs_mul_pos, ?sgq_abs by (apply Rdiv_lt_0_compat; lra));
      (apply Rmult_le_compat_l; [left; apply Rdiv_lt_0_compat; lra|assumption]). }
  unfold Vl.
  replace (Gr d (Ou d G) q x y - Rg d (Vo d G) q x y + 24 / (d * d) * (sgq q * g x y))
    with (Gr d (Ou d G) q x y - (Rg d (Vo d G) q x y - 24 / (d * d) * (sgq q * g x y))) by ring.
  eapply Rle_trans; [apply Rabs_triang|]. rewrite Rabs_Ropp.
  replace (104 * L / d) with (8 * L / d + 96 * L / d) by (field; lra). now apply Rplus_le_compat.
Qed.
End Alt.

(** ** A plane wave *)
Section Wave2.
Context (k d : R) (Hd : d <> 0).
Let t := k * d.
(** Amplitudes [a] on the edges facing the x direction, [b] and [-b] on the two others. *)
Definition amp (a b : R) : Z -> fn2 := fun q x _ => (if (q =? 0)%Z then a else if (q =? 1)%Z then b else - b) * cos (k * x).
Definition ampP (a b : R) := a * sin (k * d / 2) + 2 * b * sin (k * d / 4).
Definition ampQ (a b : R) := a - 2 * b * cos (k * d / 4).
Definition ampA (a b : R) := - ((8 / 3 * sin (k * d / 2) * ampP a b + 8 * ampQ a b) / (d * d)).
Definition ampB (a b : R) := - ((8 / 3 * sin (k * d / 4) * ampP a b - 8 * cos (k * d / 4) * ampQ a b) / (d * d)).
Lemma aOu a b x y : Ou d (amp a b) x y = - (4 / (3 * d)) * sin (k * x) * ampP a b.
Proof using Hd.
  unfold Ou, Df, amp, ampP. qs.
  replace (k * (x + d / 2 * 1)) with (k * x + k * d / 2) by field. replace (k * (x - d / 2 * 1)) with (k * x - k * d / 2) by field.
  replace (k * (x + d / 2 * (1 / 2))) with (k * x + k * d / 4) by field. replace (k * (x - d / 2 * (1 / 2))) with (k * x - k * d / 4) by field.
  replace (k * (x + d / 2 * - (1 / 2))) with (k * x - k * d / 4) by field. replace (k * (x - d / 2 * - (1 / 2))) with (k * x + k * d / 4) by field.
  rewrite !cos_plus, !cos_minus. field. exact Hd.
Qed.
Lemma aVo a b p x y : Vo d (amp a b) p x y = 4 / (sqrt 3 * d) * sg p * cos (k * x) * ampQ a b.
Proof using Hd.
  unfold Vo, amp, ampQ. cbn [Z.eqb Pos.eqb]. pose proof S3pos.
  replace (k * (x + sg p * (d / 4))) with (k * x + sg p * (k * d / 4)) by field. replace (k * (x - sg p * (d / 4))) with (k * x - sg p * (k * d / 4)) by field.
  rewrite !cos_plus, !cos_minus.
  assert (E : cos (sg p * (k * d / 4)) = cos (k * d / 4)).
  { unfold sg. destruct (p =? 0)%Z; [f_equal; ring|]. rewrite <- cos_neg. f_equal. ring. }
  rewrite E. field. split; (exact Hd || lra).
Qed.
Lemma aVl a b q x y : (0 <= q < 3)%Z -> Vl d (amp a b) q x y = amp (ampA a b) (ampB a b) q x y.
Proof using Hd.
  intros Hq. pose proof S3pos. pose proof S3 as S3e. unfold Vl, Gr, Rg. rewrite !aOu, !aVo.
  assert (E3 : forall z, 24 / (sqrt 3 * sqrt 3) * z = 8 * z) by (intros; rewrite S3e; field).
  assert (E4 : forall z, 12 / (sqrt 3 * sqrt 3) * z = 4 * z) by (intros; rewrite S3e; field).
  assert (E5 : d * sqrt 3 / 6 * (sqrt 3 / 2) = d / 4) by (transitivity (d * (sqrt 3 * sqrt 3) / 12); [field|rewrite S3e; field]).
  assert (q = 0 \/ q = 1 \/ q = 2)%Z as [-> | [-> | ->]] by lia; unfold amp, ampA, ampB, pv0, pv1, sg; qs; generalize (ampP a b) (ampQ a b); intros P Q; rewrite ?E5.
  - replace (k * (x + d / 2 * 1)) with (k * x + k * d / 2) by field. replace (k * (x - d / 2 * 1)) with (k * x - k * d / 2) by field.
    replace (k * (x - d * sqrt 3 / 6 * 0)) with (k * x) by (unfold Rdiv; ring). replace (k * (x + d * sqrt 3 / 6 * 0)) with (k * x) by (unfold Rdiv; ring).
    rewrite sin_plus, sin_minus.
    transitivity (- (8 / 3 * sin (k * d / 2) * P / (d * d)) * cos (k * x) - 24 / (sqrt 3 * sqrt 3) * (Q / (d * d) * cos (k * x))).
    + field. split; (exact Hd || lra).
    + rewrite E3. field. exact Hd.
  - replace (k * (x + d / 2 * (1 / 2))) with (k * x + k * d / 4) by field. replace (k * (x - d / 2 * (1 / 2))) with (k * x - k * d / 4) by field.
    replace (k * (x + d / 4)) with (k * x + k * d / 4) by field. replace (k * (x - d / 4)) with (k * x - k * d / 4) by field.
    rewrite sin_plus, sin_minus, cos_plus, cos_minus.
    transitivity (- (8 / 3 * sin (k * d / 4) * P / (d * d)) * cos (k * x) + 24 / (sqrt 3 * sqrt 3) * (cos (k * d / 4) * Q / (d * d) * cos (k * x))).
    + field. split; (exact Hd || lra).
    + rewrite E3. field. exact Hd.
  - replace (k * (x + d / 2 * - (1 / 2))) with (k * x - k * d / 4) by field. replace (k * (x - d / 2 * - (1 / 2))) with (k * x + k * d / 4) by field.
    replace (k * (x + d / 4)) with (k * x + k * d / 4) by field. replace (k * (x - d / 4)) with (k * x - k * d / 4) by field.
    rewrite sin_plus, sin_minus, cos_plus, cos_minus.
    transitivity (8 / 3 * sin (k * d / 4) * P / (d * d) * cos (k * x) - 24 / (sqrt 3 * sqrt 3) * (cos (k * d / 4) * Q / (d * d) * cos (k * x))).
    + field. split; (exact Hd || lra).
    + rewrite E3. field. exact Hd.
Qed.
Lemma half4 : sin (k * d / 2) = 2 * sin (k * d / 4) * cos (k * d / 4).
Proof. rewrite <- sin_2a. f_equal. field. Qed.
(** Twice the Laplacian of [(cos (k x), 0)]. *)
Lemma aVl2 x y : Vl d (Vl d (nvec (fun x _ => cos (k * x)) (fun _ _ => 0))) 0 x y =
  (64 / 9 * sin (k * d / 2) * (sin (k * d / 2) * sin (k * d / 2) + 2 * (sin (k * d / 4) * sin (k * d / 4))) * (sin (k * d / 2) + sin (k * d / 4))
   + 64 * (1 + 2 * (cos (k * d / 4) * cos (k * d / 4))) * (1 - cos (k * d / 4))) / (d * d * (d * d)) * cos (k * x).
Proof using Hd.
  rewrite (Vl_ext d _ (amp (ampA 1 (1 / 2)) (ampB 1 (1 / 2)))).
  2:{ intros q a b Hq. rewrite <- aVl by exact Hq. apply Vl_ext. intros r a' b' Hr. unfold nvec, amp.
      assert (r = 0 \/ r = 1 \/ r = 2)%Z as [-> | [-> | ->]] by lia; qs; field. }
  rewrite aVl by lia. unfold amp. cbn [Z.eqb]. f_equal. unfold ampA, ampB, ampP, ampQ. rewrite half4. unfold ampP, ampQ. field. exact Hd.
Qed.
End Wave2.
Lemma far_too_large t : 0 < t -> t <= 2 / 5 ->
  16 / 3 * (t * t) <= 64 / 9 * sin (t / 2) * (sin (t / 2) * sin (t / 2) + 2 * (sin (t / 4) * sin (t / 4))) * (sin (t / 2) + sin (t / 4))
   + 64 * (1 + 2 * (cos (t / 4) * cos (t / 4))) * (1 - cos (t / 4)).
Proof.
  intros H0 H1.
  assert (E : cos (t / 4) = 1 - 2 * (sin (t / 8) * sin (t / 8))).
  { replace (t / 4) with (2 * (t / 8)) by field. rewrite cos_2a_sin. ring. }
  pose proof (sin_ge3 (t / 2) ltac:(lra)) as A. pose proof (sin_ge3 (t / 4) ltac:(lra)) as B. pose proof (sin_ge3 (t / 8) ltac:(lra)) as D.
  assert (T : t * t <= 4 / 25) by nra.
  assert (A' : 0 <= sin (t / 2)) by nra. assert (B' : 0 <= sin (t / 4)) by nra.
  assert (D' : 99 / 100 * (t / 8) <= sin (t / 8)) by nra.
  assert (Du : sin (t / 8) <= 1 / 20).
  { apply Rle_trans with (t / 8); [|lra]. left. apply sin_lt_x. lra. }
  rewrite E. set (z := sin (t / 8)) in *.
  assert (P1 : (99 / 100 * (t / 8)) * (99 / 100 * (t / 8)) <= z * z) by (apply Rmult_le_compat; lra).
  assert (P2 : 0 <= z * z <= 1 / 400) by (split; nra).
  set (w := z * z) in *. clearbody w.
  assert (Q1 : 0 <= 64 / 9 * sin (t / 2) * (sin (t / 2) * sin (t / 2) + 2 * (sin (t / 4) * sin (t / 4))) * (sin (t / 2) + sin (t / 4))).
  { repeat first [apply Rmult_le_pos | apply Rplus_le_le_0_compat | lra]; apply Rle_0_sqr || lra. }
  assert (Q2 : 64 * (298 / 100) * (2 * w) <= 64 * (1 + 2 * ((1 - 2 * w) * (1 - 2 * w))) * (1 - (1 - 2 * w))).
  { replace (1 - (1 - 2 * w)) with (2 * w) by ring. apply Rmult_le_compat_r; [lra|]. nra. }
  nra.
Qed.
Lemma smooth_scal n c : forall f, smooth n f -> smooth n (fun x y => c * f x y).
Proof.
  induction n; intros f Hf; destruct Hf as [[M BM] Hf].
  all: split; [exists (Rabs c * M); intros; rewrite Rabs_mult; apply Rmult_le_compat_l; [apply Rabs_pos|apply BM]|].
  - exact I.
  - destruct Hf as (fx & fy & F1 & F2 & F3 & F4). exists (fun x y => c * fx x y), (fun x y => c * fy x y).
    split; [intros x y; apply D_cmult; auto|]. split; [intros x y; apply D_cmult; auto|]. split; apply IHn; auto.
Qed.
