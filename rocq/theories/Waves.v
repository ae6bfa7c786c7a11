(** Plane waves: fields with which the consistency theorems can be applied, and the exact value of the
    vector Laplacian on one of them. *)
From Coq Require Import ZArith Reals Lia Lra.
From Verif Require Import Deriv Stencil Taylor Accur Accur2 Sample.
Open Scope R_scope.

Definition wave (c a b p : R) : fn2 := fun x y => c * cos (a * x + b * y + p).
Lemma wave_dx c a b p : is_dx (wave c a b p) (wave (c * a) a b (p + PI / 2)).
Proof.
  intros x y. unfold wave. der. replace (a * x + b * y + (p + PI / 2)) with (PI / 2 + (a * x + b * y + p)) by ring.
  rewrite cos_sin. replace (PI / 2 + (PI / 2 + (a * x + b * y + p))) with (a * x + b * y + p + PI) by field. rewrite neg_sin. ring.
Qed.
Lemma wave_dy c a b p : is_dy (wave c a b p) (wave (c * b) a b (p + PI / 2)).
Proof.
  intros x y. unfold wave. der. replace (a * x + b * y + (p + PI / 2)) with (PI / 2 + (a * x + b * y + p)) by ring.
  rewrite cos_sin. replace (PI / 2 + (PI / 2 + (a * x + b * y + p))) with (a * x + b * y + p + PI) by field. rewrite neg_sin. ring.
Qed.
Lemma cos_le1 x : Rabs (cos x) <= 1. Proof. apply Rabs_le, COS_bound. Qed.
Lemma wave_bounded c a b p : bounded2 (wave c a b p).
Proof. exists (Rabs c). intros x y. unfold wave. rewrite Rabs_mult. pose proof (Rabs_pos c). pose proof (cos_le1 (a * x + b * y + p)). nra. Qed.
Lemma wave_smooth n : forall c a b p, smooth n (wave c a b p).
Proof.
  induction n; intros; (split; [apply wave_bounded|]); [exact I|].
  eexists _, _. split; [apply wave_dx|]. split; [apply wave_dy|]. split; apply IHn.
Qed.
Lemma smooth_const n : forall c, smooth n (fun _ _ => c).
Proof.
  induction n; intros c; (split; [exists (Rabs c); intros; lra|]); [exact I|].
  exists (fun _ _ => 0), (fun _ _ => 0). split; [intros x y; apply D_const|]. split; [intros x y; apply D_const|]. split; apply IHn.
Qed.
Lemma smooth_plus n : forall f g, smooth n f -> smooth n g -> smooth n (fun x y => f x y + g x y).
Proof.
  induction n; intros f g Hf Hg; destruct Hf as [[M BM] Hf], Hg as [[N BN] Hg].
  all: split; [exists (M + N); intros; eapply Rle_trans; [apply Rabs_triang|]; specialize (BM x y); specialize (BN x y); lra|].
  - exact I.
  - destruct Hf as (fx & fy & F1 & F2 & F3 & F4), Hg as (gx & gy & G1 & G2 & G3 & G4).
    exists (fun x y => fx x y + gx x y), (fun x y => fy x y + gy x y).
    split; [intros x y; apply D_plus; auto|]. split; [intros x y; apply D_plus; auto|]. split; apply IHn; auto.
Qed.
Lemma cos_Z x k : cos (x + IZR k * (2 * PI)) = cos x.
Proof.
  assert (HN : forall n x, cos (x + INR n * (2 * PI)) = cos x).
  { intros n z. rewrite <- (cos_period z n). f_equal. ring. }
  destruct (Z_le_gt_dec 0 k).
  - rewrite <- (Z2Nat.id k), <- INR_IZR_INZ by lia. apply HN.
  - rewrite <- (HN (Z.to_nat (- k)) (x + IZR k * (2 * PI))). rewrite INR_IZR_INZ, Z2Nat.id, opp_IZR by lia. f_equal. ring.
Qed.
Lemma wave_periodic c i j p px py : px <> 0 -> py <> 0 ->
  periodic px py (wave c (2 * PI * IZR i / px) (2 * PI * IZR j / py) p).
Proof.
  intros Hx Hy x y. unfold wave. split; f_equal.
  - replace (2 * PI * IZR i / px * (x + px) + 2 * PI * IZR j / py * y + p)
      with (2 * PI * IZR i / px * x + 2 * PI * IZR j / py * y + p + IZR i * (2 * PI)) by (field; auto). apply cos_Z.
  - replace (2 * PI * IZR i / px * x + 2 * PI * IZR j / py * (y + py) + p)
      with (2 * PI * IZR i / px * x + 2 * PI * IZR j / py * y + p + IZR j * (2 * PI)) by (field; auto). apply cos_Z.
Qed.

(** The vector Laplacian of [(cos (k x), 0)] on the edges whose normal is the x direction. *)
Section Shear.
Context (k d : R) (Hd : d <> 0).
Let W : fn2 := fun x _ => cos (k * x).
Let G : Z -> fn2 := nvec W (fun _ _ => 0).
Lemma wOu x y : Ou d G x y = - (4 / (3 * d)) * sin (k * x) * (sin (k * d / 2) + sin (k * d / 4)).
Proof.
  unfold Ou, Df, G, nvec, W. qs.
  replace (k * (x + d / 2 * 1)) with (k * x + k * d / 2) by field. replace (k * (x - d / 2 * 1)) with (k * x - k * d / 2) by field.
  replace (k * (x + d / 2 * (1 / 2))) with (k * x + k * d / 4) by field. replace (k * (x - d / 2 * (1 / 2))) with (k * x - k * d / 4) by field.
  replace (k * (x + d / 2 * - (1 / 2))) with (k * x - k * d / 4) by field. replace (k * (x - d / 2 * - (1 / 2))) with (k * x + k * d / 4) by field.
  rewrite !cos_plus, !cos_minus. field. exact Hd.
Qed.
Lemma wVo p x y : Vo d G p x y = 4 / (sqrt 3 * d) * sg p * cos (k * x) * (1 - cos (k * d / 4)).
Proof.
  unfold Vo, G, nvec, W. qs. pose proof S3pos.
  replace (k * (x + sg p * (d / 4))) with (k * x + sg p * (k * d / 4)) by field. replace (k * (x - sg p * (d / 4))) with (k * x - sg p * (k * d / 4)) by field.
  rewrite !cos_plus, !cos_minus.
  assert (E : cos (sg p * (k * d / 4)) = cos (k * d / 4)).
  { unfold sg. destruct (p =? 0)%Z; [f_equal; ring|]. rewrite <- cos_neg. f_equal. ring. }
  rewrite E. field. split; [exact Hd|lra].
Qed.
Lemma wVl x y : Vl d G 0 x y =
  - ((8 / 3 * sin (k * d / 2) * (sin (k * d / 2) + sin (k * d / 4)) + 8 * (1 - cos (k * d / 4))) / (d * d)) * cos (k * x).
Proof.
  pose proof S3pos. pose proof S3 as S3e. unfold Vl, Gr, Rg. rewrite !wOu, !wVo. qs. unfold pv0, pv1, sg. cbn [Z.eqb].
  replace (k * (x + d / 2 * 1)) with (k * x + k * d / 2) by field. replace (k * (x - d / 2 * 1)) with (k * x - k * d / 2) by field.
  replace (k * (x - d * sqrt 3 / 6 * 0)) with (k * x) by (unfold Rdiv; ring). replace (k * (x + d * sqrt 3 / 6 * 0)) with (k * x) by (unfold Rdiv; ring).
  rewrite sin_plus, sin_minus.
  transitivity (- (8 / 3 * sin (k * d / 2) * (sin (k * d / 2) + sin (k * d / 4)) / (d * d)) * cos (k * x)
    - 24 / (sqrt 3 * sqrt 3) * (1 - cos (k * d / 4)) / (d * d) * cos (k * x)).
  - field. split; [lra|exact Hd].
  - rewrite S3e. field. exact Hd.
Qed.
End Shear.

Lemma sin_ge3 a : 0 <= a -> a - a * a * a / 6 <= sin a.
Proof.
  intros Ha.
  destruct (mvt (fun s => sin s - s + s * s * s / 6) (fun s => cos s - 1 + s * s / 2) 0 a) as (c & E & _).
  { intros s. der. field. }
  rewrite sin_0 in E.
  assert (Hc : 0 <= cos c - 1 + c * c / 2).
  { assert (Hp : forall t, 0 <= t -> 0 <= cos t - 1 + t * t / 2).
    { intros t Ht. replace t with (2 * (t / 2)) at 1 by field. rewrite cos_2a_sin.
      assert (Hs : Rabs (sin (t / 2)) <= t / 2).
      { destruct (Req_dec t 0) as [-> | Hn]; [replace (0 / 2) with 0 by field; rewrite sin_0, Rabs_R0; lra|].
        destruct (mvt sin cos 0 (t / 2)) as (u & Eu & _); [intros s; apply derivable_pt_lim_sin|].
        rewrite sin_0, !Rminus_0_r in Eu. rewrite Eu, Rabs_mult, (Rabs_pos_eq (t / 2)) by lra. pose proof (cos_le1 u). nra. }
      assert (sin (t / 2) * sin (t / 2) <= t / 2 * (t / 2)).
      { rewrite <- (Rabs_pos_eq (sin (t / 2) * sin (t / 2))) by (apply Rle_0_sqr). rewrite Rabs_mult. pose proof (Rabs_pos (sin (t / 2))). nra. }
      nra. }
    destruct (Rle_dec 0 c); [now apply Hp|]. rewrite <- cos_neg. replace (c * c) with (- c * - c) by ring. apply Hp. lra. }
  assert (0 <= (cos c - 1 + c * c / 2) * (a - 0)) by (apply Rmult_le_pos; lra). lra.
Qed.
(** Resolved waves: the discrete value is at least 6/5 of the exact one. *)
Lemma too_large t : 0 < t -> t <= 2 / 5 ->
  6 / 5 * (t * t) <= 8 / 3 * sin (t / 2) * (sin (t / 2) + sin (t / 4)) + 8 * (1 - cos (t / 4)).
Proof.
  intros H0 H1.
  replace (1 - cos (t / 4)) with (2 * (sin (t / 8) * sin (t / 8))).
  2:{ replace (t / 4) with (2 * (t / 8)) by field. rewrite cos_2a_sin. ring. }
  pose proof (sin_ge3 (t / 2) ltac:(lra)) as A. pose proof (sin_ge3 (t / 4) ltac:(lra)) as B. pose proof (sin_ge3 (t / 8) ltac:(lra)) as D.
  assert (T : t * t <= 4 / 25) by nra.
  assert (A' : 99 / 100 * (t / 2) <= sin (t / 2)) by nra. assert (B' : 99 / 100 * (t / 4) <= sin (t / 4)) by nra.
  assert (D' : 99 / 100 * (t / 8) <= sin (t / 8)) by nra.
  assert (P1 : (99 / 100 * (t / 2)) * (99 / 100 * (t / 2) + 99 / 100 * (t / 4)) <= sin (t / 2) * (sin (t / 2) + sin (t / 4))).
  { apply Rmult_le_compat; lra. }
  assert (P2 : (99 / 100 * (t / 8)) * (99 / 100 * (t / 8)) <= sin (t / 8) * sin (t / 8)) by (apply Rmult_le_compat; lra).
  nra.
Qed.
