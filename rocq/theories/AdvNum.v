(** Bounds for the discrete frequency of advection and for the amplification factors on the imaginary axis. *)
From Coq Require Import ZArith Reals List Lia Lra.
From Verif Require Import Tableau Diffuse DecayNum WaveRun WaveStab Cplx AdvWaves.
Import ListNotations.
Open Scope R_scope.

Definition cn (a : R * R) : R := sqrt (cnorm2 a).
Definition hyp (a b : R) : R := sqrt (a * a + b * b).
Lemma hyp_pos a b : 0 <= hyp a b. Proof. apply sqrt_pos. Qed.
Lemma sqs a : 0 <= a * a. Proof. apply Rle_0_sqr. Qed.
Lemma hyp_sq a b : hyp a b * hyp a b = a * a + b * b.
Proof. apply sqrt_sqrt. pose proof (sqs a). pose proof (sqs b). lra. Qed.
Lemma cn_hyp a : cn a = hyp (fst a) (snd a). Proof. reflexivity. Qed.
Lemma cn_pos a : 0 <= cn a. Proof. apply sqrt_pos. Qed.
Lemma cn_mul a b : cn (cmul a b) = cn a * cn b.
Proof. unfold cn. rewrite cnorm2_mul. apply sqrt_mult; apply cnorm2_pos. Qed.
Lemma le_sq a b : 0 <= b -> a * a <= b * b -> a <= b.
Proof. intros Hb H. destruct (Rle_or_lt a b) as [|L]; [assumption|]. exfalso. assert (b * b < a * a) by (apply Rmult_le_0_lt_compat; lra). lra. Qed.
Lemma cauchy a b c d : a * c + b * d <= hyp a b * hyp c d.
Proof.
  apply le_sq; [apply Rmult_le_pos; apply hyp_pos|]. replace (hyp a b * hyp c d * (hyp a b * hyp c d)) with ((hyp a b * hyp a b) * (hyp c d * hyp c d)) by ring.
  rewrite !hyp_sq. pose proof (sqs (a * d - b * c)). lra.
Qed.
Lemma cn_add a b : cn (cadd a b) <= cn a + cn b.
Proof.
  rewrite !cn_hyp. destruct a as [a1 a2], b as [b1 b2]. unfold cadd. cbn [fst snd]. pose proof (hyp_pos a1 a2). pose proof (hyp_pos b1 b2).
  apply le_sq; [lra|]. rewrite hyp_sq. pose proof (hyp_sq a1 a2). pose proof (hyp_sq b1 b2). pose proof (cauchy a1 a2 b1 b2). lra.
Qed.
Lemma cn_scal t a : cn (cscal t a) = Rabs t * cn a.
Proof.
  unfold cn. replace (cnorm2 (cscal t a)) with (t * t * cnorm2 a) by (unfold cnorm2, cscal; cbn [fst snd]; ring).
  rewrite sqrt_mult; [|apply sqs|apply cnorm2_pos]. f_equal. apply sqrt_Rsqr_abs.
Qed.
Lemma cn_cis t : cn (cis t) = 1. Proof. unfold cn. rewrite cnorm2_cis. apply sqrt_1. Qed.
Lemma cn_le a e : 0 <= e -> cnorm2 a <= e * e -> cn a <= e.
Proof. intros He H. apply le_sq; [exact He|]. unfold cn. rewrite sqrt_sqrt by apply cnorm2_pos. exact H. Qed.
Lemma fst_cn a : Rabs (fst a) <= cn a.
Proof.
  apply le_sq; [apply cn_pos|]. unfold cn. rewrite sqrt_sqrt by apply cnorm2_pos. unfold cnorm2. pose proof (sqs (snd a)).
  replace (Rabs (fst a) * Rabs (fst a)) with (fst a * fst a); [lra|]. unfold Rabs. destruct (Rcase_abs (fst a)); ring.
Qed.
Lemma cn_parts a x y : Rabs (fst a) <= x -> Rabs (snd a) <= y -> cnorm2 a <= x * x + y * y.
Proof.
  intros H1 H2. unfold cnorm2. assert (Q : forall u v, Rabs u <= v -> u * u <= v * v).
  { intros u v H. replace (u * u) with (Rabs u * Rabs u) by (unfold Rabs; destruct (Rcase_abs u); ring). pose proof (Rabs_pos u). apply Rmult_le_compat; lra. }
  specialize (Q (fst a) x H1) as Q1. specialize (Q (snd a) y H2). lra.
Qed.

(** Sine near 0. *)
Lemma sin_odd_bounds z : Rabs (sin z - z) <= Rabs z * Rabs z * Rabs z / 6 /\ Rabs (sin z) <= Rabs z /\
  Rabs (sin z - (z - z * z * z / 6)) <= Rabs z * Rabs z * Rabs z * (Rabs z * Rabs z) / 120.
Proof.
  assert (P : forall z, 0 <= z -> Rabs (sin z - z) <= z * z * z / 6 /\ Rabs (sin z) <= z /\ Rabs (sin z - (z - z * z * z / 6)) <= z * z * z * (z * z) / 120).
  { intros w Hw. pose proof (sin1 w Hw) as A. pose proof (sin3 w Hw) as B. pose proof (sin5 w Hw) as C. assert (0 <= w * w * w) by (repeat apply Rmult_le_pos; lra).
    split; [apply Rabs_le; lra|]. split.
    - apply Rabs_le. split; [|exact A]. destruct (Rle_or_lt w 2) as [L|L].
      + assert (0 <= w * (2 - w) * (2 + w)) by (repeat apply Rmult_le_pos; lra). lra.
      + pose proof (SIN_bound w). lra.
    - apply Rabs_le. lra. }
  unfold Rabs at 2 3 4 6 8 9 10 11 12. destruct (Rcase_abs z) as [L|L].
  - destruct (P (- z) ltac:(lra)) as (A & B & C). rewrite sin_neg in *.
    rewrite <- (Rabs_Ropp (sin z - z)), <- (Rabs_Ropp (sin z)), <- (Rabs_Ropp (sin z - (z - z * z * z / 6))).
    replace (- (sin z - z)) with (- sin z - - z) by ring. replace (- (sin z - (z - z * z * z / 6))) with (- sin z - (- z - - z * - z * - z / 6)) by field. auto.
  - apply P. lra.
Qed.

Section Omega.
Context (d U V k l : R) (Hd : 0 < d).
Let s := sqrt 3 / 2.
Let a0 := U. Let a1 := U / 2 + V * s. Let a2 := - (U / 2) + V * s.
Let b0 := k. Let b1 := k / 2 + l * s. Let b2 := - (k / 2) + l * s.
Lemma s_sq : s * s = 3 / 4.
Proof. unfold s. pose proof (sqrt_sqrt 3 ltac:(lra)). lra. Qed.
Lemma omeg_ab : omeg d U V k l = 2 / (3 * d) * (a0 * sin (d * b0) + a1 * sin (d * b1) + a2 * sin (d * b2)).
Proof.
  unfold omeg, a0, a1, a2, b0, b1, b2. fold s. replace (d / 2 * k + d * s * l) with (d * (k / 2 + l * s)) by field.
  replace (- (d / 2) * k + d * s * l) with (d * (- (k / 2) + l * s)) by field. reflexivity.
Qed.
Lemma sum_ab : a0 * b0 + a1 * b1 + a2 * b2 = 3 / 2 * (U * k + V * l).
Proof. unfold a0, a1, a2, b0, b1, b2. pose proof s_sq. replace (U * k + (U / 2 + V * s) * (k / 2 + l * s) + (- (U / 2) + V * s) * (- (k / 2) + l * s)) with (3 / 2 * (U * k) + 2 * (V * l) * (s * s)) by field. rewrite H. field. Qed.
Lemma sum_2 x y : x * x + (x / 2 + y * s) * (x / 2 + y * s) + (- (x / 2) + y * s) * (- (x / 2) + y * s) = 3 / 2 * (x * x + y * y).
Proof. pose proof s_sq. replace (x * x + (x / 2 + y * s) * (x / 2 + y * s) + (- (x / 2) + y * s) * (- (x / 2) + y * s)) with (3 / 2 * (x * x) + 2 * (y * y) * (s * s)) by field. rewrite H. field. Qed.
Lemma sum_4 x y : (x * x) * (x * x) + ((x / 2 + y * s) * (x / 2 + y * s)) * ((x / 2 + y * s) * (x / 2 + y * s)) + ((- (x / 2) + y * s) * (- (x / 2) + y * s)) * ((- (x / 2) + y * s) * (- (x / 2) + y * s))
  = 9 / 8 * ((x * x + y * y) * (x * x + y * y)).
Proof.
  pose proof s_sq.
  replace (_ + _ + _) with (9 / 8 * (x * x) * (x * x) + 3 * (x * x) * (y * y) * (s * s) + 2 * (y * y) * (y * y) * (s * s) * (s * s)) by field. rewrite H. field.
Qed.
Lemma amgm p r : p * (r * r * r) <= (p * p * (p * p) + 3 * (r * r * (r * r))) / 4.
Proof.
  assert (Q : 0 <= (p - r) * (p - r) * ((p + r) * (p + r) + 2 * (r * r))) by (apply Rmult_le_pos; [apply sqs|pose proof (sqs (p + r)); pose proof (sqs r); lra]). lra.
Qed.
Lemma abs_sq x : Rabs x * Rabs x = x * x. Proof. unfold Rabs. destruct (Rcase_abs x); ring. Qed.
Lemma hyp0 a b : hyp a b = 0 -> a = 0 /\ b = 0.
Proof. intros H. pose proof (hyp_sq a b) as Q. rewrite H in Q. pose proof (sqs a). pose proof (sqs b). split; apply Rsqr_0_uniq; unfold Rsqr; lra. Qed.
Lemma sum_13 : Rabs a0 * (Rabs b0 * Rabs b0 * Rabs b0) + Rabs a1 * (Rabs b1 * Rabs b1 * Rabs b1) + Rabs a2 * (Rabs b2 * Rabs b2 * Rabs b2)
  <= 9 / 8 * (hyp U V * (hyp k l * hyp k l * hyp k l)).
Proof.
  set (X := hyp U V). set (Y := hyp k l). pose proof (hyp_pos U V : 0 <= X) as X0. pose proof (hyp_pos k l : 0 <= Y) as Y0.
  destruct X0 as [X0|X0].
  2:{ symmetry in X0. destruct (hyp0 _ _ X0) as [EU EV]. assert (a0 = 0 /\ a1 = 0 /\ a2 = 0) as (-> & -> & ->) by (unfold a0, a1, a2; rewrite EU, EV; repeat split; field). rewrite X0, Rabs_R0. lra. }
  destruct Y0 as [Y0|Y0].
  2:{ symmetry in Y0. destruct (hyp0 _ _ Y0) as [EU EV]. assert (b0 = 0 /\ b1 = 0 /\ b2 = 0) as (-> & -> & ->) by (unfold b0, b1, b2; rewrite EU, EV; repeat split; field). rewrite Y0, Rabs_R0. lra. }
  assert (G : forall a b, Rabs a * (Rabs b * Rabs b * Rabs b) <= X * (Y * Y * Y) * ((a * a * (a * a) / (X * X * (X * X)) + 3 * (b * b * (b * b) / (Y * Y * (Y * Y)))) / 4)).
  { intros a b. pose proof (amgm (Rabs a / X) (Rabs b / Y)) as Q.
    apply (Rmult_le_compat_l (X * (Y * Y * Y))) in Q; [|repeat apply Rmult_le_pos; lra].
    replace (X * (Y * Y * Y) * (Rabs a / X * (Rabs b / Y * (Rabs b / Y) * (Rabs b / Y)))) with (Rabs a * (Rabs b * Rabs b * Rabs b)) in Q by (field; split; lra).
    eapply Rle_trans; [exact Q|]. apply Req_le. rewrite <- (abs_sq a), <- (abs_sq b). field. split; lra. }
  eapply Rle_trans; [apply Rplus_le_compat; [apply Rplus_le_compat; apply G|apply G]|].
  pose proof (sum_4 U V) as A4. pose proof (sum_4 k l) as B4. rewrite <- (hyp_sq U V) in A4. rewrite <- (hyp_sq k l) in B4. fold X in A4. fold Y in B4.
  change (a0 * a0 * (a0 * a0) + a1 * a1 * (a1 * a1) + a2 * a2 * (a2 * a2) = 9 / 8 * (X * X * (X * X))) in A4.
  change (b0 * b0 * (b0 * b0) + b1 * b1 * (b1 * b1) + b2 * b2 * (b2 * b2) = 9 / 8 * (Y * Y * (Y * Y))) in B4.
  apply Req_le. transitivity (X * (Y * Y * Y) * (((a0 * a0 * (a0 * a0) + a1 * a1 * (a1 * a1) + a2 * a2 * (a2 * a2)) / (X * X * (X * X)) + 3 * ((b0 * b0 * (b0 * b0) + b1 * b1 * (b1 * b1) + b2 * b2 * (b2 * b2)) / (Y * Y * (Y * Y)))) / 4)); [field; split; lra|].
  rewrite A4, B4. field. split; lra.
Qed.
Lemma omeg_accuracy : Rabs (omeg d U V k l - (U * k + V * l)) <= d * d / 8 * (hyp U V * (hyp k l * hyp k l * hyp k l)).
Proof.
  rewrite omeg_ab.
  replace (2 / (3 * d) * (a0 * sin (d * b0) + a1 * sin (d * b1) + a2 * sin (d * b2)) - (U * k + V * l)) with
    (2 / (3 * d) * (a0 * (sin (d * b0) - d * b0) + a1 * (sin (d * b1) - d * b1) + a2 * (sin (d * b2) - d * b2))).
  2:{ transitivity (2 / (3 * d) * (a0 * sin (d * b0) + a1 * sin (d * b1) + a2 * sin (d * b2)) - 2 / 3 * (a0 * b0 + a1 * b1 + a2 * b2)); [field; lra|]. rewrite sum_ab. field. lra. }
  assert (D3 : 0 < 2 / (3 * d)) by (apply Rdiv_lt_0_compat; lra). rewrite Rabs_mult, (Rabs_right (2 / (3 * d))) by lra.
  assert (T : forall a b, Rabs (a * (sin (d * b) - d * b)) <= d * d * d / 6 * (Rabs a * (Rabs b * Rabs b * Rabs b))).
  { intros a b. destruct (sin_odd_bounds (d * b)) as (Q & _). rewrite Rabs_mult. rewrite Rabs_mult in Q. rewrite (Rabs_right d) in Q by lra.
    apply Rle_trans with (Rabs a * (d * Rabs b * (d * Rabs b) * (d * Rabs b) / 6)); [apply Rmult_le_compat_l; [apply Rabs_pos|exact Q]|]. apply Req_le. field. }
  apply Rle_trans with (2 / (3 * d) * (d * d * d / 6 * (9 / 8 * (hyp U V * (hyp k l * hyp k l * hyp k l))))).
  - apply Rmult_le_compat_l; [lra|]. eapply Rle_trans; [apply Rabs_triang|]. eapply Rle_trans; [apply Rplus_le_compat_r, Rabs_triang|].
    pose proof (T a0 b0). pose proof (T a1 b1). pose proof (T a2 b2).
    apply Rle_trans with (d * d * d / 6 * (Rabs a0 * (Rabs b0 * Rabs b0 * Rabs b0) + Rabs a1 * (Rabs b1 * Rabs b1 * Rabs b1) + Rabs a2 * (Rabs b2 * Rabs b2 * Rabs b2))); [lra|].
    apply Rmult_le_compat_l; [assert (0 < d * d * d) by (repeat apply Rmult_lt_0_compat; lra); lra|exact sum_13].
  - apply Req_le. field. lra.
Qed.
Lemma omeg_cfl : Rabs (omeg d U V k l) <= 4 / 3 * hyp U V / d.
Proof.
  rewrite omeg_ab. assert (D3 : 0 < 2 / (3 * d)) by (apply Rdiv_lt_0_compat; lra). rewrite Rabs_mult, (Rabs_right (2 / (3 * d))) by lra.
  replace (4 / 3 * hyp U V / d) with (2 / (3 * d) * (2 * hyp U V)) by (field; lra). apply Rmult_le_compat_l; [lra|].
  assert (T : forall a b, Rabs (a * sin b) <= Rabs a).
  { intros a b. rewrite Rabs_mult. rewrite <- (Rmult_1_r (Rabs a)) at 2. apply Rmult_le_compat_l; [apply Rabs_pos|]. apply Rabs_le, SIN_bound. }
  eapply Rle_trans; [apply Rabs_triang|]. eapply Rle_trans; [apply Rplus_le_compat_r, Rabs_triang|].
  apply Rle_trans with (Rabs a0 + Rabs a1 + Rabs a2); [pose proof (T a0 (d * b0)); pose proof (T a1 (d * b1)); pose proof (T a2 (d * b2)); lra|].
  apply le_sq; [pose proof (hyp_pos U V); lra|]. replace (2 * hyp U V * (2 * hyp U V)) with (4 * (hyp U V * hyp U V)) by ring. rewrite hyp_sq.
  (* one of the three is the sum of the other two *)
  assert (Q : exists p q, Rabs a0 + Rabs a1 + Rabs a2 = 2 * Rabs p /\ 4 * (U * U + V * V) = 4 * (p * p) + 4 / 3 * (q * q)).
  { pose proof s_sq as S2. assert (E : a1 = a0 + a2) by (unfold a0, a1, a2; field).
    assert (N : 4 * (U * U + V * V) = 16 / 3 * (a0 * a0 + a0 * a2 + a2 * a2)).
    { unfold a0, a2. replace (16 / 3 * (U * U + U * (- (U / 2) + V * s) + (- (U / 2) + V * s) * (- (U / 2) + V * s))) with (4 * (U * U) + 16 / 3 * (V * V) * (s * s)) by field. rewrite S2. field. }
    clearbody a0 a1 a2. subst a1. rewrite N. clear N.
    destruct (Rle_or_lt 0 a0) as [A|A], (Rle_or_lt 0 a2) as [B|B].
    - exists (a0 + a2), (a0 - a2). rewrite !Rabs_right by lra. split; [ring|field].
    - destruct (Rle_or_lt 0 (a0 + a2)) as [C|C].
      + exists a0, (a0 + 2 * a2). rewrite (Rabs_right a0), (Rabs_right (a0 + a2)), (Rabs_left a2) by lra. split; [ring|field].
      + exists a2, (a2 + 2 * a0). rewrite (Rabs_right a0), (Rabs_left (a0 + a2)), (Rabs_left a2) by lra. split; [ring|field].
    - destruct (Rle_or_lt 0 (a0 + a2)) as [C|C].
      + exists a2, (a2 + 2 * a0). rewrite (Rabs_left a0), (Rabs_right (a0 + a2)), (Rabs_right a2) by lra. split; [ring|field].
      + exists a0, (a0 + 2 * a2). rewrite (Rabs_left a0), (Rabs_left (a0 + a2)), (Rabs_right a2) by lra. split; [ring|field].
    - exists (a0 + a2), (a0 - a2). rewrite !Rabs_left by lra. split; [ring|field]. }
  destruct Q as (p & q & -> & ->). pose proof (sqs q). replace (2 * Rabs p * (2 * Rabs p)) with (4 * (Rabs p * Rabs p)) by ring. rewrite abs_sq. lra.
Qed.
Lemma sum_11 : Rabs a0 * Rabs b0 + Rabs a1 * Rabs b1 + Rabs a2 * Rabs b2 <= 3 / 2 * (hyp U V * hyp k l).
Proof.
  set (X := hyp U V). set (Y := hyp k l). pose proof (hyp_pos U V : 0 <= X) as X0. pose proof (hyp_pos k l : 0 <= Y) as Y0.
  destruct X0 as [X0|X0].
  2:{ symmetry in X0. destruct (hyp0 _ _ X0) as [EU EV]. assert (a0 = 0 /\ a1 = 0 /\ a2 = 0) as (-> & -> & ->) by (unfold a0, a1, a2; rewrite EU, EV; repeat split; field). rewrite X0, Rabs_R0. lra. }
  destruct Y0 as [Y0|Y0].
  2:{ symmetry in Y0. destruct (hyp0 _ _ Y0) as [EU EV]. assert (b0 = 0 /\ b1 = 0 /\ b2 = 0) as (-> & -> & ->) by (unfold b0, b1, b2; rewrite EU, EV; repeat split; field). rewrite Y0, Rabs_R0. lra. }
  assert (G : forall a b, Rabs a * Rabs b <= X * Y * ((a * a / (X * X) + b * b / (Y * Y)) / 2)).
  { intros a b. assert (Q : Rabs a / X * (Rabs b / Y) <= (Rabs a / X * (Rabs a / X) + Rabs b / Y * (Rabs b / Y)) / 2) by (pose proof (sqs (Rabs a / X - Rabs b / Y)); lra).
    apply (Rmult_le_compat_l (X * Y)) in Q; [|repeat apply Rmult_le_pos; lra].
    replace (X * Y * (Rabs a / X * (Rabs b / Y))) with (Rabs a * Rabs b) in Q by (field; split; lra).
    eapply Rle_trans; [exact Q|]. apply Req_le. rewrite <- (abs_sq a), <- (abs_sq b). field. split; lra. }
  eapply Rle_trans; [apply Rplus_le_compat; [apply Rplus_le_compat; apply G|apply G]|].
  pose proof (sum_2 U V) as A4. pose proof (sum_2 k l) as B4. rewrite <- (hyp_sq U V) in A4. rewrite <- (hyp_sq k l) in B4. fold X in A4. fold Y in B4.
  change (a0 * a0 + a1 * a1 + a2 * a2 = 3 / 2 * (X * X)) in A4. change (b0 * b0 + b1 * b1 + b2 * b2 = 3 / 2 * (Y * Y)) in B4.
  apply Req_le. transitivity (X * Y * (((a0 * a0 + a1 * a1 + a2 * a2) / (X * X) + (b0 * b0 + b1 * b1 + b2 * b2) / (Y * Y)) / 2)); [field; split; lra|].
  rewrite A4, B4. field. split; lra.
Qed.
Lemma omeg_le : Rabs (omeg d U V k l) <= hyp U V * hyp k l.
Proof.
  rewrite omeg_ab. assert (D3 : 0 < 2 / (3 * d)) by (apply Rdiv_lt_0_compat; lra). rewrite Rabs_mult, (Rabs_right (2 / (3 * d))) by lra.
  replace (hyp U V * hyp k l) with (2 / (3 * d) * (d * (3 / 2 * (hyp U V * hyp k l)))) by (field; lra). apply Rmult_le_compat_l; [lra|].
  assert (T : forall a b, Rabs (a * sin (d * b)) <= d * (Rabs a * Rabs b)).
  { intros a b. destruct (sin_odd_bounds (d * b)) as (_ & Q & _). rewrite Rabs_mult. rewrite Rabs_mult in Q. rewrite (Rabs_right d) in Q by lra.
    apply Rle_trans with (Rabs a * (d * Rabs b)); [apply Rmult_le_compat_l; [apply Rabs_pos|exact Q]|]. apply Req_le. ring. }
  eapply Rle_trans; [apply Rabs_triang|]. eapply Rle_trans; [apply Rplus_le_compat_r, Rabs_triang|].
  pose proof (T a0 b0). pose proof (T a1 b1). pose proof (T a2 b2).
  apply Rle_trans with (d * (Rabs a0 * Rabs b0 + Rabs a1 * Rabs b1 + Rabs a2 * Rabs b2)); [lra|]. apply Rmult_le_compat_l; [lra|exact sum_11].
Qed.
End Omega.

(** Amplification factors on the imaginary axis. *)
Lemma campl_im g y : campl g (0, y) = (g 0%Z - g 2%Z * (y * y) + g 4%Z * (y * y * (y * y)), y * (g 1%Z - g 3%Z * (y * y) + g 5%Z * (y * y * (y * y)))).
Proof.
  assert (P2 : cpow (0, y) 2 = (- (y * y), 0)) by (cbn [cpow]; cpx). assert (P1 : cpow (0, y) 1 = (0, y)) by (cbn [cpow]; cpx).
  assert (P3 : cpow (0, y) 3 = (0, - (y * y * y))) by (change (cpow (0, y) 3) with (cmul (0, y) (cpow (0, y) 2)); rewrite P2; cpx).
  assert (P4 : cpow (0, y) 4 = (y * y * (y * y), 0)) by (change (cpow (0, y) 4) with (cmul (0, y) (cpow (0, y) 3)); rewrite P3; cpx).
  assert (P5 : cpow (0, y) 5 = (0, y * (y * y * (y * y)))) by (change (cpow (0, y) 5) with (cmul (0, y) (cpow (0, y) 4)); rewrite P4; cpx).
  rewrite campl_pow, P1, P2, P3, P4, P5. unfold cadd, cscal, cre. cbn [fst snd]. f_equal; ring.
Qed.
Lemma im_rk4 y : y * y <= 8 -> cn (campl g_rk4 (0, y)) <= 1.
Proof.
  intros Hy. apply cn_le; [lra|]. rewrite campl_im. unfold cnorm2, g_rk4. cbn [fst snd]. set (Y := y * y) in *. pose proof (sqs y : 0 <= Y) as Y0.
  match goal with |- ?x <= _ => replace x with (1 - Y * Y * Y * (8 - Y) / 576) end.
  - clearbody Y. assert (0 <= Y * Y * Y * (8 - Y)) by (repeat apply Rmult_le_pos; lra). lra.
  - transitivity ((1 - / 2 * Y + / 24 * (Y * Y)) * (1 - / 2 * Y + / 24 * (Y * Y)) + Y * ((1 - / 6 * Y) * (1 - / 6 * Y))); [field|]. unfold Y. field.
Qed.
Lemma im_euler y : cnorm2 (campl g_euler (0, y)) = 1 + y * y.
Proof. rewrite campl_im. unfold cnorm2, g_euler. cbn [fst snd]. ring. Qed.
Lemma im_none y : campl g_none (0, y) = cre 1.
Proof. rewrite campl_im. unfold g_none, cre. f_equal; ring. Qed.

(** The five stage scheme: its coefficients are those of the exponential up to [eps]. *)
Lemma ab_le x e : Rabs x <= e -> - e <= x <= e. Proof. intros H. split; [|eapply Rle_trans; [apply Rle_abs|exact H]]. pose proof (Rle_abs (- x)). rewrite Rabs_Ropp in H0. lra. Qed.
Definition g5_clean (i : Z) : R := match i with 0%Z => 1 | 1%Z => 1 | 2%Z => / 2 | 3%Z => / 6 | 4%Z => / 24 | 5%Z => g_lsrk5 5 | _ => 0 end.
Lemma im_clean y : y * y <= 10 -> cn (campl g5_clean (0, y)) <= 1.
Proof.
  intros Hy. pose proof g5_order as (_ & _ & _ & _ & _ & G5). apply cn_le; [lra|]. rewrite campl_im. unfold cnorm2, g5_clean. cbn [fst snd]. set (g := g_lsrk5 5) in *. clearbody g.
  pose proof (sqs y : 0 <= y * y) as Y0. 
  match goal with |- ?x <= _ => replace x with (1 - (y * y) * (y * y) * (y * y) * (1 / 72 - 2 * g - (1 / 576 - g / 3) * (y * y) - g * g * ((y * y) * (y * y)))) by field end.
  set (Y := y * y) in *. clearbody Y.
  assert (Q : 0 <= 1 / 72 - 2 * g - (1 / 576 - g / 3) * Y - g * g * (Y * Y)).
  { assert (Y * Y <= 100) by nra. assert (g * g <= 51 / 10000 * (51 / 10000)) by nra. assert (0 <= g * g) by apply sqs. assert (0 <= Y * Y) by apply sqs.
    assert (g * g * (Y * Y) <= g * g * 100) by (apply Rmult_le_compat_l; lra).
    assert ((1 / 576 - g / 3) * Y <= (1 / 576 - g / 3) * 10) by (apply Rmult_le_compat_l; lra).
    nra. }
  assert (0 <= Y * Y * Y * (1 / 72 - 2 * g - (1 / 576 - g / 3) * Y - g * g * (Y * Y))) by (apply Rmult_le_pos; [repeat apply Rmult_le_pos; lra|exact Q]). lra.
Qed.
Lemma im_diff y : y * y <= 10 -> exists e, campl g_lsrk5 (0, y) = cadd (campl g5_clean (0, y)) e /\ cn e <= 2 / 10 ^ 23.
Proof.
  intros Hy. pose proof g5_order as (G0 & G1 & G2 & G3 & G4 & G5). rewrite !campl_im. pose proof (sqs y : 0 <= y * y) as Y0. unfold g5_clean.
  exists ((- (g_lsrk5 2 - 1 / 2) * (y * y) + (g_lsrk5 4 - 1 / 24) * (y * y * (y * y))), y * ((g_lsrk5 1 - 1) - (g_lsrk5 3 - 1 / 6) * (y * y))). split.
  - rewrite G0. unfold cadd. cbn [fst snd]. f_equal; field.
  - apply ab_le in G1, G2, G3, G4. set (e := 1 / 10 ^ 25) in *. assert (E : 2 / 10 ^ 23 = 200 * e) by (unfold e; lra). rewrite E. assert (E0 : 0 < e) by (unfold e; lra). clearbody e.
    set (c1 := g_lsrk5 1 - 1) in *. set (c2 := g_lsrk5 2 - 1 / 2) in *. set (c3 := g_lsrk5 3 - 1 / 6) in *. set (c4 := g_lsrk5 4 - 1 / 24) in *. clearbody c1 c2 c3 c4. clear - G1 G2 G3 G4 Y0 Hy E0.
    apply cn_le; [lra|]. set (Y := y * y) in *.
    assert (YY : 0 <= Y * Y <= 100) by nra.
    assert (A : Rabs (- c2 * Y + c4 * (Y * Y)) <= 110 * e).
    { apply Rabs_le. assert (- (10 * e) <= c2 * Y <= 10 * e) by nra. assert (- (100 * e) <= c4 * (Y * Y) <= 100 * e) by nra. lra. }
    assert (B : Rabs (c1 - c3 * Y) <= 11 * e).
    { apply Rabs_le. assert (- (10 * e) <= c3 * Y <= 10 * e) by nra. lra. }
    assert (C : Rabs (y * (c1 - c3 * Y)) <= 44 * e).
    { rewrite Rabs_mult. replace (44 * e) with (4 * (11 * e)) by ring. apply Rmult_le_compat; try apply Rabs_pos; [|exact B]. apply le_sq; [lra|]. rewrite abs_sq. fold Y. lra. }
    eapply Rle_trans; [apply cn_parts; [exact A|exact C]|]. nra.
Qed.
Lemma im_lsrk5 y : y * y <= 10 -> cn (campl g_lsrk5 (0, y)) <= 1 + 2 / 10 ^ 23.
Proof. intros Hy. destruct (im_diff y Hy) as (e & -> & He). pose proof (cn_add (campl g5_clean (0, y)) e). pose proof (im_clean y Hy). lra. Qed.

(** How far a step is from the exact rotation. *)
Lemma csub_im g y : cadd (campl g (0, y)) (cscal (-1) (cis y)) =
  (g 0%Z - g 2%Z * (y * y) + g 4%Z * (y * y * (y * y)) - cos y, y * (g 1%Z - g 3%Z * (y * y) + g 5%Z * (y * y * (y * y))) - sin y).
Proof. rewrite campl_im. unfold cadd, cscal, cis. cbn [fst snd]. f_equal; ring. Qed.
Lemma err_rk4 y : y * y <= 8 -> cn (cadd (campl g_rk4 (0, y)) (cscal (-1) (cis y))) <= Rabs y ^ 5 / 108.
Proof.
  intros Hy. rewrite csub_im. unfold g_rk4. set (b := Rabs y). pose proof (Rabs_pos y : 0 <= b) as B0. assert (BB : b * b = y * y) by apply abs_sq.
  assert (B5 : 0 <= b ^ 5) by (apply pow_le; exact B0). apply cn_le; [lra|].
  assert (A1 : Rabs (1 - / 2 * (y * y) + / 24 * (y * y * (y * y)) - cos y) <= b * b * (b * b) * (b * b) / 720).
  { destruct (cos_bounds y) as [[_ C1] C2]. rewrite BB. apply Rabs_le. replace (y * y * (y * y) * (y * y)) with (y * y * y * y * y * y) by ring. lra. }
  assert (A2 : Rabs (y * (1 - / 6 * (y * y) + 0 * (y * y * (y * y))) - sin y) <= b * b * b * (b * b) / 120).
  { destruct (sin_odd_bounds y) as (_ & _ & Q). fold b in Q. rewrite <- Rabs_Ropp in Q. replace (- (sin y - (y - y * y * y / 6))) with (y * (1 - / 6 * (y * y) + 0 * (y * y * (y * y))) - sin y) in Q by field. exact Q. }
  eapply Rle_trans; [apply cn_parts; [exact A1|exact A2]|].
  replace (b * b * (b * b) * (b * b) / 720 * (b * b * (b * b) * (b * b) / 720) + b * b * b * (b * b) / 120 * (b * b * b * (b * b) / 120)) with (b ^ 5 * b ^ 5 * (1 / 14400 + (b * b) / 518400)) by field.
  replace (b ^ 5 / 108 * (b ^ 5 / 108)) with (b ^ 5 * b ^ 5 * (1 / 11664)) by field. apply Rmult_le_compat_l; [apply Rmult_le_pos; exact B5|]. rewrite BB. lra.
Qed.
Lemma err_lsrk5 y : y * y <= 10 -> cn (cadd (campl g_lsrk5 (0, y)) (cscal (-1) (cis y))) <= Rabs y ^ 5 / 108 + 2 / 10 ^ 23.
Proof.
  intros Hy. destruct (im_diff y Hy) as (e & -> & He).
  replace (cadd (cadd (campl g5_clean (0, y)) e) (cscal (-1) (cis y))) with (cadd (cadd (campl g5_clean (0, y)) (cscal (-1) (cis y))) e) by (generalize (campl g5_clean (0, y)) (cis y); intros; cpx).
  eapply Rle_trans; [apply cn_add|]. apply Rplus_le_compat; [|exact He]. clear e He.
  rewrite csub_im. unfold g5_clean. pose proof g5_order as (_ & _ & _ & _ & _ & G5). set (g := g_lsrk5 5) in *. clearbody g.
  set (b := Rabs y). pose proof (Rabs_pos y : 0 <= b) as B0. assert (BB : b * b = y * y) by apply abs_sq.
  assert (B5 : 0 <= b ^ 5) by (apply pow_le; exact B0). apply cn_le; [lra|].
  assert (A1 : Rabs (1 - / 2 * (y * y) + / 24 * (y * y * (y * y)) - cos y) <= b * b * (b * b) * (b * b) / 720).
  { destruct (cos_bounds y) as [[_ C1] C2]. rewrite BB. apply Rabs_le. replace (y * y * (y * y) * (y * y)) with (y * y * y * y * y * y) by ring. lra. }
  assert (A2 : Rabs (y * (1 - / 6 * (y * y) + g * (y * y * (y * y))) - sin y) <= 51 / 10000 * (b * b * b * (b * b))).
  { assert (P : forall z, 0 <= z -> Rabs (z * (1 - / 6 * (z * z) + g * (z * z * (z * z))) - sin z) <= 51 / 10000 * (z * z * z * (z * z))).
    { intros z Hz. pose proof (sin3 z Hz). pose proof (sin5 z Hz). assert (Z5 : 0 <= z * z * z * (z * z)) by (repeat apply Rmult_le_pos; lra).
      replace (z * (1 - / 6 * (z * z) + g * (z * z * (z * z)))) with (z - z * z * z / 6 + g * (z * z * z * (z * z))) by field.
      assert (49 / 10000 * (z * z * z * (z * z)) <= g * (z * z * z * (z * z)) <= 51 / 10000 * (z * z * z * (z * z))) by (split; apply Rmult_le_compat_r; lra).
      apply Rabs_le. lra. }
    unfold b, Rabs at 2 3 4 5 6. destruct (Rcase_abs y) as [L|L].
    - specialize (P (- y) ltac:(lra)). rewrite sin_neg in P. rewrite <- Rabs_Ropp in P.
      replace (- (- y * (1 - / 6 * (- y * - y) + g * (- y * - y * (- y * - y))) - - sin y)) with (y * (1 - / 6 * (y * y) + g * (y * y * (y * y))) - sin y) in P by field. exact P.
    - apply P. lra. }
  eapply Rle_trans; [apply cn_parts; [exact A1|exact A2]|].
  replace (b * b * (b * b) * (b * b) / 720 * (b * b * (b * b) * (b * b) / 720) + 51 / 10000 * (b * b * b * (b * b)) * (51 / 10000 * (b * b * b * (b * b)))) with (b ^ 5 * b ^ 5 * (51 / 10000 * (51 / 10000) + (b * b) / 518400)) by field.
  replace (b ^ 5 / 108 * (b ^ 5 / 108)) with (b ^ 5 * b ^ 5 * (1 / 11664)) by field. apply Rmult_le_compat_l; [apply Rmult_le_pos; exact B5|]. rewrite BB. lra.
Qed.
