(** The numbers behind the tracer diffusion test: size of its error and the observed rate. *)
From Coq Require Import ZArith Reals Lia Lra.
From Verif Require Import Deriv Diffuse Modes DecayNum.
Open Scope R_scope.

Lemma Rabs_in x e : Rabs x <= e -> - e <= x <= e. Proof. split_Rabs; lra. Qed.
Lemma amp_close z : -1 / 10 <= z <= 0 -> Rabs (ampl g_lsrk5 z - exp z) <= (- z) ^ 5 / 70 + 4 / 10 ^ 25 * - z.
Proof.
  intros Hz. pose proof g5_order as (G0 & G1 & G2 & G3 & G4 & G5). pose proof (exp4 z ltac:(lra)) as E4. pose proof (exp5 z ltac:(lra)) as E5.
  unfold ampl. rewrite G0. set (y := - z). assert (Hy : 0 <= y <= 1 / 10) by (unfold y; lra). replace z with (- y) in * by (unfold y; ring). clearbody y. clear Hz.
  assert (P : forall n, 0 <= y ^ n) by (intros; apply pow_le; lra).
  assert (B : forall g a n e, Rabs (g - a) <= e -> Rabs ((g - a) * y ^ n) <= e * y ^ n).
  { intros g a n e H. rewrite Rabs_mult, (Rabs_right (y ^ n)) by (apply Rle_ge, P). apply Rmult_le_compat_r; auto. }
  pose proof (B _ _ 1%nat _ G1) as B1. pose proof (B _ _ 2%nat _ G2) as B2. pose proof (B _ _ 3%nat _ G3) as B3. pose proof (B _ _ 4%nat _ G4) as B4.
  assert (C5 : 0 <= g_lsrk5 5 * y ^ 5 <= 51 / 10000 * y ^ 5) by (split; [apply Rmult_le_pos; auto; lra|apply Rmult_le_compat_r; auto; lra]).
  pose proof (P 5%nat) as P5.
  assert (L : forall n, y ^ (S n) <= y) by (induction n as [|n IH]; [cbn; lra|]; cbn [pow] in *; pose proof (P n); nra).
  pose proof (L 1%nat) as L2. pose proof (L 2%nat) as L3. pose proof (L 3%nat) as L4.
  assert (Q2 : (- y) ^ 2 = y ^ 2) by ring. assert (Q3 : (- y) ^ 3 = - y ^ 3) by ring. assert (Q4 : (- y) ^ 4 = y ^ 4) by ring. assert (Q5 : (- y) ^ 5 = - y ^ 5) by ring.
  rewrite Q2, Q3, Q4, Q5. replace (- - y) with y by ring. apply Rabs_in in B1, B2, B3, B4.
  replace (- y * - y) with (y ^ 2) in * by ring. replace (y ^ 2 * - y) with (- y ^ 3) in * by ring. replace (- y ^ 3 * - y) with (y ^ 4) in * by ring. replace (y ^ 4 * - y) with (- y ^ 5) in * by ring.
  replace (y ^ 1) with y in * by ring.
  apply Rabs_le. generalize dependent (y ^ 2). generalize dependent (y ^ 3). generalize dependent (y ^ 4). generalize dependent (y ^ 5). intros. lra.
Qed.

Lemma pow_close x y n : 0 <= x <= 1 -> 0 <= y <= 1 -> Rabs (x ^ n - y ^ n) <= INR n * Rabs (x - y).
Proof.
  intros Hx Hy. induction n as [|n IH]; [cbn; rewrite Rminus_diag_eq, Rabs_R0 by reflexivity; lra|].
  rewrite S_INR. cbn [pow]. replace (x * x ^ n - y * y ^ n) with (x * (x ^ n - y ^ n) + (x - y) * y ^ n) by ring.
  eapply Rle_trans; [apply Rabs_triang|]. rewrite !Rabs_mult. rewrite (Rabs_right x) by lra.
  assert (Y : 0 <= y ^ n <= 1) by (split; [apply pow_le; lra|rewrite <- (pow1 n); apply pow_incr; lra]). rewrite (Rabs_right (y ^ n)) by lra.
  pose proof (Rabs_pos (x - y)). pose proof (Rabs_pos (x ^ n - y ^ n)). nra.
Qed.
Lemma amp_pow z n : -1 / 10 <= z <= 0 -> Rabs (ampl g_lsrk5 z ^ n - exp (INR n * z)) <= INR n * ((- z) ^ 5 / 70 + 4 / 10 ^ 25 * - z).
Proof.
  intros Hz. pose proof (amp_close z Hz) as A. pose proof (exp1 z ltac:(lra)) as E1. pose proof (exp2 z ltac:(lra)) as E2.
  assert (X : exp (INR n * z) = exp z ^ n).
  { clear. induction n as [|n IH]; [cbn; rewrite Rmult_0_l; apply exp_0|]. rewrite S_INR. cbn [pow]. rewrite <- IH, <- exp_plus. f_equal. ring. }
  rewrite X. eapply Rle_trans; [apply pow_close|].
  - apply Rabs_in in A. assert (P : (- z) ^ 5 <= - z / 100). { set (y := - z) in *. assert (0 <= y <= 1 / 10) by (unfold y; lra). clearbody y.
      assert (0 <= y ^ 2 <= 1 / 100) by (split; cbn [pow]; nra). replace (y ^ 5) with (y ^ 2 * y ^ 2 * y) by ring.
      assert (y ^ 2 * y ^ 2 <= 1 / 100) by nra. assert (y ^ 2 * y ^ 2 * y <= 1 / 100 * y) by (apply Rmult_le_compat_r; lra). lra. }
    nra.
  - split; [pose proof (exp_pos z); lra|]. rewrite <- exp_0. destruct (proj2 Hz) as [Q| ->]; [left; now apply exp_increasing|lra].
  - apply Rmult_le_compat_l; [apply pos_INR|exact A].
Qed.

(** ** The decay rate on the test's mesh *)
Definition c0 : R := 7 * (PI * PI) / 75.
Definition tlam (n : R) : R := let th := 2 * PI / n in 4 / (3 * (10 / n * (10 / n))) * (cos th + cos (3 * th / 2) + cos (th / 2) - 3).
Definition tt_ (n : R) : R := 4 * (PI * PI) / (n * n).
Lemma tlam_bounds n : 0 < n -> let t := tt_ n in
  c0 * (7 / 48 * t - 397 / 40320 * (t * t)) <= c0 + tlam n <= c0 * (7 / 48 * t) /\ 0 <= c0 + tlam n /\ tlam n <= 0.
Proof.
  intros Hn t. unfold tlam. cbv zeta. set (th := 2 * PI / n). assert (T : th * th = t) by (unfold th, t, tt_; field; lra).
  pose proof (cos_bounds th) as (A & A'). pose proof (cos_bounds (3 * th / 2)) as (B & B'). pose proof (cos_bounds (th / 2)) as (C & C').
  pose proof (COS_bound th). pose proof (COS_bound (3 * th / 2)). pose proof (COS_bound (th / 2)).
  set (s := cos th + cos (3 * th / 2) + cos (th / 2) - 3).
  replace (3 * th / 2 * (3 * th / 2)) with (9 / 4 * t) in * by (rewrite <- T; field).
  replace (9 / 4 * t * (3 * th / 2) * (3 * th / 2)) with (81 / 16 * (t * t)) in * by (rewrite <- T; field).
  replace (81 / 16 * (t * t) * (3 * th / 2) * (3 * th / 2)) with (729 / 64 * (t * t * t)) in * by (rewrite <- T; field).
  replace (th / 2 * (th / 2)) with (1 / 4 * t) in * by (rewrite <- T; field).
  replace (1 / 4 * t * (th / 2) * (th / 2)) with (1 / 16 * (t * t)) in * by (rewrite <- T; field).
  replace (1 / 16 * (t * t) * (th / 2) * (th / 2)) with (1 / 64 * (t * t * t)) in * by (rewrite <- T; field).
  rewrite T in *. replace (t * th * th) with (t * t) in * by (rewrite <- T; ring). replace (t * t * th * th) with (t * t * t) in * by (rewrite <- T; ring).
  replace (4 / (3 * (10 / n * (10 / n)))) with (n * n / 75) by (field; lra).
  assert (E : c0 = n * n / 75 * (7 / 4 * t)) by (unfold c0, t, tt_; field; lra). rewrite E.
  assert (N1 : 0 < n * n) by now apply Rmult_lt_0_compat. assert (N : 0 < n * n / 75) by lra.
  set (K := n * n / 75) in *.
  assert (S1 : 49 / 192 * (t * t) - 397 / 23040 * (t * t * t) <= 7 / 4 * t + s <= 49 / 192 * (t * t)) by (unfold s; lra).
  assert (S2 : 0 <= 7 / 4 * t + s) by (unfold s; lra). assert (S3 : s <= 0) by (unfold s; lra). clearbody s K. clear - S1 S2 S3 N.
  split; [split|split].
  - replace (K * (7 / 4 * t) * (7 / 48 * t - 397 / 40320 * (t * t))) with (K * (49 / 192 * (t * t) - 397 / 23040 * (t * t * t))) by field. nra.
  - replace (K * (7 / 4 * t) * (7 / 48 * t)) with (K * (49 / 192 * (t * t))) by field. nra.
  - nra.
  - nra.
Qed.
Lemma c0_bounds : 0 < c0 /\ 184 / 100 < 2 * c0 < 185 / 100.
Proof. pose proof PI_bounds. unfold c0. assert (9.8596 < PI * PI < 9.87029) by nra. lra. Qed.
Lemma E_bounds : 1 / 9 <= exp (- (2 * c0)) < 1.
Proof.
  pose proof c0_bounds. split.
  - rewrite exp_Ropp. pose proof exp_le_3 as E3. pose proof (exp_pos (2 * c0)) as Q.
    assert (exp (2 * c0) <= 9).
    { apply Rle_trans with (exp (1 + 1)); [left; apply exp_increasing; lra|]. rewrite exp_plus. pose proof (exp_pos 1). nra. }
    replace (1 / 9) with (/ 9) by field. apply Rinv_le_contravar; assumption.
  - rewrite <- exp_0. apply exp_increasing. lra.
Qed.
Lemma t_bounds n : 16 <= n -> 0 < tt_ n <= 155 / 1000.
Proof.
  intros Hn. pose proof PI_bounds. assert (9.8596 < PI * PI < 9.87029) by nra. unfold tt_. assert (N : 256 <= n * n) by nra. split.
  - apply Rdiv_lt_0_compat; lra.
  - apply (Rmult_le_reg_r (n * n)); [lra|]. unfold Rdiv. rewrite Rmult_assoc, Rinv_l by lra. lra.
Qed.
Lemma t_low n : 16 <= n -> n <= 2147483648 -> 8 / 10 ^ 18 <= tt_ n.
Proof.
  intros Hn Hn'. pose proof PI_bounds. assert (9.8596 < PI * PI < 9.87029) by nra. unfold tt_.
  assert (N : n * n <= 4611686018427387904). { replace 4611686018427387904 with (2147483648 * 2147483648) by lra. apply Rmult_le_compat; lra. }
  assert (0 < n * n) by nra. apply (Rmult_le_reg_r (n * n)); [lra|]. unfold Rdiv. rewrite (Rmult_assoc (4 * (PI * PI))), Rinv_l by lra. lra.
Qed.

(** The error of the amplitude, relative to the exact amplitude and the exponent [2 c0]. *)
Lemma amp_test n N : 16 <= n <= 2147483648 -> (1 <= N)%nat -> 2 / INR N <= 10 / n * (10 / n) / 4 ->
  let t := tt_ n in let E := exp (- (2 * c0)) in let a := ampl g_lsrk5 (2 / INR N * tlam n) ^ N in
  E * (2 * c0) * (7 / 48 * t - 397 / 40320 * (t * t) - t / 10000) <= a - E <= E * (2 * c0) * (7 / 48 * t * (1 + 15 / 100 * t) + t / 10000).
Proof.
  intros [Hn Hn'] HN Hdt t E a. pose proof (tlam_bounds n ltac:(lra)) as (L1 & L2 & L3). fold t in L1.
  pose proof c0_bounds as (K0 & K1). pose proof E_bounds as EB. fold E in EB. pose proof (t_bounds n Hn) as TB. pose proof (t_low n Hn Hn') as TL. fold t in TB, TL.
  assert (N0 : 0 < INR N) by (apply lt_0_INR; lia).
  set (L := tlam n) in *. set (z := 2 / INR N * L).
  assert (D0 : 0 < 2 / INR N) by (apply Rdiv_lt_0_compat; lra).
  assert (E1 : 10 / n * (10 / n) / 4 * c0 = 7 / 12 * t) by (unfold c0, t, tt_; field; lra).
  assert (Z1 : 0 <= - z <= 7 / 12 * t).
  { unfold z. split; [nra|]. rewrite <- E1. replace (- (2 / INR N * L)) with (2 / INR N * - L) by ring. apply Rmult_le_compat; lra. }
  pose proof (amp_pow z N ltac:(lra)) as A. fold a in A.
  assert (NZ : INR N * z = 2 * L) by (unfold z; field; lra). rewrite NZ in A.
  assert (AE : Rabs (a - exp (2 * L)) <= 2 * c0 * (t * (1 / 100000))).
  { eapply Rle_trans; [exact A|]. set (y := - z) in *.
    replace (INR N * (y ^ 5 / 70 + 4 / 10 ^ 25 * y)) with (INR N * y * (y ^ 4 / 70 + 4 / 10 ^ 25)) by field.
    assert (NY : 0 <= INR N * y <= 2 * c0) by (unfold y; replace (INR N * - z) with (- (INR N * z)) by ring; rewrite NZ; lra).
    apply Rmult_le_compat; try lra.
    - assert (0 <= y ^ 4) by (apply pow_le; lra). lra.
    - assert (Y2 : 0 <= y * y <= (7 / 12 * t) * (7 / 12 * t)) by (split; [nra|apply Rmult_le_compat; lra]).
      assert (Y4 : y ^ 4 <= (7 / 12 * t) * (7 / 12 * t) * ((7 / 12 * t) * (7 / 12 * t))) by (replace (y ^ 4) with (y * y * (y * y)) by ring; apply Rmult_le_compat; lra).
      assert (T3 : t * t * t <= 4 / 1000) by (assert (t * t <= 155 / 1000 * (155 / 1000)) by (apply Rmult_le_compat; lra); assert (0 <= t * t) by nra; nra).
      replace (7 / 12 * t * (7 / 12 * t) * (7 / 12 * t * (7 / 12 * t))) with (2401 / 20736 * (t * (t * t * t))) in Y4 by field.
      assert (t * (t * t * t) <= t * (4 / 1000)) by (apply Rmult_le_compat_l; lra). lra. }
  set (dl := 2 * (c0 + L)).
  assert (X : exp (2 * L) = E * exp dl) by (unfold E, dl; rewrite <- exp_plus; f_equal; ring).
  assert (DL : 2 * c0 * (7 / 48 * t - 397 / 40320 * (t * t)) <= dl <= 2 * c0 * (7 / 48 * t)) by (unfold dl; lra).
  assert (D1 : 0 <= dl) by (unfold dl; lra).
  assert (D2 : dl <= 27 / 100 * t) by nra.
  assert (D3 : dl <= 5 / 100) by lra.
  pose proof (exp_ge dl) as EL.
  assert (EU : exp dl <= 1 + dl * (1 + 15 / 100 * t)).
  { pose proof (exp3 (- dl) ltac:(lra)) as Q. rewrite exp_Ropp in Q. pose proof (exp_pos dl) as P0.
    assert (Q' : (1 - dl + dl * dl / 2 - dl * dl * dl / 6) * exp dl <= 1).
    { apply (Rmult_le_compat_r (exp dl)) in Q; [|lra]. rewrite Rinv_l in Q by lra. lra. }
    assert (W : 1 <= (1 - dl + dl * dl / 2 - dl * dl * dl / 6) * (1 + dl * (1 + 51875 / 100000 * dl))).
    { replace ((1 - dl + dl * dl / 2 - dl * dl * dl / 6) * (1 + dl * (1 + 51875 / 100000 * dl)))
        with (1 + dl * dl * (1875 / 100000 - dl * (51875 / 100000 - 1 / 3) + dl * dl * (51875 / 200000 - 1 / 6) - dl * dl * dl * (51875 / 600000))) by field.
      assert (0 <= dl * dl) by nra. assert (dl * dl * dl <= dl * dl) by nra.
      assert (0 <= 1875 / 100000 - dl * (51875 / 100000 - 1 / 3) + dl * dl * (51875 / 200000 - 1 / 6) - dl * dl * dl * (51875 / 600000)) by lra.
      assert (0 <= dl * dl * (1875 / 100000 - dl * (51875 / 100000 - 1 / 3) + dl * dl * (51875 / 200000 - 1 / 6) - dl * dl * dl * (51875 / 600000))) by (apply Rmult_le_pos; assumption). lra. }
    assert (S2 : 0 <= dl * dl) by nra. assert (S3 : dl * dl * dl <= dl * dl) by (clear - D1 D3 S2; nra). assert (W0 : 0 < 1 - dl + dl * dl / 2 - dl * dl * dl / 6) by lra.
    apply Rle_trans with (1 + dl * (1 + 51875 / 100000 * dl)); [|assert (dl * (51875 / 100000 * dl) <= dl * (15 / 100 * t)) by (apply Rmult_le_compat_l; lra); lra].
    apply (Rmult_le_reg_l (1 - dl + dl * dl / 2 - dl * dl * dl / 6)); [exact W0|]. lra. }
  apply Rabs_in in AE. rewrite X in AE.
  assert (E9 : 2 * c0 * (t * (1 / 100000)) <= E * (2 * c0) * (t / 10000)).
  { replace (E * (2 * c0) * (t / 10000)) with (2 * c0 * (t * (E / 10000))) by field. apply Rmult_le_compat_l; [lra|]. apply Rmult_le_compat_l; lra. }
  assert (V1 : E * dl <= E * (exp dl - 1)) by (apply Rmult_le_compat_l; lra).
  assert (V2 : E * (exp dl - 1) <= E * (dl * (1 + 15 / 100 * t))) by (apply Rmult_le_compat_l; lra).
  assert (V3 : E * (2 * c0 * (7 / 48 * t - 397 / 40320 * (t * t))) <= E * dl) by (apply Rmult_le_compat_l; lra).
  assert (V4 : E * (dl * (1 + 15 / 100 * t)) <= E * (2 * c0 * (7 / 48 * t) * (1 + 15 / 100 * t))) by (apply Rmult_le_compat_l; [lra|]; apply Rmult_le_compat_r; lra).
  lra.
Qed.

(** The error is of second order with an explicit constant. *)
Lemma amp_small n N : 16 <= n <= 2147483648 -> (1 <= N)%nat -> 2 / INR N <= 10 / n * (10 / n) / 4 ->
  let a := ampl g_lsrk5 (2 / INR N * tlam n) ^ N in 0 < a - exp (- (2 * c0)) <= 11 / (n * n).
Proof.
  intros Hn HN Hdt a. pose proof (amp_test n N Hn HN Hdt) as A. cbv zeta in A. fold a in A. pose proof E_bounds as EB. pose proof c0_bounds as [K0 K1].
  pose proof (t_bounds n ltac:(lra)) as TB. set (E := exp (- (2 * c0))) in *. set (t := tt_ n) in *.
  assert (EC : 0 < E * (2 * c0) <= 185 / 100) by (split; [apply Rmult_lt_0_compat; lra|]; apply Rle_trans with (1 * (2 * c0)); [apply Rmult_le_compat_r; lra|lra]).
  assert (TT : 0 <= t * t <= 155 / 1000 * t) by (split; [nra|apply Rmult_le_compat_r; lra]). split.
  - assert (0 < E * (2 * c0) * (7 / 48 * t - 397 / 40320 * (t * t) - t / 10000)) by (apply Rmult_lt_0_compat; lra). lra.
  - apply Rle_trans with (185 / 100 * (15 / 100 * t)).
    + eapply Rle_trans; [apply A|]. apply Rmult_le_compat; lra.
    + unfold t, tt_. pose proof PI_bounds. assert (9.8596 < PI * PI < 9.87029) by nra. assert (0 < n * n) by nra.
      apply (Rmult_le_reg_r (n * n)); [lra|]. replace (185 / 100 * (15 / 100 * (4 * (PI * PI) / (n * n))) * (n * n)) with (185 / 100 * (15 / 100 * (4 * (PI * PI)))) by (field; lra).
      replace (11 / (n * n) * (n * n)) with 11 by (field; lra). lra.
Qed.

(** The observed rate of convergence. *)
Lemma ln_pow x n : 0 < x -> ln (x ^ n) = INR n * ln x.
Proof.
  intros Hx. induction n as [|n IH]; [cbn; rewrite ln_1; ring|]. cbn [pow]. rewrite ln_mult, IH by (auto; now apply pow_lt). rewrite S_INR. ring.
Qed.
Lemma rate_near r : 966 / 1000 * 4 <= r <= 1035 / 1000 * 4 -> Rabs (ln r / ln 2 - 2) < 5 / 100.
Proof.
  intros Hr. assert (L2 : 0 < ln 2) by (rewrite <- ln_1; apply ln_increasing; lra).
  assert (L4 : ln 4 = 2 * ln 2) by (replace 4 with (2 * 2) by lra; rewrite ln_mult by lra; ring).
  assert (U : 20 * ln (1035 / 1000) < ln 2).
  { replace 20 with (INR 20) by (cbn; lra). rewrite <- ln_pow by lra. apply ln_increasing; [apply pow_lt; lra|]. cbn [pow]. lra. }
  assert (V : - ln 2 < 20 * ln (966 / 1000)).
  { replace (- ln 2) with (ln (/ 2)) by (rewrite ln_Rinv by lra; reflexivity). replace 20 with (INR 20) by (cbn; lra). rewrite <- ln_pow by lra. apply ln_increasing; [lra|]. cbn [pow]. lra. }
  assert (R1 : ln r <= ln (1035 / 1000) + 2 * ln 2).
  { rewrite <- L4, <- ln_mult by lra. destruct (Rle_lt_or_eq_dec _ _ (proj2 Hr)) as [Q|Q]; [left; apply ln_increasing; lra|rewrite Q; lra]. }
  assert (R2 : ln (966 / 1000) + 2 * ln 2 <= ln r).
  { rewrite <- L4, <- ln_mult by lra. destruct (Rle_lt_or_eq_dec _ _ (proj1 Hr)) as [Q|Q]; [left; apply ln_increasing; lra|rewrite Q; lra]. }
  replace (ln r / ln 2 - 2) with ((ln r - 2 * ln 2) / ln 2) by (field; lra).
  apply Rabs_def1; apply (Rmult_lt_reg_r (ln 2)); try exact L2; unfold Rdiv; rewrite Rmult_assoc, Rinv_l by lra; lra.
Qed.
Lemma amp_rate n N N' : 16 <= n -> 2 * n <= 2147483648 -> (1 <= N)%nat -> 2 / INR N <= 10 / n * (10 / n) / 4 ->
  (1 <= N')%nat -> 2 / INR N' <= 10 / (2 * n) * (10 / (2 * n)) / 4 ->
  let a := ampl g_lsrk5 (2 / INR N * tlam n) ^ N in let a' := ampl g_lsrk5 (2 / INR N' * tlam (2 * n)) ^ N' in let E := exp (- (2 * c0)) in
  0 < a - E /\ 0 < a' - E /\ Rabs (ln ((a - E) / (a' - E)) / ln 2 - 2) < 5 / 100.
Proof.
  intros H1 H2 HN Hdt HN' Hdt' a a' E.
  pose proof (amp_test n N ltac:(lra) HN Hdt) as A. pose proof (amp_test (2 * n) N' ltac:(lra) HN' Hdt') as A'. cbv zeta in A, A'. fold a E in A. fold a' E in A'.
  pose proof (amp_small n N ltac:(lra) HN Hdt) as [B _]. pose proof (amp_small (2 * n) N' ltac:(lra) HN' Hdt') as [B' _]. fold a E in B. fold a' E in B'.
  split; [exact B|]. split; [exact B'|]. apply rate_near.
  assert (T2 : tt_ (2 * n) = tt_ n / 4) by (unfold tt_; field; lra). rewrite T2 in A'.
  pose proof (t_bounds n H1) as TB. set (t := tt_ n) in *. pose proof E_bounds as EB. fold E in EB. pose proof c0_bounds as [K0 K1].
  assert (TT : 0 <= t * t <= 155 / 1000 * t) by (split; [nra|apply Rmult_le_compat_r; lra]).
  set (W := E * (2 * c0)) in *. assert (W0 : 0 < W) by (apply Rmult_lt_0_compat; lra).
  assert (A1 : W * t * (144 / 1000) <= a - E <= W * t * (1495 / 10000)).
  { split; [eapply Rle_trans; [|apply A]|eapply Rle_trans; [apply A|]]; rewrite (Rmult_assoc W t); (apply Rmult_le_compat_l; [lra|]); lra. }
  assert (A2 : W * t * (1453 / 10000) / 4 <= a' - E <= W * t * (1468 / 10000) / 4).
  { split; [eapply Rle_trans; [|apply A']|eapply Rle_trans; [apply A'|]]; 
    [replace (W * t * (1453 / 10000) / 4) with (W * (t * (1453 / 40000))) by field|replace (W * t * (1468 / 10000) / 4) with (W * (t * (1468 / 40000))) by field]; (apply Rmult_le_compat_l; [lra|]); lra. }
  assert (Wt : 0 < W * t) by (apply Rmult_lt_0_compat; lra). set (w := W * t) in *. clearbody w.
  assert (X : forall p q lo hi, 0 < q -> lo * q <= p <= hi * q -> lo <= p / q <= hi).
  { intros p q lo hi Hq [P1 P2]. split; apply (Rmult_le_reg_r q); try exact Hq; unfold Rdiv; rewrite Rmult_assoc, Rinv_l by lra; lra. }
  apply X; [exact B'|]. lra.
Qed.
