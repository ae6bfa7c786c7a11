(** The numbers behind the tracer hyperdiffusion test: size of its error and the observed rate. *)
From Coq Require Import ZArith Reals Lia Lra.
From Verif Require Import Deriv Diffuse Modes DecayNum DecayNum2.
Open Scope R_scope.

Definition C2 : R := 2 * (c0 * c0).
Lemma C2_bounds : 169 / 100 < C2 < 1712 / 1000.
Proof. pose proof c0_bounds as [A B]. unfold C2. assert (92 / 100 * (92 / 100) < c0 * c0 < 925 / 1000 * (925 / 1000)) by (split; apply Rmult_le_0_lt_compat; lra). lra. Qed.
Lemma E2_bounds : 1 / 9 <= exp (- C2) < 1.
Proof.
  pose proof C2_bounds. split.
  - rewrite exp_Ropp. pose proof exp_le_3 as E3. pose proof (exp_pos C2) as Q.
    assert (exp C2 <= 9).
    { apply Rle_trans with (exp (1 + 1)); [left; apply exp_increasing; lra|]. rewrite exp_plus. pose proof (exp_pos 1). nra. }
    replace (1 / 9) with (/ 9) by field. apply Rinv_le_contravar; assumption.
  - rewrite <- exp_0. apply exp_increasing. lra.
Qed.
Lemma exp2_low dl : 0 <= dl -> 1 + dl + dl * dl / 2 <= exp dl.
Proof.
  intros Hz. enough (0 <= exp dl - (1 + dl + dl * dl / 2)) by lra.
  apply (pos_mono (fun z => exp z - (1 + z + z * z / 2)) (fun z => exp z - (1 + z))); [dd|rewrite exp_0; lra| |exact Hz].
  intros s _. pose proof (exp_ge s). lra.
Qed.
Lemma exp2_up dl : 0 <= dl <= 8 / 100 -> exp dl <= 1 + dl * (1 + 52 / 100 * dl).
Proof.
  intros [D1 D3]. pose proof (exp3 (- dl) ltac:(lra)) as Q. rewrite exp_Ropp in Q. pose proof (exp_pos dl) as P0.
  assert (Q' : (1 - dl + dl * dl / 2 - dl * dl * dl / 6) * exp dl <= 1).
  { apply (Rmult_le_compat_r (exp dl)) in Q; [|lra]. rewrite Rinv_l in Q by lra. lra. }
  assert (S2 : 0 <= dl * dl <= 8 / 100 * dl) by nra. assert (S3 : 0 <= dl * dl * dl <= dl * dl) by (clear - D1 D3 S2; nra).
  assert (W : 1 <= (1 - dl + dl * dl / 2 - dl * dl * dl / 6) * (1 + dl * (1 + 52 / 100 * dl))).
  { replace ((1 - dl + dl * dl / 2 - dl * dl * dl / 6) * (1 + dl * (1 + 52 / 100 * dl)))
      with (1 + dl * dl * (2 / 100 - dl * (52 / 100 - 1 / 3) + dl * dl * (52 / 200 - 1 / 6) - dl * dl * dl * (52 / 600))) by field.
    assert (0 <= 2 / 100 - dl * (52 / 100 - 1 / 3) + dl * dl * (52 / 200 - 1 / 6) - dl * dl * dl * (52 / 600)) by lra.
    assert (0 <= dl * dl * (2 / 100 - dl * (52 / 100 - 1 / 3) + dl * dl * (52 / 200 - 1 / 6) - dl * dl * dl * (52 / 600))) by (apply Rmult_le_pos; lra). lra. }
  assert (W0 : 0 < 1 - dl + dl * dl / 2 - dl * dl * dl / 6) by lra.
  apply (Rmult_le_reg_l (1 - dl + dl * dl / 2 - dl * dl * dl / 6)); [exact W0|]. lra.
Qed.

(** The error of the amplitude, relative to the exact amplitude and the exponent. *)
Lemma amp_test_h n N : 16 <= n <= 2147483648 -> (1 <= N)%nat -> 2 / INR N <= (10 / n) ^ 4 / 8 ->
  let t := tt_ n in let E := exp (- C2) in let a := ampl g_lsrk5 (2 / INR N * - (tlam n * tlam n)) ^ N in
  E * C2 * t * ((7 / 24 - 41 / 1000 * t) * (1 + 23 / 100 * t) - 1 / 10000) <= a - E <= E * C2 * t * ((7 / 24 - 21 / 1000 * t) * (1 + 26 / 100 * t) + 1 / 10000).
Proof.
  intros [Hn Hn'] HN Hdt t E a. pose proof (tlam_bounds n ltac:(lra)) as (L1 & L2 & L3). fold t in L1.
  pose proof c0_bounds as (K0 & K1). pose proof C2_bounds as CB. pose proof E2_bounds as EB. fold E in EB. pose proof (t_bounds n Hn) as TB. pose proof (t_low n Hn Hn') as TL. fold t in TB, TL.
  assert (N0 : 0 < INR N) by (apply lt_0_INR; lia).
  set (L := tlam n) in *. set (z := 2 / INR N * - (L * L)).
  assert (D0 : 0 < 2 / INR N) by (apply Rdiv_lt_0_compat; lra).
  assert (E1 : (10 / n) ^ 4 / 8 * (c0 * c0) = 49 / 72 * (t * t)) by (unfold c0, t, tt_; field; lra).
  assert (TT : 0 <= t * t <= 155 / 1000 * t) by (split; [nra|apply Rmult_le_compat_r; lra]).
  assert (LL : 0 <= L * L <= c0 * c0).
  { replace (L * L) with (- L * - L) by ring. split; [apply Rmult_le_pos; lra|apply Rmult_le_compat; lra]. }
  assert (Z1 : 0 <= - z <= 49 / 72 * (t * t)).
  { unfold z. replace (- (2 / INR N * - (L * L))) with (2 / INR N * (L * L)) by ring. split; [apply Rmult_le_pos; lra|]. rewrite <- E1. apply Rmult_le_compat; lra. }
  assert (Z2 : - z <= 2 / 100) by lra.
  pose proof (amp_pow z N ltac:(lra)) as A. fold a in A.
  assert (NZ : INR N * z = - (2 * (L * L))) by (unfold z; field; lra). rewrite NZ in A.
  assert (AE : Rabs (a - exp (- (2 * (L * L)))) <= C2 * (t * (1 / 100000))).
  { eapply Rle_trans; [exact A|]. set (y := - z) in *.
    replace (INR N * (y ^ 5 / 70 + 4 / 10 ^ 25 * y)) with (INR N * y * (y ^ 4 / 70 + 4 / 10 ^ 25)) by field.
    assert (NY : 0 <= INR N * y <= C2) by (unfold y; replace (INR N * - z) with (- (INR N * z)) by ring; rewrite NZ; unfold C2; lra).
    apply Rmult_le_compat; try lra.
    - assert (0 <= y ^ 4) by (apply pow_le; lra). lra.
    - assert (Y1 : y <= 11 / 100 * t) by lra.
      assert (Y4 : y ^ 4 <= 11 / 100 * t * (2 / 100 * (2 / 100) * (2 / 100))).
      { replace (y ^ 4) with (y * (y * y * y)) by ring. assert (Q2 : 0 <= y * y <= 2 / 100 * (2 / 100)) by (split; [apply Rmult_le_pos; lra|apply Rmult_le_compat; lra]).
        apply Rmult_le_compat; try lra; [apply Rmult_le_pos; lra|apply Rmult_le_compat; lra]. }
      lra. }
  set (r := 1 + L / c0). assert (LE : L = c0 * (r - 1)) by (unfold r; field; lra).
  assert (R0 : 7 / 48 * t - 397 / 40320 * (t * t) <= r <= 7 / 48 * t).
  { split; apply (Rmult_le_reg_l c0); try exact K0; replace (c0 * r) with (c0 + L) by (unfold r; field; lra); lra. }
  set (dl := C2 * (r * (2 - r))).
  assert (X : exp (- (2 * (L * L))) = E * exp dl) by (unfold E, dl; rewrite <- exp_plus; f_equal; rewrite LE; unfold C2; ring).
  assert (R1 : 7 / 24 * t - 41 / 1000 * (t * t) <= r * (2 - r) <= 7 / 24 * t - 21 / 1000 * (t * t)).
  { assert (RU : 0 <= (7 / 48 * t - r) * (2 - r - 7 / 48 * t)) by (apply Rmult_le_pos; lra).
    set (q := 7 / 48 * t - 397 / 40320 * (t * t)) in *. assert (Q0 : 0 <= q) by (unfold q; lra). assert (Q1 : q <= 1 / 10) by (unfold q; lra). assert (RL : 0 <= (r - q) * (2 - r - q)) by (apply Rmult_le_pos; lra).
    assert (QQ : q * q <= 7 / 48 * t * (7 / 48 * t)) by (apply Rmult_le_compat; unfold q in *; lra). unfold q in *. lra. }
  set (u := r * (2 - r)) in *.
  assert (D1 : 0 <= dl) by (unfold dl; apply Rmult_le_pos; lra).
  assert (D2 : 46 / 100 * t <= dl <= 5 / 10 * t).
  { unfold dl. split; [apply Rle_trans with (169 / 100 * u); [lra|apply Rmult_le_compat_r; lra]|apply Rle_trans with (1712 / 1000 * u); [apply Rmult_le_compat_r; lra|lra]]. }
  assert (D3 : dl <= 8 / 100) by lra.
  pose proof (exp2_low dl D1) as EL. pose proof (exp2_up dl (conj D1 D3)) as EU.
  apply Rabs_in in AE. rewrite X in AE.
  assert (EC : 0 < E * C2) by (apply Rmult_lt_0_compat; lra).
  assert (E9 : C2 * (t * (1 / 100000)) <= E * C2 * t * (1 / 10000)).
  { replace (E * C2 * t * (1 / 10000)) with (C2 * (t * (E / 10000))) by field. apply Rmult_le_compat_l; [lra|]. apply Rmult_le_compat_l; lra. }
  assert (V1 : E * (dl * (1 + 23 / 100 * t)) <= E * (exp dl - 1)).
  { apply Rmult_le_compat_l; [lra|]. assert (dl * (23 / 100 * t) <= dl * (dl / 2)) by (apply Rmult_le_compat_l; lra). lra. }
  assert (V2 : E * (exp dl - 1) <= E * (dl * (1 + 26 / 100 * t))).
  { apply Rmult_le_compat_l; [lra|]. assert (dl * (52 / 100 * dl) <= dl * (26 / 100 * t)) by (apply Rmult_le_compat_l; lra). lra. }
  assert (V3 : E * C2 * t * ((7 / 24 - 41 / 1000 * t) * (1 + 23 / 100 * t)) <= E * (dl * (1 + 23 / 100 * t))).
  { replace (E * C2 * t * ((7 / 24 - 41 / 1000 * t) * (1 + 23 / 100 * t))) with (E * C2 * ((7 / 24 * t - 41 / 1000 * (t * t)) * (1 + 23 / 100 * t))) by field.
    unfold dl. replace (E * (C2 * u * (1 + 23 / 100 * t))) with (E * C2 * (u * (1 + 23 / 100 * t))) by ring. apply Rmult_le_compat_l; [lra|]. apply Rmult_le_compat_r; lra. }
  assert (V4 : E * (dl * (1 + 26 / 100 * t)) <= E * C2 * t * ((7 / 24 - 21 / 1000 * t) * (1 + 26 / 100 * t))).
  { replace (E * C2 * t * ((7 / 24 - 21 / 1000 * t) * (1 + 26 / 100 * t))) with (E * C2 * ((7 / 24 * t - 21 / 1000 * (t * t)) * (1 + 26 / 100 * t))) by field.
    unfold dl. replace (E * (C2 * u * (1 + 26 / 100 * t))) with (E * C2 * (u * (1 + 26 / 100 * t))) by ring. apply Rmult_le_compat_l; [lra|]. apply Rmult_le_compat_r; lra. }
  clear - AE V1 V2 V3 V4 E9. lra.
Qed.

Lemma amp_small_h n N : 16 <= n <= 2147483648 -> (1 <= N)%nat -> 2 / INR N <= (10 / n) ^ 4 / 8 ->
  let a := ampl g_lsrk5 (2 / INR N * - (tlam n * tlam n)) ^ N in 0 < a - exp (- C2) <= 21 / (n * n).
Proof.
  intros Hn HN Hdt a. pose proof (amp_test_h n N Hn HN Hdt) as A. cbv zeta in A. fold a in A. pose proof E2_bounds as EB. pose proof C2_bounds as CB.
  pose proof (t_bounds n ltac:(lra)) as TB. set (E := exp (- C2)) in *. set (t := tt_ n) in *.
  assert (EC : 0 < E * C2 <= 1712 / 1000) by (split; [apply Rmult_lt_0_compat; lra|]; apply Rle_trans with (1 * C2); [apply Rmult_le_compat_r; lra|lra]).
  assert (TT : 0 <= t * t <= 155 / 1000 * t) by (split; [nra|apply Rmult_le_compat_r; lra]).
  assert (Et : 0 < E * C2 * t <= 1712 / 1000 * t) by (split; [apply Rmult_lt_0_compat; lra|apply Rmult_le_compat_r; lra]). split.
  - assert (0 < E * C2 * t * ((7 / 24 - 41 / 1000 * t) * (1 + 23 / 100 * t) - 1 / 10000)) by (apply Rmult_lt_0_compat; lra). lra.
  - apply Rle_trans with (1712 / 1000 * t * (301 / 1000)).
    + eapply Rle_trans; [apply A|]. apply Rmult_le_compat; try lra.
    + unfold t, tt_. pose proof PI_bounds. assert (9.8596 < PI * PI < 9.87029) by (clear A EB CB TB EC TT Et; nra). assert (0 < n * n) by (clear A EB CB TB EC TT Et; nra).
      apply (Rmult_le_reg_r (n * n)); [lra|]. replace (1712 / 1000 * (4 * (PI * PI) / (n * n)) * (301 / 1000) * (n * n)) with (1712 / 1000 * (4 * (PI * PI)) * (301 / 1000)) by (field; lra).
      replace (21 / (n * n) * (n * n)) with 21 by (field; lra). lra.
Qed.

Lemma amp_rate_h n N N' : 16 <= n -> 2 * n <= 2147483648 -> (1 <= N)%nat -> 2 / INR N <= (10 / n) ^ 4 / 8 ->
  (1 <= N')%nat -> 2 / INR N' <= (10 / (2 * n)) ^ 4 / 8 ->
  let a := ampl g_lsrk5 (2 / INR N * - (tlam n * tlam n)) ^ N in let a' := ampl g_lsrk5 (2 / INR N' * - (tlam (2 * n) * tlam (2 * n))) ^ N' in let E := exp (- C2) in
  0 < a - E /\ 0 < a' - E /\ Rabs (ln ((a - E) / (a' - E)) / ln 2 - 2) < 5 / 100.
Proof.
  intros H1 H2 HN Hdt HN' Hdt' a a' E.
  pose proof (amp_test_h n N ltac:(lra) HN Hdt) as A. pose proof (amp_test_h (2 * n) N' ltac:(lra) HN' Hdt') as A'. cbv zeta in A, A'. fold a E in A. fold a' E in A'.
  pose proof (amp_small_h n N ltac:(lra) HN Hdt) as [B _]. pose proof (amp_small_h (2 * n) N' ltac:(lra) HN' Hdt') as [B' _]. fold a E in B. fold a' E in B'.
  split; [exact B|]. split; [exact B'|]. apply rate_near.
  assert (T2 : tt_ (2 * n) = tt_ n / 4) by (unfold tt_; field; lra). rewrite T2 in A'.
  pose proof (t_bounds n H1) as TB. set (t := tt_ n) in *. pose proof E2_bounds as EB. fold E in EB. pose proof C2_bounds as CB.
  assert (TT : 0 <= t * t <= 155 / 1000 * t) by (split; [nra|apply Rmult_le_compat_r; lra]).
  set (W := E * C2 * t) in *. assert (W0 : 0 < W) by (apply Rmult_lt_0_compat; [apply Rmult_lt_0_compat; lra|lra]).
  assert (A1 : W * (29 / 100) <= a - E <= W * (3004 / 10000)).
  { split; [eapply Rle_trans; [|apply A]|eapply Rle_trans; [apply A|]]; (apply Rmult_le_compat_l; [lra|]); lra. }
  assert (A2 : W * (2914 / 10000) / 4 <= a' - E <= W * (2945 / 10000) / 4).
  { split; [eapply Rle_trans; [|apply A']|eapply Rle_trans; [apply A'|]];
    [replace (W * (2914 / 10000) / 4) with (E * C2 * (t / 4) * (2914 / 10000)) by (unfold W; field)|replace (W * (2945 / 10000) / 4) with (E * C2 * (t / 4) * (2945 / 10000)) by (unfold W; field)];
    (apply Rmult_le_compat_l; [replace (E * C2 * (t / 4)) with (W / 4) by (unfold W; field); lra|]); lra. }
  clearbody W.
  assert (X : forall p q lo hi, 0 < q -> lo * q <= p <= hi * q -> lo <= p / q <= hi).
  { intros p q lo hi Hq [P1 P2]. split; apply (Rmult_le_reg_r q); try exact Hq; unfold Rdiv; rewrite Rmult_assoc, Rinv_l by lra; lra. }
  apply X; [exact B'|]. lra.
Qed.
