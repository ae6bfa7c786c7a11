(** Bounds of the eigenvalues of the discrete Laplacian and of the amplification factors. *)
From Coq Require Import ZArith Reals List Bool Lia Lra Psatz.
From Verif Require Import Arith Arrays Prog Conc Launch Mesh AuxVars Tend Model Diffuse Modes DecayNum Driver WaveRun.
Import ListNotations.
Local Open Scope R_scope.

Lemma lam_bounds d k l : 0 < d -> let K := k * k + l * l in
  - K <= lam d k l <= - K + d * d * (K * K) / 16 /\ - (6 / (d * d)) <= lam d k l <= 0.
Proof.
  intros Hd K. unfold lam.
  set (a := d * k). set (w := d * (sqrt 3 / 2) * l).
  replace (d / 2 * k + w) with (w + a / 2) by (unfold a; field). replace (- (d / 2) * k + w) with (w - a / 2) by (unfold a; field).
  pose proof (sqrt_sqrt 3 ltac:(lra)) as S3.
  assert (W : w * w = 3 / 4 * (d * d) * (l * l)) by (transitivity (sqrt 3 * sqrt 3 * (d * d) * (l * l) / 4); [unfold w; field|rewrite S3; field]).
  assert (E : a * a = d * d * (k * k)) by (unfold a; ring).
  set (s := cos a + cos (w + a / 2) + cos (w - a / 2) - 3).
  assert (D : 0 < d * d) by nra.
  assert (F : 0 < 4 / (3 * (d * d))) by (apply Rdiv_lt_0_compat; lra).
  pose proof (cos_bounds a) as [A _]. pose proof (cos_bounds (w + a / 2)) as [B _]. pose proof (cos_bounds (w - a / 2)) as [C _].
  assert (L : - (3 / 4 * (d * d) * K) <= s).
  { assert (Q : a * a + (w + a / 2) * (w + a / 2) + (w - a / 2) * (w - a / 2) = 3 / 2 * (d * d) * K)
      by (transitivity (3 / 2 * (a * a) + 2 * (w * w)); [field|rewrite W, E; unfold K; field]). unfold s. lra. }
  assert (U : s <= - (3 / 4 * (d * d) * K) + 3 / 64 * (d * d) * (d * d) * (K * K)).
  { assert (Q : a * a + (w + a / 2) * (w + a / 2) + (w - a / 2) * (w - a / 2) = 3 / 2 * (d * d) * K)
      by (transitivity (3 / 2 * (a * a) + 2 * (w * w)); [field|rewrite W, E; unfold K; field]).
    assert (Q4 : a * a * a * a + (w + a / 2) * (w + a / 2) * (w + a / 2) * (w + a / 2) + (w - a / 2) * (w - a / 2) * (w - a / 2) * (w - a / 2) = 9 / 8 * (d * d) * (d * d) * (K * K)).
    { transitivity (9 / 8 * ((a * a) * (a * a)) + 3 * ((a * a) * (w * w)) + 2 * ((w * w) * (w * w))); [field|rewrite W, E; unfold K; field]. }
    unfold s. lra. }
  assert (T : - (9 / 2) <= s <= 0).
  { split.
    - unfold s.
      replace (cos a + cos (w + a / 2) + cos (w - a / 2)) with (cos a + (cos (w + a / 2) + cos (w - a / 2))) by ring. rewrite cos_second.
      replace a with (2 * (a / 2)) at 1 by field. rewrite cos_2a_cos. pose proof (COS_bound w). pose proof (COS_bound (a / 2)). set (u := cos (a / 2)) in *. set (v := cos w) in *.
      destruct (Rle_or_lt 0 u).
      + assert (0 <= u * (1 + v)) by (apply Rmult_le_pos; lra). assert (0 <= (u - 1 / 2) * (u - 1 / 2)) by apply Rle_0_sqr. lra.
      + assert (0 <= - u * (1 - v)) by (apply Rmult_le_pos; lra). assert (0 <= (u + 1 / 2) * (u + 1 / 2)) by apply Rle_0_sqr. lra.
    - unfold s. pose proof (COS_bound a). pose proof (COS_bound (w + a / 2)). pose proof (COS_bound (w - a / 2)). lra. }
  split; [split|split].
  - replace (- K) with (4 / (3 * (d * d)) * (- (3 / 4 * (d * d) * K))) by (field; lra). apply Rmult_le_compat_l; lra.
  - replace (- K + d * d * (K * K) / 16) with (4 / (3 * (d * d)) * (- (3 / 4 * (d * d) * K) + 3 / 64 * (d * d) * (d * d) * (K * K))) by (field; lra). apply Rmult_le_compat_l; lra.
  - replace (- (6 / (d * d))) with (4 / (3 * (d * d)) * (- (9 / 2))) by (field; lra). apply Rmult_le_compat_l; lra.
  - replace 0 with (4 / (3 * (d * d)) * 0) by ring. apply Rmult_le_compat_l; lra.
Qed.

(** The stability intervals on the negative real axis. *)
Lemma stab_rk4 z : - (278 / 100) <= z <= 0 -> Rabs (ampl g_rk4 z) <= 1.
Proof.
  intros Hz. apply Rabs_le. unfold ampl, g_rk4. set (w := - z). assert (Hw : 0 <= w <= 278 / 100) by (unfold w; lra). replace z with (- w) by (unfold w; ring). clearbody w. clear z Hz.
  replace (1 + 1 * - w + / 2 * (- w) ^ 2 + / 6 * (- w) ^ 3 + / 24 * (- w) ^ 4 + 0 * (- w) ^ 5) with (1 - w + w * w / 2 - w * w * w / 6 + w * w * w * w / 24) by field. split.
  - assert (H : 0 <= w * w * (w - 2) * (w - 2)) by (replace (w * w * (w - 2) * (w - 2)) with ((w * (w - 2)) * (w * (w - 2))) by ring; apply Rle_0_sqr).
    assert (0 <= w * w / 3 - w + 2) by nra. lra.
  - assert (H : 0 <= 1 - w / 2 + w * w / 6 - w * w * w / 24) by nra.
    assert (0 <= w * (1 - w / 2 + w * w / 6 - w * w * w / 24)) by (apply Rmult_le_pos; lra). lra.
Qed.
Lemma stab_euler z : - 2 <= z <= 0 -> Rabs (ampl g_euler z) <= 1.
Proof. intros Hz. apply Rabs_le. unfold ampl, g_euler. lra. Qed.
Lemma stab_none z : Rabs (ampl g_none z) <= 1.
Proof. apply Rabs_le. unfold ampl, g_none. lra. Qed.
Lemma near_mul e c x w : Rabs (c - x) <= e -> 0 <= w -> x * w - e * w <= c * w <= x * w + e * w.
Proof. intros H Hw. assert (B : - e <= c - x <= e) by (revert H; unfold Rabs; destruct (Rcase_abs _); lra). split; nra. Qed.
Lemma stab_lsrk5 z : - (45 / 10) <= z <= 0 -> Rabs (ampl g_lsrk5 z) <= 1.
Proof.
  intros Hz. apply Rabs_le. pose proof g5_order as (G0 & G1 & G2 & G3 & G4 & G5). unfold ampl.
  set (w := - z). assert (Hw : 0 <= w <= 45 / 10) by (unfold w; lra). replace z with (- w) by (unfold w; ring). clearbody w. clear z Hz.
  rewrite G0. set (e := 1 / 10 ^ 25) in *. assert (He : 0 < e <= / 1000000) by (unfold e; lra).
  set (c1 := g_lsrk5 1) in *. set (c2 := g_lsrk5 2) in *. set (c3 := g_lsrk5 3) in *. set (c4 := g_lsrk5 4) in *. set (c5 := g_lsrk5 5) in *.
  replace (1 + c1 * - w + c2 * (- w) ^ 2 + c3 * (- w) ^ 3 + c4 * (- w) ^ 4 + c5 * (- w) ^ 5)
    with (1 - w * (c1 - c2 * w + c3 * (w * w) - c4 * (w * w * w) + c5 * ((w * w) * (w * w)))) by ring.
  assert (W2 : 0 <= w * w <= 21) by nra. assert (W3 : 0 <= w * w * w <= 95) by nra. assert (W4 : 0 <= (w * w) * (w * w) <= 441) by nra.
  clearbody e. assert (B1 : - e <= c1 - 1 <= e) by (revert G1; unfold Rabs; destruct (Rcase_abs _); lra).
  pose proof (near_mul _ _ _ w G2 ltac:(lra)) as B2. pose proof (near_mul _ _ _ _ G3 (proj1 W2)) as B3. pose proof (near_mul _ _ _ _ G4 (proj1 W3)) as B4.
  assert (B5 : 49 / 10000 * ((w * w) * (w * w)) <= c5 * ((w * w) * (w * w)) <= 51 / 10000 * ((w * w) * (w * w))) by (split; apply Rmult_le_compat_r; lra).
  assert (X1 : e * w <= 45 / 10 * e) by nra. assert (X2 : e * (w * w) <= 21 * e) by nra. assert (X3 : e * (w * w * w) <= 95 * e) by nra.
  set (f := c1 - c2 * w + c3 * (w * w) - c4 * (w * w * w) + c5 * ((w * w) * (w * w))) in *.
  assert (L : 0 <= f).
  { pose proof (Rle_0_sqr (w * w - 425 / 100 * w)) as Q. unfold Rsqr in Q.
    pose proof (Rle_0_sqr (w - 32 / 10)) as Q2. unfold Rsqr in Q2. unfold f. lra. }
  split; [|assert (0 <= w * f) by (apply Rmult_le_pos; lra); lra].
  assert (U : f <= 1 - w / 2 + w * w / 6 - w * w * w / 24 + 51 / 10000 * ((w * w) * (w * w)) + 200 * e) by (unfold f; lra).
  assert (U2 : w * f <= w * (1 - w / 2 + w * w / 6 - w * w * w / 24 + 51 / 10000 * ((w * w) * (w * w)) + 200 * e)) by (apply Rmult_le_compat_l; lra).
  assert (V : 51 / 10000 * w * ((w * w) * (w * w)) <= 51 / 10000 * (45 / 10) * ((w * w) * (w * w))) by (apply Rmult_le_compat_r; lra).
  pose proof (Rle_0_sqr (w * w - 445 / 100 * w)) as Q. unfold Rsqr in Q.
  pose proof (Rle_0_sqr (w - 3876 / 1000)) as Q2. unfold Rsqr in Q2.
  lra.
Qed.
