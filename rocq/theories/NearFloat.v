(** Binary64 numbers near real numbers: the error after [k] roundings, relative to a bound of the number. *)
From Coq Require Import ZArith Reals List Bool Lia Lra.
From Coq Require Import Floats.SpecFloat.
From Flocq Require Import Core.Core.
From Verif Require Import Arith Arrays Prog Conc Launch Over Formulas KernBase FloatFacts FloatMass FloatRest.
Import ListNotations.
Open Scope Z_scope.

(** [x] differs from [r] by at most [((1 + 2^-53)^k - 1) b], where [b] bounds [r] and lies between [2^lo] and [2^hi]. *)
Definition ne (x : spec_float) (r : R) (k : nat) (b : R) (lo hi : Z) : Prop :=
  fin x /\ (Rabs r <= b)%R /\ (Rabs (val x - r) <= (q64 ^ k - 1) * b)%R /\ rng b lo hi.

Lemma q_lin k : (k <= 1000)%nat -> (q64 ^ k <= 1 + 1.01 * INR k * eps64)%R.
Proof.
  pose proof eps_small as Es. pose proof eps_pos as Ep. induction k as [|k IH]; intros Hk; [cbn; lra|].
  specialize (IH ltac:(lia)). rewrite S_INR. cbn [pow]. pose proof (pos_INR k) as Pk. assert (Lk : (INR k <= 1000)%R) by (replace 1000%R with (INR 1000) by (rewrite INR_IZR_INZ; f_equal); apply le_INR; lia).
  assert (Q : (q64 * q64 ^ k <= q64 * (1 + 1.01 * INR k * eps64))%R) by (apply Rmult_le_compat_l; [pose proof q0; lra|exact IH]). eapply Rle_trans; [exact Q|]. unfold q64.
  assert (E : (INR k * eps64 <= / 1000000000000)%R) by (apply Rle_trans with (1000 * / 1000000000000000)%R; [apply Rmult_le_compat; lra|lra]).
  assert (E0 : (0 <= INR k * eps64)%R) by (apply Rmult_le_pos; lra).
  assert (E2 : (INR k * eps64 * eps64 <= / 1000000000000 * eps64)%R) by (apply Rmult_le_compat_r; lra). lra.
Qed.
Lemma q_sub k : (0 <= q64 ^ k - 1)%R. Proof. pose proof (qk1 k). lra. Qed.
Lemma rng_wide r a b a' b' : rng r a b -> a' <= a -> b <= b' -> rng r a' b'.
Proof. intros [H1 H2] Ha Hb. split; [eapply Rle_trans; [|exact H1]|eapply Rle_trans; [exact H2|]]; now apply bpow_le. Qed.

Section Near.
Context (cc ss : spec_float -> spec_float) (pp : spec_float).
Local Notation A := (SFA cc ss pp).
Implicit Types x y : F A.

(** One rounding of a number bounded by [W]. *)
Lemma one_rnd (z W : R) : (Rabs z <= W)%R -> (bpow radix2 (-1000) <= W)%R -> (W <= bpow radix2 1002)%R -> small z /\ (Rabs (rnd z - z) <= eps64 * W)%R.
Proof.
  intros Hz L U. assert (T : (tiny <= W)%R) by (apply Rle_trans with (bpow radix2 (-1000)); [now apply bpow_le|exact L]).
  split; [|now apply rnd_err]. unfold small. eapply Rle_lt_trans; [apply rnd_le; [exact Hz|exact T]|]. pose proof eps_small as Es. pose proof eps_pos as Ep. pose proof (bpow_gt_0 radix2 (-1000)).
  apply Rle_lt_trans with (2 * bpow radix2 1002)%R; [apply Rmult_le_compat; lra|]. change 2%R with (bpow radix2 1). rewrite <- bpow_plus. now apply bpow_lt.
Qed.
Lemma ne_abs x r k b lo hi : ne x r k b lo hi -> (Rabs (val x) <= q64 ^ k * b)%R.
Proof. intros (_ & H1 & H2 & _). replace (val x) with ((val x - r) + r)%R by ring. eapply Rle_trans; [apply Rabs_triang|]. lra. Qed.
Lemma ne_pos x r k b lo hi : ne x r k b lo hi -> (0 < b)%R.
Proof. intros (_ & _ & _ & H). now apply rng_pos in H. Qed.
Lemma wide k b lo hi : (k <= 1000)%nat -> rng b lo hi -> -1000 <= lo -> hi <= 1000 -> (bpow radix2 (-1000) <= q64 ^ k * b /\ q64 ^ k * b <= bpow radix2 1002)%R.
Proof.
  intros Hk HB Hlo Hhi. pose proof (rng_pos _ _ _ HB) as P. destruct (rng_wide _ _ _ (-1000) 1000 HB Hlo Hhi) as [B1 B2]. pose proof (qk1 k) as Q1. pose proof (qk_2 k Hk) as Q2. split.
  - apply Rle_trans with (1 * b)%R; [lra|]. apply Rmult_le_compat_r; lra.
  - apply Rle_trans with (4 * bpow radix2 1000)%R; [apply Rmult_le_compat; lra|]. right. change 4%R with (bpow radix2 2). rewrite <- bpow_plus. reflexivity.
Qed.
Lemma ne_re x r k b lo hi r' b' lo' hi' : ne x r k b lo hi -> r = r' -> b = b' -> rng b' lo' hi' -> ne x r' k b' lo' hi'.
Proof. intros (H1 & H2 & H3 & _) <- <- H4. exact (conj H1 (conj H2 (conj H3 H4))). Qed.
Lemma ne_up x r k b lo hi k' : (k <= k')%nat -> ne x r k b lo hi -> ne x r k' b lo hi.
Proof.
  intros Hk HN. pose proof (ne_pos _ _ _ _ _ _ HN). destruct HN as (H1 & H2 & H3 & H4). split; [exact H1|]. split; [exact H2|]. split; [|exact H4].
  eapply Rle_trans; [exact H3|]. apply Rmult_le_compat_r; [lra|]. pose proof (qk_mono k k' Hk). lra.
Qed.
Lemma ne_val x b lo hi : fin x -> (Rabs (val x) <= b)%R -> rng b lo hi -> ne x (val x) 0 b lo hi.
Proof. intros H1 H2 H3. split; [exact H1|]. split; [exact H2|]. split; [|exact H3]. rewrite Rminus_diag_eq, Rabs_R0 by reflexivity. cbn [pow]. lra. Qed.
Lemma ne_ap x r k lo hi : approx x r k -> rng r lo hi -> ne x r k r lo hi.
Proof.
  intros [F1 [B1 B2]] HB. pose proof (rng_pos _ _ _ HB) as P. pose proof (qk1 k) as Q. split; [exact F1|]. split; [rewrite Rabs_pos_eq; lra|]. split; [|exact HB].
  assert (I : (r - r / q64 ^ k <= (q64 ^ k - 1) * r)%R).
  { replace (r - r / q64 ^ k)%R with ((q64 ^ k - 1) * r * / q64 ^ k)%R by (field; lra). rewrite <- (Rmult_1_r ((q64 ^ k - 1) * r)) at 2. apply Rmult_le_compat_l; [apply Rmult_le_pos; lra|].
    rewrite <- Rinv_1. apply Rinv_le_contravar; lra. }
  apply Rabs_le. lra.
Qed.
Lemma ne_mul x y r s i j b c lo1 hi1 lo2 hi2 : ne x r i b lo1 hi1 -> ne y s j c lo2 hi2 -> (i + j <= 900)%nat -> -1000 <= lo1 + lo2 -> hi1 + hi2 <= 1000 ->
  ne (x * y)%fp (r * s) (1 + (i + j)) (b * c) (lo1 + lo2) (hi1 + hi2).
Proof.
  intros HX HY Hk Hlo Hhi. pose proof (ne_abs _ _ _ _ _ _ HX) as A1. pose proof (ne_abs _ _ _ _ _ _ HY) as A2. pose proof (ne_pos _ _ _ _ _ _ HX) as P1. pose proof (ne_pos _ _ _ _ _ _ HY) as P2.
  destruct HX as (F1 & R1 & E1 & G1), HY as (F2 & R2 & E2 & G2). pose proof (rng_mul _ _ _ _ _ _ G1 G2) as G.
  assert (BV : (Rabs (val x * val y) <= q64 ^ (i + j) * (b * c))%R).
  { rewrite Rabs_mult, pow_add. replace (q64 ^ i * q64 ^ j * (b * c))%R with (q64 ^ i * b * (q64 ^ j * c))%R by ring. apply Rmult_le_compat; auto using Rabs_pos. }
  destruct (wide (i + j) (b * c) _ _ ltac:(lia) G Hlo Hhi) as [W1 W2]. destruct (one_rnd _ _ BV W1 W2) as [Sm Er].
  destruct (mul_ok cc ss pp x y F1 F2 Sm) as [F V]. split; [exact F|].
  split; [rewrite Rabs_mult; apply Rmult_le_compat; auto using Rabs_pos|]. split; [|exact G]. rewrite V.
  assert (D : (Rabs (val x * val y - r * s) <= (q64 ^ (i + j) - 1) * (b * c))%R).
  { replace (val x * val y - r * s)%R with ((val x - r) * val y + r * (val y - s))%R by ring. eapply Rle_trans; [apply Rabs_triang|]. rewrite !Rabs_mult, pow_add.
    apply Rle_trans with ((q64 ^ i - 1) * b * (q64 ^ j * c) + b * ((q64 ^ j - 1) * c))%R; [|right; ring].
    apply Rplus_le_compat; apply Rmult_le_compat; auto using Rabs_pos. }
  replace (rnd (val x * val y) - r * s)%R with ((rnd (val x * val y) - val x * val y) + (val x * val y - r * s))%R by ring. eapply Rle_trans; [apply Rabs_triang|].
  cbn [Nat.add pow]. unfold q64 at 1. lra.
Qed.
Lemma ne_add x y r s i b c lo1 hi1 lo2 hi2 lo hi : ne x r i b lo1 hi1 -> ne y s i c lo2 hi2 -> (i <= 900)%nat -> rng (b + c) lo hi -> -1000 <= lo -> hi <= 1000 ->
  ne (x + y)%fp (r + s) (1 + i) (b + c) lo hi.
Proof.
  intros HX HY Hk G Hlo Hhi. pose proof (ne_abs _ _ _ _ _ _ HX) as A1. pose proof (ne_abs _ _ _ _ _ _ HY) as A2.
  destruct HX as (F1 & R1 & E1 & G1), HY as (F2 & R2 & E2 & G2).
  assert (BV : (Rabs (val x + val y) <= q64 ^ i * (b + c))%R) by (eapply Rle_trans; [apply Rabs_triang|]; lra).
  destruct (wide i (b + c) _ _ ltac:(lia) G Hlo Hhi) as [W1 W2]. destruct (one_rnd _ _ BV W1 W2) as [Sm Er].
  destruct (add_ok cc ss pp x y F1 F2 Sm) as [F V]. split; [exact F|]. split; [eapply Rle_trans; [apply Rabs_triang|]; lra|]. split; [|exact G]. rewrite V.
  assert (D : (Rabs (val x + val y - (r + s)) <= (q64 ^ i - 1) * (b + c))%R).
  { replace (val x + val y - (r + s))%R with ((val x - r) + (val y - s))%R by ring. eapply Rle_trans; [apply Rabs_triang|]. lra. }
  replace (rnd (val x + val y) - (r + s))%R with ((rnd (val x + val y) - (val x + val y)) + (val x + val y - (r + s)))%R by ring. eapply Rle_trans; [apply Rabs_triang|].
  cbn [Nat.add pow]. unfold q64 at 1. lra.
Qed.
Lemma ne_sub x y r s i b c lo1 hi1 lo2 hi2 lo hi : ne x r i b lo1 hi1 -> ne y s i c lo2 hi2 -> (i <= 900)%nat -> rng (b + c) lo hi -> -1000 <= lo -> hi <= 1000 ->
  ne (x - y)%fp (r - s) (1 + i) (b + c) lo hi.
Proof.
  intros HX HY Hk G Hlo Hhi. pose proof (ne_abs _ _ _ _ _ _ HX) as A1. pose proof (ne_abs _ _ _ _ _ _ HY) as A2.
  destruct HX as (F1 & R1 & E1 & G1), HY as (F2 & R2 & E2 & G2).
  assert (BV : (Rabs (val x - val y) <= q64 ^ i * (b + c))%R) by (eapply Rle_trans; [apply Rabs_triang|]; rewrite Rabs_Ropp; lra).
  destruct (wide i (b + c) _ _ ltac:(lia) G Hlo Hhi) as [W1 W2]. destruct (one_rnd _ _ BV W1 W2) as [Sm Er].
  destruct (sub_ok cc ss pp x y F1 F2 Sm) as [F V]. split; [exact F|]. split; [eapply Rle_trans; [apply Rabs_triang|]; rewrite Rabs_Ropp; lra|]. split; [|exact G]. rewrite V.
  assert (D : (Rabs (val x - val y - (r - s)) <= (q64 ^ i - 1) * (b + c))%R).
  { replace (val x - val y - (r - s))%R with ((val x - r) + - (val y - s))%R by ring. eapply Rle_trans; [apply Rabs_triang|]. rewrite Rabs_Ropp. lra. }
  replace (rnd (val x - val y) - (r - s))%R with ((rnd (val x - val y) - (val x - val y)) + (val x - val y - (r - s)))%R by ring. eapply Rle_trans; [apply Rabs_triang|].
  cbn [Nat.add pow]. unfold q64 at 1. lra.
Qed.
Lemma ne_add0 x y r k b lo hi : zero x -> ne y r k b lo hi -> ne (x + y)%fp r k b lo hi.
Proof.
  intros [F0 V0] (F1 & R1 & E1 & G1). assert (E : rnd (val x + val y) = val y) by (rewrite V0, Rplus_0_l; now apply rnd_val, fin_dbl).
  destruct (add_ok cc ss pp x y F0 F1) as [F V]; [unfold small; rewrite E; now apply fin_lt|]. split; [exact F|]. split; [exact R1|]. split; [|exact G1]. now rewrite V, E.
Qed.
Lemma rng_n b lo hi n : rng b lo hi -> (1 <= n <= 8)%R -> rng (n * b) lo (hi + 3).
Proof.
  intros HB Hn. pose proof (rng_pos _ _ _ HB) as P. destruct HB as [B1 B2]. split.
  - apply Rle_trans with (1 * b)%R; [lra|]. apply Rmult_le_compat_r; lra.
  - rewrite bpow_plus, Rmult_comm. apply Rmult_le_compat; try lra. cbn; lra.
Qed.
(** A sum of six terms, added one after the other to zero. *)
Lemma ne_six (p : Z -> F A) (r : Z -> R) k b lo hi : (k <= 800)%nat -> -1000 <= lo -> hi <= 900 -> (forall j, 0 <= j < 6 -> ne (p j) (r j) k b lo hi) ->
  ne (iterZ 6 (fun j y => y + p j)%fp (#0)%fp) (r 0%Z + r 1%Z + r 2%Z + r 3%Z + r 4%Z + r 5%Z)%R (5 + k) (6 * b) lo (hi + 3).
Proof.
  intros Hk Hlo Hhi HN. assert (G : rng b lo hi) by apply (HN 0 ltac:(lia)).
  pose proof (ne_add0 _ _ _ _ _ _ _ (z0 cc ss pp) (HN 0 ltac:(lia))) as S0.
  assert (U : forall j i, 0 <= j < 6 -> ne (p j) (r j) (i + k) b lo hi) by (intros j i Hj; apply (ne_up _ _ k); [lia|now apply HN]).
  assert (Gn : forall n, (1 <= n <= 7)%R -> rng (n * b + b) lo (hi + 3)) by (intros n Hn; replace (n * b + b)%R with ((n + 1) * b)%R by ring; apply rng_n; [exact G|lra]).
  replace (6 * b)%R with (b + b + b + b + b + b)%R by ring. change (iterZ 6 (fun j y => y + p j)%fp (#0)%fp) with (#0 + p 0%Z + p 1%Z + p 2%Z + p 3%Z + p 4%Z + p 5%Z)%fp.
  assert (GG : rng (b + b) lo (hi + 3) /\ rng (b + b + b) lo (hi + 3) /\ rng (b + b + b + b) lo (hi + 3) /\ rng (b + b + b + b + b) lo (hi + 3) /\ rng (b + b + b + b + b + b) lo (hi + 3)).
  { repeat split; match goal with |- (_ <= ?z)%R => idtac | |- (?z <= _)%R => idtac end.
    all: pose proof (Gn 1%R ltac:(lra)) as [X1 Y1]; pose proof (Gn 2%R ltac:(lra)) as [X2 Y2]; pose proof (Gn 3%R ltac:(lra)) as [X3 Y3]; pose proof (Gn 4%R ltac:(lra)) as [X4 Y4]; pose proof (Gn 5%R ltac:(lra)) as [X5 Y5]; lra. }
  destruct GG as (G2 & G3 & G4 & G5 & G6).
  pose proof (ne_add _ _ _ _ _ _ _ _ _ _ _ _ _ S0 (U 1 0%nat ltac:(lia)) ltac:(lia) G2 ltac:(lia) ltac:(lia)) as S1.
  pose proof (ne_add _ _ _ _ _ _ _ _ _ _ _ _ _ S1 (U 2 1%nat ltac:(lia)) ltac:(lia) G3 ltac:(lia) ltac:(lia)) as S2.
  pose proof (ne_add _ _ _ _ _ _ _ _ _ _ _ _ _ S2 (U 3 2%nat ltac:(lia)) ltac:(lia) G4 ltac:(lia) ltac:(lia)) as S3.
  pose proof (ne_add _ _ _ _ _ _ _ _ _ _ _ _ _ S3 (U 4 3%nat ltac:(lia)) ltac:(lia) G5 ltac:(lia) ltac:(lia)) as S4.
  exact (ne_add _ _ _ _ _ _ _ _ _ _ _ _ _ S4 (U 5 4%nat ltac:(lia)) ltac:(lia) G6 ltac:(lia) ltac:(lia)).
Qed.
End Near.
