(** Bounds on the exponential, sine and cosine, and the numbers behind the tracer diffusion test. *)
From Coq Require Import ZArith Reals Lia Lra Machin.
From Verif Require Import Deriv Diffuse.
Open Scope R_scope.

Lemma neg_mono (f f' : R -> R) : (forall s, derivable_pt_lim f s (f' s)) -> f 0 = 0 -> (forall s, s <= 0 -> 0 <= f' s) -> forall z, z <= 0 -> f z <= 0.
Proof.
  intros D F0 F1 z [Hz| ->]; [|lra]. destruct (MVT_cor2 f f' z 0 Hz (fun c _ => D c)) as (c & E & Hc).
  assert (0 <= f' c * (0 - z)); [|lra]. apply Rmult_le_pos; [apply F1; lra|lra].
Qed.
Lemma pos_mono (f f' : R -> R) : (forall s, derivable_pt_lim f s (f' s)) -> f 0 = 0 -> (forall s, 0 <= s -> 0 <= f' s) -> forall z, 0 <= z -> 0 <= f z.
Proof.
  intros D F0 F1 z [Hz| <-]; [|lra]. destruct (MVT_cor2 f f' 0 z Hz (fun c _ => D c)) as (c & E & Hc).
  assert (0 <= f' c * (z - 0)); [|lra]. apply Rmult_le_pos; [apply F1; lra|lra].
Qed.
Ltac dd := intros s; der; field.
Lemma exp1 z : z <= 0 -> 1 + z <= exp z.
Proof.
  intros Hz. enough (1 + z - exp z <= 0) by lra. apply (neg_mono (fun z => 1 + z - exp z) (fun z => 1 - exp z)); [dd|rewrite exp_0; ring| |exact Hz].
  intros s [Hs| ->]; [pose proof (exp_increasing s 0 Hs) as Q; rewrite exp_0 in Q; lra|rewrite exp_0; lra].
Qed.
Lemma exp2 z : z <= 0 -> exp z <= 1 + z + z * z / 2.
Proof.
  intros Hz. enough (exp z - (1 + z + z * z / 2) <= 0) by lra.
  apply (neg_mono (fun z => exp z - (1 + z + z * z / 2)) (fun z => exp z - (1 + z))); [dd|rewrite exp_0; lra| |exact Hz].
  intros s Hs. pose proof (exp1 s Hs). lra.
Qed.
Lemma exp3 z : z <= 0 -> 1 + z + z * z / 2 + z * z * z / 6 <= exp z.
Proof.
  intros Hz. enough (1 + z + z * z / 2 + z * z * z / 6 - exp z <= 0) by lra.
  apply (neg_mono (fun z => 1 + z + z * z / 2 + z * z * z / 6 - exp z) (fun z => 1 + z + z * z / 2 - exp z)); [dd|rewrite exp_0; lra| |exact Hz].
  intros s Hs. pose proof (exp2 s Hs). lra.
Qed.
Lemma exp4 z : z <= 0 -> exp z <= 1 + z + z * z / 2 + z * z * z / 6 + z * z * z * z / 24.
Proof.
  intros Hz. enough (exp z - (1 + z + z * z / 2 + z * z * z / 6 + z * z * z * z / 24) <= 0) by lra.
  apply (neg_mono (fun z => exp z - (1 + z + z * z / 2 + z * z * z / 6 + z * z * z * z / 24)) (fun z => exp z - (1 + z + z * z / 2 + z * z * z / 6))); [dd|rewrite exp_0; lra| |exact Hz].
  intros s Hs. pose proof (exp3 s Hs). lra.
Qed.
Lemma exp5 z : z <= 0 -> 1 + z + z * z / 2 + z * z * z / 6 + z * z * z * z / 24 + z * z * z * z * z / 120 <= exp z.
Proof.
  intros Hz. enough (1 + z + z * z / 2 + z * z * z / 6 + z * z * z * z / 24 + z * z * z * z * z / 120 - exp z <= 0) by lra.
  apply (neg_mono (fun z => 1 + z + z * z / 2 + z * z * z / 6 + z * z * z * z / 24 + z * z * z * z * z / 120 - exp z) (fun z => 1 + z + z * z / 2 + z * z * z / 6 + z * z * z * z / 24 - exp z)); [dd|rewrite exp_0; lra| |exact Hz].
  intros s Hs. pose proof (exp4 s Hs). lra.
Qed.
Lemma exp_ge x : 1 + x <= exp x.
Proof.
  destruct (Rle_or_lt x 0) as [Hx|Hx]; [now apply exp1|]. left. apply exp_ineq1; lra.
Qed.

Lemma sin1 z : 0 <= z -> sin z <= z.
Proof. intros [H| <-]; [left; now apply sin_lt_x|rewrite sin_0; lra]. Qed.
Lemma cos2 z : 0 <= z -> 1 - z * z / 2 <= cos z.
Proof.
  intros Hz. enough (0 <= cos z - (1 - z * z / 2)) by lra. apply (pos_mono (fun z => cos z - (1 - z * z / 2)) (fun z => z - sin z)); [dd|rewrite cos_0; lra| |exact Hz].
  intros s Hs. pose proof (sin1 s Hs). lra.
Qed.
Lemma sin3 z : 0 <= z -> z - z * z * z / 6 <= sin z.
Proof.
  intros Hz. enough (0 <= sin z - (z - z * z * z / 6)) by lra. apply (pos_mono (fun z => sin z - (z - z * z * z / 6)) (fun z => cos z - (1 - z * z / 2))); [dd|rewrite sin_0; lra| |exact Hz].
  intros s Hs. pose proof (cos2 s Hs). lra.
Qed.
Lemma cos4 z : 0 <= z -> cos z <= 1 - z * z / 2 + z * z * z * z / 24.
Proof.
  intros Hz. enough (0 <= 1 - z * z / 2 + z * z * z * z / 24 - cos z) by lra.
  apply (pos_mono (fun z => 1 - z * z / 2 + z * z * z * z / 24 - cos z) (fun z => sin z - (z - z * z * z / 6))); [dd|rewrite cos_0; lra| |exact Hz].
  intros s Hs. pose proof (sin3 s Hs). lra.
Qed.
Lemma sin5 z : 0 <= z -> sin z <= z - z * z * z / 6 + z * z * z * z * z / 120.
Proof.
  intros Hz. enough (0 <= z - z * z * z / 6 + z * z * z * z * z / 120 - sin z) by lra.
  apply (pos_mono (fun z => z - z * z * z / 6 + z * z * z * z * z / 120 - sin z) (fun z => 1 - z * z / 2 + z * z * z * z / 24 - cos z)); [dd|rewrite sin_0; lra| |exact Hz].
  intros s Hs. pose proof (cos4 s Hs). lra.
Qed.
Lemma cos6 z : 0 <= z -> 1 - z * z / 2 + z * z * z * z / 24 - z * z * z * z * z * z / 720 <= cos z.
Proof.
  intros Hz. enough (0 <= cos z - (1 - z * z / 2 + z * z * z * z / 24 - z * z * z * z * z * z / 720)) by lra.
  apply (pos_mono (fun z => cos z - (1 - z * z / 2 + z * z * z * z / 24 - z * z * z * z * z * z / 720)) (fun z => z - z * z * z / 6 + z * z * z * z * z / 120 - sin z)); [dd|rewrite cos_0; lra| |exact Hz].
  intros s Hs. pose proof (sin5 s Hs). lra.
Qed.
Lemma cos_bounds z : 1 - z * z / 2 <= cos z <= 1 - z * z / 2 + z * z * z * z / 24 /\ 1 - z * z / 2 + z * z * z * z / 24 - z * z * z * z * z * z / 720 <= cos z.
Proof.
  destruct (Rle_or_lt 0 z) as [Hz|Hz].
  - pose proof (cos2 z Hz). pose proof (cos4 z Hz). pose proof (cos6 z Hz). lra.
  - assert (Hz' : 0 <= - z) by lra. pose proof (cos2 _ Hz') as A. pose proof (cos4 _ Hz') as B. pose proof (cos6 _ Hz') as C. rewrite cos_neg in *.
    replace (- z * - z) with (z * z) in * by ring. replace (z * z * - z * - z) with (z * z * z * z) in * by ring.
    replace (z * z * z * z * - z * - z) with (z * z * z * z * z * z) in * by ring. lra.
Qed.

Lemma PI_bounds : 314 / 100 < PI < 31417 / 10000.
Proof.
  pose proof (PI_2_3_7_ineq 2) as H. cbn [sum_f_R0 Nat.mul Nat.add] in H. unfold tg_alt, PI_2_3_7_tg, Ratan_seq in H.
  cbn [pow Nat.add Nat.mul INR] in H. lra.
Qed.
