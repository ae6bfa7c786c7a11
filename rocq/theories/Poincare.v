(** A Poincare inequality on the mesh: the sum of squares of a field with mean zero is bounded by the squares of its differences
    across the edges, with the square of the larger side of the mesh as constant. *)
From Coq Require Import ZArith Reals List Bool Lia Lra.
From Verif Require Import Arith Arrays Prog Conc Mesh Hex HexComb RSum Spec MeshProof MeshMem MeshFacts MeshR MeshCalc SumParts LinNorm TestRunFn.
Import ListNotations.
Open Scope Z_scope.

(** ** One dimension *)
Lemma rsum_sq n a : 0 <= n -> (rsum n a * rsum n a <= IZR n * rsum n (fun k => a k * a k))%R.
Proof.
  intros Hn. destruct (Z.eq_dec n 0) as [->|N0]; [rewrite !rsum_0; lra|]. assert (Pn : (0 < IZR n)%R) by (apply IZR_lt; lia).
  assert (Q : (0 <= rsum n (fun k => (IZR n * a k - rsum n a) * (IZR n * a k - rsum n a)))%R) by (apply rsum_nonneg; intros; apply Rle_0_sqr).
  rewrite (rsum_ext n _ (fun k => (IZR n * IZR n) * (a k * a k) + ((-2 * IZR n * rsum n a) * a k + rsum n a * rsum n a))%R) in Q by (intros; ring).
  rewrite rsum_plus, rsum_scal, rsum_plus, rsum_scal, rsum_const in Q by lia.
  apply (Rmult_le_reg_l (IZR n)); [exact Pn|]. lra.
Qed.
Lemma rsum_mono n n' a : 0 <= n <= n' -> (forall k, 0 <= k < n' -> (0 <= a k)%R) -> (rsum n a <= rsum n' a)%R.
Proof.
  intros [H0 H1] Ha. replace n' with (n + (n' - n)) in * by lia. remember (n' - n) as q. assert (Hq : 0 <= q) by lia. clear Heqq H1. revert q Hq Ha.
  apply (natlike_ind (fun q => (forall k, 0 <= k < n + q -> (0 <= a k)%R) -> (rsum n a <= rsum (n + q) a)%R)).
  - intros _. rewrite Z.add_0_r. lra.
  - intros q Hq IH Ha. unfold Z.succ in *. rewrite Z.add_assoc, rsum_succ by lia. assert (rsum n a <= rsum (n + q) a)%R by (apply IH; intros; apply Ha; lia). pose proof (Ha (n + q) ltac:(lia)). lra.
Qed.
Lemma walk n g i i' : 0 <= i <= i' -> i' < n -> (Rabs (g i' - g i) <= rsum n (fun k => Rabs (g k - g (mxc n k))))%R.
Proof.
  intros [H0 H1] H2. set (a := fun k => Rabs (g k - g (mxc n k))).
  assert (Ha : forall k, (0 <= a k)%R) by (intros; apply Rabs_pos).
  assert (G : forall q, 0 <= q -> i + q < n -> (Rabs (g (i + q)%Z - g i) <= rsum (i + q + 1) a - rsum (i + 1) a)%R).
  { apply (natlike_ind (fun q => i + q < n -> (Rabs (g (i + q)%Z - g i) <= rsum (i + q + 1) a - rsum (i + 1) a)%R)).
    - intros _. rewrite Z.add_0_r, !Rminus_diag_eq, Rabs_R0 by reflexivity. lra.
    - intros q Hq IH Hn. unfold Z.succ in *. specialize (IH ltac:(lia)). replace (i + (q + 1) + 1) with ((i + q + 1) + 1) by ring. rewrite (rsum_succ (i + q + 1)) by lia.
      assert (E : a (i + q + 1) = Rabs (g (i + q + 1)%Z - g (i + q)%Z)).
      { unfold a. replace (mxc n (i + q + 1)) with (i + q); [reflexivity|]. unfold mxc. destruct (Z.eqb_spec (i + q + 1) 0); lia. }
      rewrite E. replace (i + (q + 1)) with (i + q + 1) by ring. replace (g (i + q + 1)%Z - g i)%R with ((g (i + q + 1)%Z - g (i + q)%Z) + (g (i + q)%Z - g i))%R by ring.
      eapply Rle_trans; [apply Rabs_triang|]. lra. }
  specialize (G (i' - i) ltac:(lia) ltac:(lia)). replace (i + (i' - i)) with i' in G by ring. eapply Rle_trans; [exact G|].
  pose proof (rsum_mono (i' + 1) n a ltac:(lia) ltac:(auto)). assert (0 <= rsum (i + 1) a)%R by (apply rsum_nonneg; auto). unfold a in *. lra.
Qed.
Lemma walk_sq n g i i' : 0 <= i < n -> 0 <= i' < n -> ((g i' - g i) * (g i' - g i) <= IZR n * rsum n (fun k => (g k - g (mxc n k)) * (g k - g (mxc n k))))%R.
Proof.
  intros Hi Hi'. set (A := rsum n (fun k => Rabs (g k - g (mxc n k)))).
  assert (B : (Rabs (g i' - g i) <= A)%R) by (destruct (Z_le_gt_dec i i'); [apply walk; lia|rewrite Rabs_minus_sym; apply walk; lia]).
  pose proof (rsum_sq n (fun k => Rabs (g k - g (mxc n k))) ltac:(lia)) as Q. cbv beta in Q. fold A in Q.
  rewrite (rsum_ext n (fun k => Rabs (g k - g (mxc n k)) * Rabs (g k - g (mxc n k)))%R (fun k => (g k - g (mxc n k)) * (g k - g (mxc n k)))%R) in Q
    by (intros; rewrite <- Rabs_mult; apply Rabs_right, Rle_ge, Rle_0_sqr).
  eapply Rle_trans; [|exact Q]. rewrite <- (Rabs_right ((g i' - g i) * (g i' - g i))) by apply Rle_ge, Rle_0_sqr. rewrite Rabs_mult. apply Rmult_le_compat; try apply Rabs_pos; exact B.
Qed.

(** ** The mesh *)
Section Mesh.
Context (cf : config) (h : hexargs RA) (Hok : mesh_ok cf h).
Local Notation X := (nx h).
Local Notation Y := (ny h).
Local Notation NC := (nx h * ny h).
Let Hx := Hx cf h Hok.
Let Hy := Hy cf h Hok.
Local Notation hcoe := (hcoe X Y).
Context (phi : Z -> R).
Definition row_part (r : Z) : R := rsum X (fun i => (phi (cix X i r) - phi (cix X (mxc X i) r)) * (phi (cix X i r) - phi (cix X (mxc X i) r)))%R.
Definition col_part (i : Z) : R := rsum Y (fun r => (phi (cix X i r) - phi (cix X i (myr Y r))) * (phi (cix X i r) - phi (cix X i (myr Y r))))%R.
Local Notation diff2 := (rsum (3 * NC) (fun e => (phi (hcoe e 1) - phi (hcoe e 0)) * (phi (hcoe e 1) - phi (hcoe e 0)))%R).
Lemma cells_div (f : Z -> Z -> R) : rsum NC (fun c => f (rowof X c) (colof X c)) = rsum Y (fun r => rsum X (fun i => f r i)).
Proof. rewrite Z.mul_comm. apply rsum_div; lia. Qed.
Lemma cix_c c : cix X (colof X c) (rowof X c) = c.
Proof. unfold cix, colof, rowof. rewrite (Z.div_mod c X) at 3 by lia. ring. Qed.
Lemma parts_le : (rsum Y row_part + rsum X col_part <= diff2)%R.
Proof.
  unfold row_part, col_part. rewrite (rsum_swap X Y). rewrite <- (cells_div (fun r i => (phi (cix X i r) - phi (cix X (mxc X i) r)) * (phi (cix X i r) - phi (cix X (mxc X i) r)))%R).
  rewrite <- (cells_div (fun r i => (phi (cix X i r) - phi (cix X i (myr Y r))) * (phi (cix X i r) - phi (cix X i (myr Y r))))%R). rewrite <- rsum_plus, rsum_split3 by lia.
  apply rsum_le. intros c Hc. rewrite cix_c. rewrite <- (Z.add_0_r (3 * c)) at 1 2 3 4. rewrite !hcoe_q by lia. cbn [Z.eqb Pos.eqb Z.add Pos.add Pos.succ]. unfold inb_. cbn [Z.eqb Pos.eqb].
  set (a := cix X (mxc X (colof X c)) (rowof X c)). set (b := cix X (colof X c) (myr Y (rowof X c))).
  assert (S0 : forall x y, (0 <= (x - y) * (x - y))%R) by (intros; apply Rle_0_sqr).
  destruct (Z.even (myr Y (rowof X c))); fold b; match goal with |- context [phi ?z] => idtac end.
  - pose proof (S0 (phi c) (phi (cix X (pxc X (colof X c)) (myr Y (rowof X c))))). lra.
  - pose proof (S0 (phi c) (phi (cix X (mxc X (colof X c)) (myr Y (rowof X c))))). lra.
Qed.
Lemma pair_le c c' : 0 <= c < NC -> 0 <= c' < NC ->
  ((phi c - phi c') * (phi c - phi c') <= 2 * IZR X * row_part (rowof X c) + 2 * IZR Y * col_part (colof X c'))%R.
Proof.
  intros Hc Hc'. assert (Cc : forall c, 0 <= c < NC -> 0 <= colof X c < X /\ 0 <= rowof X c < Y).
  { intros z Hz. unfold colof, rowof. split; [apply Z.mod_pos_bound; lia|]. split; [apply Z.div_pos; lia|apply Z.div_lt_upper_bound; lia]. }
  destruct (Cc c Hc) as [C1 C2]. destruct (Cc c' Hc') as [C3 C4]. set (z := phi (cix X (colof X c') (rowof X c))).
  pose proof (walk_sq X (fun i => phi (cix X i (rowof X c))) (colof X c') (colof X c) C3 C1) as W1. cbv beta in W1. rewrite cix_c in W1. fold z in W1. fold (row_part (rowof X c)) in W1.
  pose proof (walk_sq Y (fun r => phi (cix X (colof X c') r)) (rowof X c') (rowof X c) C4 C2) as W2. cbv beta in W2. rewrite cix_c in W2. fold z in W2.
  change (rsum Y (fun k => ((phi (cix X (colof X c') k) - phi (cix X (colof X c') (mxc Y k))) * (phi (cix X (colof X c') k) - phi (cix X (colof X c') (mxc Y k))))%R)) with (col_part (colof X c')) in W2.
  pose proof (Rle_0_sqr ((phi c - z) - (z - phi c'))) as Sq. unfold Rsqr in Sq. lra.
Qed.
Lemma poincare : rsum NC phi = 0%R -> (rsum NC (fun c => phi c * phi c) <= IZR (Z.max X Y) ^ 2 * diff2)%R.
Proof.
  intros Z0. assert (Pn : (0 < IZR NC)%R) by (apply IZR_lt; nia). set (n := Z.max X Y).
  assert (E : rsum NC (fun c => rsum NC (fun c' => (phi c - phi c') * (phi c - phi c')))%R = (2 * IZR NC * rsum NC (fun c => phi c * phi c))%R).
  { rewrite (rsum_ext NC _ (fun c => IZR NC * (phi c * phi c) + rsum NC (fun c' => phi c' * phi c'))%R).
    - rewrite rsum_plus, rsum_scal, rsum_const by lia. ring.
    - intros c Hc. rewrite (rsum_ext NC _ (fun c' => phi c * phi c + ((-2 * phi c) * phi c' + phi c' * phi c'))%R) by (intros; ring).
      rewrite !rsum_plus, rsum_const, rsum_scal, Z0 by lia. ring. }
  assert (B : (2 * IZR NC * rsum NC (fun c => phi c * phi c) <= 2 * IZR NC * (IZR X * IZR X * rsum Y row_part + IZR Y * IZR Y * rsum X col_part))%R).
  { rewrite <- E. apply Rle_trans with (rsum NC (fun c => rsum NC (fun c' => 2 * IZR X * row_part (rowof X c) + 2 * IZR Y * col_part (colof X c'))))%R.
    - apply rsum_le. intros c Hc. apply rsum_le. intros c' Hc'. now apply pair_le.
    - rewrite (rsum_ext NC _ (fun c => IZR NC * (2 * IZR X * row_part (rowof X c)) + 2 * IZR Y * rsum NC (fun c' => col_part (colof X c')))%R) by (intros; rewrite rsum_plus, rsum_const, rsum_scal by lia; reflexivity).
      rewrite rsum_plus, rsum_const by lia. rewrite (rsum_ext NC (fun c => IZR NC * (2 * IZR X * row_part (rowof X c)))%R (fun c => (2 * IZR NC * IZR X) * row_part (rowof X c))%R) by (intros; ring). rewrite rsum_scal.
      rewrite (cells_div (fun r _ => row_part r)), (cells_div (fun _ i => col_part i)), (rsum_ext Y (fun r => rsum X (fun _ => row_part r)) (fun r => IZR X * row_part r)%R) by (intros; apply rsum_const; lia).
      rewrite rsum_const, rsum_scal by lia. right. change (rsum X (fun i : Z => col_part i)) with (rsum X col_part). ring. }
  apply Rmult_le_reg_l in B; [|lra]. eapply Rle_trans; [exact B|].
  assert (P1 : (0 <= rsum Y row_part)%R) by (apply rsum_nonneg; intros; apply rsum_nonneg; intros; apply Rle_0_sqr).
  assert (P2 : (0 <= rsum X col_part)%R) by (apply rsum_nonneg; intros; apply rsum_nonneg; intros; apply Rle_0_sqr).
  assert (N1 : (0 <= IZR X <= IZR n)%R) by (split; [apply IZR_le; lia|apply IZR_le; unfold n; lia]). assert (N2 : (0 <= IZR Y <= IZR n)%R) by (split; [apply IZR_le; lia|apply IZR_le; unfold n; lia]).
  apply Rle_trans with (IZR n ^ 2 * (rsum Y row_part + rsum X col_part))%R; [|apply Rmult_le_compat_l; [apply pow2_ge_0|apply parts_le]].
  rewrite Rmult_plus_distr_l. replace (IZR n ^ 2)%R with (IZR n * IZR n)%R by ring. apply Rplus_le_compat; apply Rmult_le_compat_r; try assumption; apply Rmult_le_compat; tauto.
Qed.
End Mesh.
