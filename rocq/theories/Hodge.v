(** Velocities without divergence and vorticity are uniform. *)
From Coq Require Import ZArith Reals List Bool Lia Lra.
From Verif Require Import Arith Arrays Hex HexComb RSum Diffuse.
Open Scope Z_scope.

Section Walk.
Context (X Y : Z) (Hx : 1 <= X) (Hy : 1 <= Y).
Local Notation NC := (X * Y).
Local Notation nb := (nb X Y).

(** A function of the cells that does not change to the west and to the south west is constant. *)
Lemma const_cells (phi : Z -> R) : (forall c, 0 <= c < NC -> phi (nb c 0) = phi c) -> (forall c, 0 <= c < NC -> phi (nb c 1) = phi c) -> forall c, 0 <= c < NC -> phi c = phi 0.
Proof.
  intros E0 E1 c Hc. assert (P0 : 0 <= c) by lia. revert Hc. pattern c. apply Zlt_0_ind; [|exact P0]. clear c P0. intros c IH P0 Hc.
  pose proof (colof_range X Hx c) as Ci. pose proof (rowof_range X Y Hx c Hc) as Ri.
  assert (Ec : c = rowof X c * X + colof X c) by (unfold rowof, colof; pose proof (Z.div_mod c X); lia).
  destruct (Z.eq_dec (colof X c) 0) as [C0|C0]; [destruct (Z.eq_dec (rowof X c) 0) as [R0|R0]|].
  - rewrite C0, R0 in Ec. now replace c with 0 by lia.
  - rewrite <- (E1 c Hc). pose proof (nb_range X Y Hx Hy c 1 Hc) as Hn. apply IH; [|exact Hn]. split; [lia|].
    assert (L : nb c 1 < rowof X c * X).
    { unfold Hex.nb, cix. set (i' := ncol X (colof X c) (rowof X c) 1). assert (0 <= i' < X) by (apply ncol_range; assumption).
      assert (M : nrow Y (rowof X c) 1 = rowof X c - 1) by (unfold nrow, myr; cbn [Z.eqb Pos.eqb orb]; destruct (Z.eqb_spec (rowof X c) 0); lia). rewrite M. nia. }
    lia.
  - rewrite <- (E0 c Hc). assert (M : nb c 0 = c - 1).
    { unfold Hex.nb, cix, ncol, nrow. cbn [Z.eqb Pos.eqb orb]. unfold mxc. destruct (Z.eqb_spec (colof X c) 0); [lia|]. destruct (Z.even (rowof X c)); lia. }
    rewrite M. apply IH; lia.
Qed.
End Walk.

Section Hodge.
Context (X Y : Z) (Hx : 1 <= X) (Hy : 1 <= Y) (Hev : Z.even Y = true).
Local Notation NC := (X * Y).
Local Notation nb := (nb X Y).
Context (a0 a1 a2 : Z -> R).
Context (Hd : forall c, 0 <= c < NC -> (a0 (nb c 3) - a0 c + (a1 (nb c 4) - a1 c) + (a2 (nb c 5) - a2 c) = 0)%R).
Context (Hc0 : forall c, 0 <= c < NC -> (a0 c + a2 (nb c 5) - a1 (nb c 5) = 0)%R).
Context (Hc1 : forall c, 0 <= c < NC -> (a0 c + a2 (nb c 0) - a1 c = 0)%R).
Let R_ c j (Hc : 0 <= c < NC) : 0 <= nb c j < NC := nb_range X Y Hx Hy c j Hc.

Lemma o25 c : 0 <= c < NC -> nb (nb c 2) 5 = c. Proof. intros Hc. exact (nb_opp X Y Hx Hev c 2 Hc ltac:(lia)). Qed.
Lemma x2 c : 0 <= c < NC -> (a2 c - a2 (nb c 0) = a0 c - a0 (nb c 2))%R.
Proof. intros Hc. pose proof (Hc1 c Hc) as E. pose proof (Hc0 (nb c 2) (R_ c 2 Hc)) as E'. rewrite (o25 c Hc) in E'. lra. Qed.
Lemma x1 c : 0 <= c < NC -> (a1 c - a1 (nb c 0) = a0 c - a0 (nb c 1))%R.
Proof.
  intros Hc. pose proof (Hc1 c Hc) as E. pose proof (R_ c 0 Hc) as Hw. pose proof (Hc0 (nb (nb c 0) 2) (R_ _ 2 Hw)) as E'. rewrite (o25 _ Hw) in E'.
  pose proof (nb_turn X Y Hx Hev c 0 Hc ltac:(lia)) as T. change ((0 + 2) mod 6) with 2 in T. change ((0 + 1) mod 6) with 1 in T. rewrite T in E'. lra.
Qed.
Lemma comm4 c : 0 <= c < NC -> nb (nb c 0) 4 = nb (nb c 4) 0.
Proof.
  intros Hc. transitivity (nb c 5); [exact (nb_turn' X Y Hx Hev c 0 Hc ltac:(lia))|symmetry; exact (nb_turn X Y Hx Hev c 4 Hc ltac:(lia))].
Qed.
Lemma comm5 c : 0 <= c < NC -> nb (nb c 0) 5 = nb (nb c 5) 0.
Proof.
  intros Hc. set (x := nb c 5). assert (Hn : 0 <= x < NC) by exact (R_ c 5 Hc).
  assert (E : c = nb x 2) by (symmetry; exact (nb_opp X Y Hx Hev c 5 Hc ltac:(lia))). rewrite E at 1.
  assert (E1 : nb (nb x 2) 0 = nb x 1) by exact (nb_turn' X Y Hx Hev x 2 Hn ltac:(lia)). rewrite E1.
  exact (nb_turn' X Y Hx Hev x 1 Hn ltac:(lia)).
Qed.
Lemma a0_harmonic c : 0 <= c < NC -> (a0 (nb c 0) + a0 (nb c 1) + a0 (nb c 2) + a0 (nb c 3) + a0 (nb c 4) + a0 (nb c 5) = 6 * a0 c)%R.
Proof.
  intros Hc. pose proof (R_ c 0 Hc) as Hw. pose proof (Hd c Hc) as D. pose proof (Hd _ Hw) as D'.
  assert (E3 : nb (nb c 0) 3 = c) by exact (nb_opp X Y Hx Hev c 0 Hc ltac:(lia)). rewrite E3, (comm4 c Hc), (comm5 c Hc) in D'.
  pose proof (x1 c Hc) as A1. pose proof (x2 c Hc) as A2. pose proof (x1 _ (R_ c 4 Hc)) as B1. pose proof (x2 _ (R_ c 5 Hc)) as B2.
  assert (E4 : nb (nb c 4) 1 = c) by exact (nb_opp X Y Hx Hev c 4 Hc ltac:(lia)). assert (E5 : nb (nb c 5) 2 = c) by exact (nb_opp X Y Hx Hev c 5 Hc ltac:(lia)).
  rewrite E4 in B1. rewrite E5 in B2. lra.
Qed.

Context (C0 : forall c, 0 <= c < NC -> a0 c = a0 0).
Let N0 : 0 <= 0 < NC. Proof. nia. Qed.
Lemma a1_a2 c : 0 <= c < NC -> (a1 c = a0 0%Z + a2 c)%R.
Proof. intros Hc. pose proof (Hc1 c Hc) as E. pose proof (x2 c Hc) as E2. rewrite (C0 c Hc) in *. rewrite (C0 _ (R_ c 2 Hc)) in E2. lra. Qed.
Lemma a2_row c : 0 <= c < NC -> a2 (nb c 0) = a2 c.
Proof. intros Hc. pose proof (x2 c Hc) as E2. rewrite (C0 c Hc), (C0 _ (R_ c 2 Hc)) in E2. lra. Qed.
Lemma a2_const c : 0 <= c < NC -> a2 c = a2 0.
Proof.
  apply (const_cells X Y Hx Hy a2 a2_row). clear c. intros c Hc.
  set (x := nb c 1). assert (Hn : 0 <= x < NC) by exact (R_ c 1 Hc).
  pose proof (Hd x Hn) as D. rewrite (a1_a2 x Hn), (a1_a2 _ (R_ x 4 Hn)), (C0 x Hn), (C0 _ (R_ x 3 Hn)) in D.
  assert (E4 : nb x 4 = c) by exact (nb_opp X Y Hx Hev c 1 Hc ltac:(lia)).
  assert (E5 : nb x 5 = nb c 0) by exact (nb_turn' X Y Hx Hev c 1 Hc ltac:(lia)).
  rewrite E4, E5, (a2_row c Hc) in D. lra.
Qed.
End Hodge.
