(** Mirror images of the periodic hexagonal mesh with an even number of rows: x to -x ([b] = true) and
    y to -y ([b] = false), up to the periods.  Cells, edges and vertices are mapped to cells, edges and
    vertices, neighbours to neighbours, with the slots permuted. *)
From Coq Require Import ZArith List Bool Lia ZifyBool.
From Verif Require Import Hex HexComb.
Import ListNotations.
Open Scope Z_scope.

Section Mirror.
Context (nx ny : Z) (Hnx : 1 <= nx) (Hny : 1 <= ny) (Hev : Z.even ny = true).
Local Notation nb := (nb nx ny).
Local Notation hE := (hE nx ny).
Local Notation hV := (hV nx ny).
Local Notation col := (colof nx).
Local Notation row := (rowof nx).
Local Notation NC := (nx * ny).

(** Column and row of the mirror image. *)
Definition mcol (b : bool) (i r : Z) : Z :=
  if b then if Z.even r then nx - 1 - i else if i =? nx - 1 then nx - 1 else nx - 2 - i else i.
Definition mrow (b : bool) (r : Z) : Z := if b then r else if r =? ny - 1 then ny - 1 else ny - 2 - r.
(** Slots of neighbours and edges, and of vertices. *)
Definition mpi (b : bool) (j : Z) : Z :=
  if b then if j =? 0 then 3 else if j =? 1 then 2 else if j =? 2 then 1 else if j =? 3 then 0 else if j =? 4 then 5 else 4
  else if j =? 0 then 0 else if j =? 1 then 5 else if j =? 2 then 4 else if j =? 3 then 3 else if j =? 4 then 2 else 1.
Definition mrho (b : bool) (j : Z) : Z :=
  if b then if j =? 0 then 4 else if j =? 1 then 3 else if j =? 2 then 2 else if j =? 3 then 1 else if j =? 4 then 0 else 5
  else if j =? 0 then 1 else if j =? 1 then 0 else if j =? 2 then 5 else if j =? 3 then 4 else if j =? 4 then 3 else 2.
Definition mc (b : bool) (c : Z) : Z := cix nx (mcol b (col c) (row c)) (mrow b (row c)).
Definition me (b : bool) (e : Z) : Z := hE (mc b (e / 3)) (mpi b (e mod 3)).
Definition mv (b : bool) (v : Z) : Z := hV (mc b (v / 2)) (mrho b (v mod 2)).

Ltac six j := assert (j = 0 \/ j = 1 \/ j = 2 \/ j = 3 \/ j = 4 \/ j = 5)
    as [-> | [-> | [-> | [-> | [-> | ->]]]]] by lia.

Lemma ny2 : 2 <= ny.
Proof. assert (ny <> 1) by (intros E; rewrite E in Hev; discriminate). lia. Qed.
Ltac eqs := repeat match goal with |- context [?x =? ?y] => lazymatch x with context [_ =? _] => fail | _ => destruct (Z.eqb_spec x y) end end.
Lemma mpi_range b j : 0 <= j < 6 -> 0 <= mpi b j < 6.
Proof. clear. intros H. six j; destruct b; cbn; lia. Qed.
Lemma mcol_range b i r : 0 <= i < nx -> 0 <= mcol b i r < nx.
Proof. intros H. unfold mcol. destruct b, (Z.even r); try lia; destruct (Z.eqb_spec i (nx - 1)); lia. Qed.
Lemma mrow_range b r : 0 <= r < ny -> 0 <= mrow b r < ny.
Proof. intros H. unfold mrow. destruct b; try lia; destruct (Z.eqb_spec r (ny - 1)); lia. Qed.
Lemma mrow_even b r : Z.even (mrow b r) = Z.even r.
Proof.
  unfold mrow. destruct b; [reflexivity|]. destruct (Z.eqb_spec r (ny - 1)) as [->|_]; [reflexivity|].
  rewrite !Z.even_sub, Hev. destruct (Z.even r); reflexivity.
Qed.
Lemma mc_range b c : 0 <= c < NC -> 0 <= mc b c < NC.
Proof. intros H. apply cix_range; [exact Hnx|apply mcol_range, colof_range; exact Hnx|apply mrow_range, (rowof_range nx ny Hnx); exact H]. Qed.
Lemma col_mc b c : col (mc b c) = mcol b (col c) (row c).
Proof. apply colof_cix; [exact Hnx|]. apply mcol_range, colof_range; exact Hnx. Qed.
Lemma row_mc b c : row (mc b c) = mrow b (row c).
Proof. apply rowof_cix; [exact Hnx|]. apply mcol_range, colof_range; exact Hnx. Qed.
Lemma me_range b e : 0 <= e < 3 * NC -> 0 <= me b e < 3 * NC.
Proof.
  intros H. apply hE_range; auto. apply mc_range. now apply (ediv_range nx ny).
  apply mpi_range. pose proof (Z.mod_pos_bound e 3 ltac:(lia)). lia.
Qed.
Lemma mv_range b v : 0 <= v < 2 * NC -> 0 <= mv b v < 2 * NC.
Proof. intros H. apply hV_range; auto. apply mc_range. now apply (vdiv_range nx ny). Qed.

(** Neighbours are mapped to neighbours. *)
Lemma mrow_pyr b r : 0 <= r < ny -> mrow b (pyr ny r) = if b then pyr ny (mrow b r) else myr ny (mrow b r).
Proof. intros H. pose proof ny2. destruct b; unfold mrow, pyr, myr; eqs; lia. Qed.
Lemma mrow_myr b r : 0 <= r < ny -> mrow b (myr ny r) = if b then myr ny (mrow b r) else pyr ny (mrow b r).
Proof. intros H. pose proof ny2. destruct b; unfold mrow, pyr, myr; eqs; lia. Qed.
Lemma mc_nb b c j : 0 <= c < NC -> 0 <= j < 6 -> mc b (nb c j) = nb (mc b c) (mpi b j).
Proof.
  intros Hc Hj. pose proof (colof_range nx Hnx c) as Hi. pose proof (rowof_range nx ny Hnx c Hc) as Hr.
  apply (cell_ext nx Hnx).
  - rewrite col_mc, (colof_nb nx ny Hnx), (rowof_nb nx ny Hnx), (colof_nb nx ny Hnx), col_mc, row_mc.
    assert (Er : Z.even (mrow b (row c)) = Z.even (row c)) by apply mrow_even.
    assert (Ep : Z.even (pyr ny (row c)) = negb (Z.even (row c))) by (now apply even_pyr).
    assert (Em : Z.even (myr ny (row c)) = negb (Z.even (row c))) by (now apply even_myr).
    unfold ncol, nrow. rewrite Er. unfold mcol.
    six j; destruct b; cbn [mpi Z.eqb Pos.eqb orb]; rewrite ?Ep, ?Em; destruct (Z.even (row c)); cbn [negb]; unfold mxc, pxc; eqs; lia.
  - rewrite row_mc, !(rowof_nb nx ny Hnx), row_mc. unfold nrow. six j; destruct b; cbn [mpi Z.eqb Pos.eqb orb]; rewrite ?mrow_pyr, ?mrow_myr by assumption; reflexivity.
Qed.

(** The two names of an edge and the three names of a vertex. *)
Lemma hE_opp c j : 0 <= c < NC -> 0 <= j < 6 -> hE (nb c j) ((j + 3) mod 6) = hE c j.
Proof.
  intros Hc Hj. pose proof (nb_opp nx ny Hnx Hev c j Hc Hj) as E. unfold Hex.hE.
  six j; repeat match goal with |- context [?a mod 6] => let v := eval vm_compute in (a mod 6) in change (a mod 6) with v end;
    repeat match type of E with context [?a mod 6] => let v := eval vm_compute in (a mod 6) in change (a mod 6) with v in E end;
    cbn [Z.ltb Z.compare Pos.compare Pos.compare_cont]; rewrite ?E; lia.
Qed.
Lemma me_hE b c j : 0 <= c < NC -> 0 <= j < 6 -> me b (hE c j) = hE (mc b c) (mpi b j).
Proof.
  intros Hc Hj. unfold me. rewrite hE_div_, hE_mod_ by exact Hj. destruct (Z.ltb_spec j 3).
  - now rewrite Z.mod_small by lia.
  - rewrite mc_nb by lia. rewrite <- (hE_opp (mc b c) (mpi b j)); [|now apply mc_range|now apply mpi_range].
    f_equal. assert (j = 3 \/ j = 4 \/ j = 5) as [-> | [-> | ->]] by lia; destruct b; reflexivity.
Qed.
Lemma mv_hV b c j : 0 <= c < NC -> 0 <= j < 6 -> mv b (hV c j) = hV (mc b c) (mrho b j).
Proof.
  intros Hc Hj. unfold mv.
  pose proof (mc_range b c Hc) as Hm.
  pose proof (fun j Hj => nb_opp nx ny Hnx Hev (mc b c) j Hm Hj) as O.
  pose proof (fun j Hj => nb_turn nx ny Hnx Hev (mc b c) j Hm Hj) as T.
  pose proof (fun j Hj => nb_turn' nx ny Hnx Hev (mc b c) j Hm Hj) as T'.
  pose proof (O 0 ltac:(lia)) as O0. pose proof (O 1 ltac:(lia)) as O1. pose proof (O 2 ltac:(lia)) as O2. pose proof (O 3 ltac:(lia)) as O3. pose proof (O 4 ltac:(lia)) as O4. pose proof (O 5 ltac:(lia)) as O5.
  pose proof (T 0 ltac:(lia)) as T0. pose proof (T 1 ltac:(lia)) as T1. pose proof (T 2 ltac:(lia)) as T2. pose proof (T 3 ltac:(lia)) as T3. pose proof (T 4 ltac:(lia)) as T4. pose proof (T 5 ltac:(lia)) as T5.
  pose proof (T' 0 ltac:(lia)) as U0. pose proof (T' 1 ltac:(lia)) as U1. pose proof (T' 2 ltac:(lia)) as U2. pose proof (T' 3 ltac:(lia)) as U3. pose proof (T' 4 ltac:(lia)) as U4. pose proof (T' 5 ltac:(lia)) as U5.
  clear O T T'.
  repeat match goal with H : context [?a mod 6] |- _ => let v := eval vm_compute in (a mod 6) in change (a mod 6) with v in H end.
  unfold Hex.hV at 2 3. six j; cbn [Z.eqb Pos.eqb]; rewrite ?div2, ?div2', ?mod2, ?mod2' by lia; rewrite ?mc_nb by lia; destruct b; cbn [mpi mrho Z.eqb Pos.eqb]; unfold Hex.hV; cbn [Z.eqb Pos.eqb]; congruence.
Qed.
End Mirror.
