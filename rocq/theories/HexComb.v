(** Combinatorics of the closed-form connectivity of Hex.v (pure integer facts). *)
From Coq Require Import ZArith List Bool Lia ZifyBool.
From Verif Require Import Hex.
Import ListNotations.
Open Scope Z_scope.

Section HexComb.
Context (nx ny : Z).
Hypothesis Hnx : 1 <= nx.
Hypothesis Hny : 1 <= ny.
Local Notation nb := (nb nx ny).
Local Notation inb_ := (inb_ nx ny).
Local Notation hE := (hE nx ny).
Local Notation hV := (hV nx ny).
Local Notation ecell := (ecell nx ny).
Local Notation hcoe := (hcoe nx ny).
Local Notation hvoe := (hvoe nx ny).
Local Notation heoe := (heoe nx ny).
Local Notation hcov := (hcov nx ny).
Local Notation heov := (heov nx ny).
Local Notation col := (colof nx).
Local Notation row := (rowof nx).
Local Notation pxc := (pxc nx).
Local Notation mxc := (mxc nx).
Local Notation pyr := (pyr ny).
Local Notation myr := (myr ny).
Local Notation NC := (nx * ny).

Lemma cell_ext c c' : col c = col c' -> row c = row c' -> c = c'.
Proof. intros E1 E2. rewrite <- (cix_surj nx Hnx c), <- (cix_surj nx Hnx c'). now rewrite E1, E2. Qed.

Lemma hE_div_ c j : 0 <= j < 6 -> hE c j / 3 = if j <? 3 then c else nb c j.
Proof. intros Hj. unfold Hex.hE. destruct (Z.ltb_spec j 3); apply div3; lia. Qed.
Lemma hE_mod_ c j : 0 <= j < 6 -> hE c j mod 3 = j mod 3.
Proof.
  intros Hj. unfold Hex.hE. destruct (Z.ltb_spec j 3).
  - rewrite mod3 by lia. symmetry. apply Z.mod_small. lia.
  - rewrite mod3 by lia. assert (j = 3 \/ j = 4 \/ j = 5) as [-> | [-> | ->]] by lia; reflexivity.
Qed.

(** ** Edges and cells *)
Lemma hcoe_hE c j : 0 <= c < NC -> 0 <= j < 6 -> hcoe (hE c j) (if j <? 3 then 1 else 0) = c.
Proof.
  intros Hc Hj. destruct (Z.ltb_spec j 3); unfold Hex.hcoe; cbn [Z.eqb].
  - rewrite hE_div_ by lia. destruct (Z.ltb_spec j 3); lia.
  - apply ecell_hE; lia.
Qed.
Lemma edge_two_sides e c j : 0 <= e < 3 * NC -> 0 <= c < NC -> 0 <= j < 6 ->
  (hE c j = e <-> (c = hcoe e 1 /\ j = e mod 3) \/ (c = hcoe e 0 /\ j = 3 + e mod 3)).
Proof.
  intros He Hc Hj. unfold Hex.hcoe. cbn [Z.eqb]. split.
  - intros <-. rewrite hE_div_, hE_mod_ by lia. destruct (Z.ltb_spec j 3).
    + left. rewrite Z.mod_small by lia. auto.
    + right. rewrite ecell_hE by lia. split; [reflexivity|].
      assert (j = 3 \/ j = 4 \/ j = 5) as [-> | [-> | ->]] by lia; reflexivity.
  - intros [[-> ->]|[-> ->]]; [apply hE_low|apply hE_ecell; auto]; lia.
Qed.

(** ** Distinctness of neighbours *)
Lemma mxc_ne i : 2 <= nx -> 0 <= i < nx -> mxc i <> i.
Proof. intros H Hi. unfold Hex.mxc. destruct (Z.eqb_spec i 0); lia. Qed.
Lemma pxc_ne i : 2 <= nx -> 0 <= i < nx -> pxc i <> i.
Proof. intros H Hi. unfold Hex.pxc. destruct (Z.eqb_spec i (nx - 1)); lia. Qed.
Lemma myr_ne i : 2 <= ny -> 0 <= i < ny -> myr i <> i.
Proof. intros H Hi. unfold Hex.myr. destruct (Z.eqb_spec i 0); lia. Qed.
Lemma pyr_ne i : 2 <= ny -> 0 <= i < ny -> pyr i <> i.
Proof. intros H Hi. unfold Hex.pyr. destruct (Z.eqb_spec i (ny - 1)); lia. Qed.

Lemma col_inb d j : 0 <= d < NC -> col (inb_ d j) =
  if j =? 2 then (if Z.even (pyr (row d)) then col d else mxc (col d))
  else if j =? 3 then mxc (col d)
  else if j =? 4 then (if Z.even (myr (row d)) then col d else mxc (col d))
  else (if Z.even (myr (row d)) then pxc (col d) else col d).
Proof.
  intros H. pose proof (colof_range nx Hnx d) as Hc.
  pose proof (mxc_range nx Hnx _ Hc). pose proof (pxc_range nx Hnx _ Hc).
  unfold Hex.inb_. destruct (j =? 2), (j =? 3), (j =? 4); apply (colof_cix nx Hnx);
    try destruct (Z.even _); assumption.
Qed.
Lemma row_inb d j : 0 <= d < NC -> row (inb_ d j) =
  if j =? 2 then pyr (row d) else if j =? 3 then row d else myr (row d).
Proof.
  intros H. pose proof (colof_range nx Hnx d) as Hc.
  pose proof (mxc_range nx Hnx _ Hc). pose proof (pxc_range nx Hnx _ Hc).
  unfold Hex.inb_. destruct (j =? 2), (j =? 3), (j =? 4); apply (rowof_cix nx Hnx);
    try destruct (Z.even _); assumption.
Qed.
Lemma inb_ne d j : 2 <= nx -> 2 <= ny -> 0 <= d < NC -> 2 <= j <= 5 -> inb_ d j <> d.
Proof.
  intros H1 H2 Hd Hj E.
  pose proof (colof_range nx Hnx d) as Hc. pose proof (rowof_range nx ny Hnx d Hd) as Hr.
  pose proof (mxc_ne (col d) H1 Hc). pose proof (myr_ne (row d) H2 Hr). pose proof (pyr_ne (row d) H2 Hr).
  assert (Ec : col (inb_ d j) = col d) by now rewrite E. assert (Er : row (inb_ d j) = row d) by now rewrite E.
  rewrite col_inb in Ec by assumption. rewrite row_inb in Er by assumption.
  assert (j = 2 \/ j = 3 \/ j = 4 \/ j = 5) as [-> | [-> | [-> | ->]]] by lia; cbn [Z.eqb Pos.eqb] in *; auto.
Qed.
Lemma inb_ne23 d : 2 <= ny -> 0 <= d < NC -> inb_ d 2 <> inb_ d 3.
Proof.
  intros H2 Hd E. pose proof (rowof_range nx ny Hnx d Hd) as Hr. pose proof (pyr_ne (row d) H2 Hr).
  assert (Er : row (inb_ d 2) = row (inb_ d 3)) by now rewrite E. rewrite !row_inb in Er by assumption. auto.
Qed.
Lemma inb_ne34 d : 2 <= ny -> 0 <= d < NC -> inb_ d 3 <> inb_ d 4.
Proof.
  intros H2 Hd E. pose proof (rowof_range nx ny Hnx d Hd) as Hr. pose proof (myr_ne (row d) H2 Hr).
  assert (Er : row (inb_ d 3) = row (inb_ d 4)) by now rewrite E. rewrite !row_inb in Er by assumption.
  cbn [Z.eqb Pos.eqb] in Er. auto.
Qed.

(** ** Edge signs *)
Lemma coe0_hE_low c j : 0 <= c < NC -> 0 <= j < 3 -> hcoe (hE c j) 0 = inb_ c (3 + j).
Proof.
  intros Hc Hj. unfold Hex.hcoe, Hex.ecell. cbn [Z.eqb]. rewrite hE_div_, hE_mod_ by lia.
  destruct (Z.ltb_spec j 3); [|lia]. now rewrite Z.mod_small by lia.
Qed.
Lemma coe0_hE c j : 2 <= nx -> 2 <= ny -> 0 <= c < NC -> 0 <= j < 6 -> (hcoe (hE c j) 0 =? c) = (3 <=? j).
Proof.
  intros H1 H2 Hc Hj. destruct (Z.leb_spec 3 j).
  - apply Z.eqb_eq. rewrite <- (hcoe_hE c j) at 2 by lia. destruct (Z.ltb_spec j 3); [lia|reflexivity].
  - apply Z.eqb_neq. rewrite coe0_hE_low by lia. apply inb_ne; lia.
Qed.
Lemma coe0_nx1 c : nx = 1 -> 0 <= c < NC -> hE c 3 = hE c 0 /\ hcoe (hE c 0) 0 = c.
Proof.
  intros E Hc. rewrite coe0_hE_low by lia. cbn [Z.add].
  pose proof (colof_range nx Hnx c) as Hi. pose proof (mxc_range nx Hnx _ Hi) as Hm. pose proof (pxc_range nx Hnx _ Hi) as Hp.
  assert (E1 : inb_ c 3 = c).
  { apply cell_ext; [rewrite col_inb by assumption; cbn [Z.eqb Pos.eqb]; lia|now rewrite row_inb by assumption]. }
  split; [|exact E1]. unfold Hex.hE. cbn [Z.ltb Z.compare Pos.compare Pos.compare_cont].
  replace (nb c 3) with c; [lia|]. rewrite <- E1 at 2.
  pose proof (nb_inb nx ny Hnx c 3 Hc ltac:(lia)) as E2. rewrite E1 in E2. congruence.
Qed.
Lemma coe0_ny1 c : ny = 1 -> 0 <= c < NC -> hE c 4 = hE c 1 /\ hcoe (hE c 1) 0 = c.
Proof.
  intros E Hc. rewrite coe0_hE_low by lia. change (3 + 1) with 4.
  pose proof (rowof_range nx ny Hnx c Hc) as Hr. pose proof (myr_range ny Hny _ Hr) as Hm.
  assert (E1 : inb_ c 4 = c).
  { apply cell_ext.
    - rewrite col_inb by assumption; cbn [Z.eqb Pos.eqb]. replace (myr (row c)) with 0 by lia. reflexivity.
    - rewrite row_inb by assumption. cbn [Z.eqb Pos.eqb]. lia. }
  split; [|exact E1]. unfold Hex.hE. cbn [Z.ltb Z.compare Pos.compare Pos.compare_cont].
  pose proof (nb_inb nx ny Hnx c 4 Hc ltac:(lia)) as E2. rewrite E1 in E2. rewrite E2. lia.
Qed.

(** ** Vertices *)
Ltac slot s := assert (s = 0 \/ s = 1 \/ s = 2) as [-> | [-> | ->]] by lia.
Lemma vdec v : exists d, v = 2 * d \/ v = 2 * d + 1.
Proof. exists (v / 2). pose proof (Z.mod_pos_bound v 2 ltac:(lia)). pose proof (Z.div_mod v 2). lia. Qed.
Lemma edec e : exists d q, 0 <= q < 3 /\ e = 3 * d + q.
Proof. exists (e / 3), (e mod 3). pose proof (Z.mod_pos_bound e 3 ltac:(lia)). pose proof (Z.div_mod e 3). lia. Qed.

Lemma hcov_e d s : hcov (2 * d) s = if s =? 0 then d else if s =? 1 then inb_ d 2 else inb_ d 3.
Proof. unfold Hex.hcov. now rewrite div2', mod2'. Qed.
Lemma hcov_o d s : hcov (2 * d + 1) s = if s =? 0 then inb_ d 3 else if s =? 1 then inb_ d 4 else d.
Proof. unfold Hex.hcov. now rewrite div2, mod2 by lia. Qed.
Lemma heov_e d s : heov (2 * d) s = if s =? 0 then 3 * d else if s =? 1 then 3 * inb_ d 2 + 2 else 3 * inb_ d 2 + 1.
Proof. unfold Hex.heov. now rewrite div2', mod2'. Qed.
Lemma heov_o d s : heov (2 * d + 1) s = if s =? 0 then 3 * d else if s =? 1 then 3 * inb_ d 3 + 2 else 3 * d + 1.
Proof. unfold Hex.heov. now rewrite div2, mod2 by lia. Qed.
Lemma hvoe_q d q s : 0 <= q < 3 -> hvoe (3 * d + q) s = hV d (if s =? 0 then q + 1 else q).
Proof. intros. unfold Hex.hvoe. now rewrite div3, mod3 by lia. Qed.
Lemma hcoe_q d q s : 0 <= q < 3 -> hcoe (3 * d + q) s = if s =? 0 then inb_ d (3 + q) else d.
Proof. intros. unfold Hex.hcoe, Hex.ecell. now rewrite div3, mod3 by lia. Qed.

Lemma heov_inj v s s' : 0 <= s < 3 -> 0 <= s' < 3 -> heov v s = heov v s' -> s = s'.
Proof.
  intros Hs Hs'. destruct (vdec v) as [d [-> | ->]]; rewrite ?heov_e, ?heov_o; slot s; slot s';
    cbn [Z.eqb Pos.eqb]; lia.
Qed.
Lemma hcov_inj v s s' : 2 <= nx -> 2 <= ny -> 0 <= v < 2 * NC -> 0 <= s < 3 -> 0 <= s' < 3 ->
  hcov v s = hcov v s' -> s = s'.
Proof.
  intros H1 H2 Hv Hs Hs'. destruct (vdec v) as [d Hd]. assert (Hd' : 0 <= d < NC) by lia.
  pose proof (inb_ne d 2 H1 H2 Hd' ltac:(lia)). pose proof (inb_ne d 3 H1 H2 Hd' ltac:(lia)).
  pose proof (inb_ne d 4 H1 H2 Hd' ltac:(lia)).
  pose proof (inb_ne23 d H2 Hd'). pose proof (inb_ne34 d H2 Hd').
  destruct Hd as [-> | ->]; rewrite ?hcov_e, ?hcov_o; slot s; slot s'; cbn [Z.eqb Pos.eqb]; congruence.
Qed.
Lemma hvoe_ne e : 0 <= e < 3 * NC -> hvoe e 0 <> hvoe e 1.
Proof.
  intros He. destruct (edec e) as (d & q & Hq & ->). rewrite !hvoe_q by lia. slot q; cbn [Z.eqb Pos.eqb Z.add];
    unfold Hex.hV; cbn [Z.eqb Pos.eqb Pos.add Pos.succ]; lia.
Qed.
(** Each slot of a vertex lists an edge that ends there. *)
Definition eend (v s : Z) : Z := if (if v mod 2 =? 0 then s =? 2 else negb (s =? 2)) then 0 else 1.
Lemma hvoe_heov v s : 0 <= v < 2 * NC -> 0 <= s < 3 -> hvoe (heov v s) (eend v s) = v.
Proof.
  intros Hv Hs. unfold eend. destruct (vdec v) as [d Hd]. assert (Hd' : 0 <= d < NC) by lia.
  destruct Hd as [-> | ->]; rewrite ?heov_e, ?heov_o, ?mod2, ?mod2' by lia; slot s; cbn [Z.eqb Pos.eqb negb].
  - replace (3 * d) with (3 * d + 0) by lia. rewrite hvoe_q by lia. reflexivity.
  - rewrite hvoe_q by lia. unfold Hex.hV; cbn [Z.eqb Pos.eqb]. now rewrite nb_inb by lia.
  - rewrite hvoe_q by lia. unfold Hex.hV; cbn [Z.eqb Pos.eqb Z.add Pos.add Pos.succ]. now rewrite nb_inb by lia.
  - replace (3 * d) with (3 * d + 0) by lia. rewrite hvoe_q by lia. reflexivity.
  - rewrite hvoe_q by lia. unfold Hex.hV; cbn [Z.eqb Pos.eqb Z.add Pos.add Pos.succ]. now rewrite nb_inb by lia.
  - rewrite hvoe_q by lia. reflexivity.
Qed.
(** Each end point of an edge lists the edge. *)
Definition vslot (e s : Z) : Z :=
  if e mod 3 =? 0 then 0 else if e mod 3 =? 1 then 2 else 1.
Lemma heov_hvoe e s : 0 <= e < 3 * NC -> 0 <= s < 2 -> heov (hvoe e s) (vslot e s) = e.
Proof.
  intros He Hs. destruct (edec e) as (d & q & Hq & ->). assert (Hd : 0 <= d < NC) by lia.
  rewrite hvoe_q by lia. unfold vslot. rewrite mod3 by lia.
  assert (s = 0 \/ s = 1) as [-> | ->] by lia; slot q; cbn [Z.eqb Pos.eqb Z.add Pos.add Pos.succ];
    unfold Hex.hV; cbn [Z.eqb Pos.eqb]; rewrite ?heov_e, ?heov_o; cbn [Z.eqb Pos.eqb]; rewrite ?inb_nb by lia; lia.
Qed.
Lemma hesv_closed v s : 0 <= v < 2 * NC -> 0 <= s < 3 -> (hvoe (heov v s) 0 =? v) = (eend v s =? 0).
Proof.
  intros Hv Hs. pose proof (hvoe_heov v s Hv Hs) as E.
  pose proof (hvoe_ne (heov v s) (heov_range nx ny Hnx Hny v s Hv)) as N.
  assert (eend v s = 0 \/ eend v s = 1) as [E1|E1] by (unfold eend; destruct (if v mod 2 =? 0 then _ else _); auto);
    rewrite E1 in E |- *; cbn [Z.eqb Pos.eqb].
  - rewrite E. apply Z.eqb_refl.
  - apply Z.eqb_neq. congruence.
Qed.
(** Each cell of a vertex lists the vertex as corner [vcorner]. *)
Definition vcorner (v s : Z) : Z :=
  if v mod 2 =? 0 then (if s =? 0 then 0 else if s =? 1 then 2 else 4)
  else (if s =? 0 then 3 else if s =? 1 then 5 else 1).
Lemma hV_hcov v s : 0 <= v < 2 * NC -> 0 <= s < 3 -> hV (hcov v s) (vcorner v s) = v.
Proof.
  intros Hv Hs. unfold vcorner. destruct (vdec v) as [d Hd]. assert (Hd' : 0 <= d < NC) by lia.
  destruct Hd as [-> | ->]; rewrite ?hcov_e, ?hcov_o, ?mod2, ?mod2' by lia; slot s; cbn [Z.eqb Pos.eqb];
    unfold Hex.hV; cbn [Z.eqb Pos.eqb]; rewrite ?nb_inb by lia; reflexivity.
Qed.
(** Corner [j] of a cell is a vertex whose slot [cslot j] is the cell. *)
Definition cslot (j : Z) : Z :=
  if j =? 0 then 0 else if j =? 1 then 2 else if j =? 2 then 1 else if j =? 3 then 0 else if j =? 4 then 2 else 1.
Lemma hcov_hV c j : 0 <= c < NC -> 0 <= j < 6 -> hcov (hV c j) (cslot j) = c.
Proof.
  intros Hc Hj. assert (j = 0 \/ j = 1 \/ j = 2 \/ j = 3 \/ j = 4 \/ j = 5) as H by lia.
  unfold Hex.hV, cslot. destruct H as [-> | [-> | [-> | [-> | [-> | ->]]]]]; cbn [Z.eqb Pos.eqb];
    rewrite ?hcov_e, ?hcov_o; cbn [Z.eqb Pos.eqb]; rewrite ?inb_nb by lia; reflexivity.
Qed.

(** ** Reciprocity *)
Lemma even_pyr r : Z.even ny = true -> 0 <= r < ny -> Z.even (pyr r) = negb (Z.even r).
Proof.
  intros E H. unfold Hex.pyr. destruct (Z.eqb_spec r (ny - 1)) as [->|N].
  - rewrite Z.even_sub, E. reflexivity.
  - rewrite Z.even_add. destruct (Z.even r); reflexivity.
Qed.
Lemma even_myr r : Z.even ny = true -> 0 <= r < ny -> Z.even (myr r) = negb (Z.even r).
Proof.
  intros E H. unfold Hex.myr. destruct (Z.eqb_spec r 0) as [->|N].
  - rewrite Z.even_sub, E. reflexivity.
  - rewrite Z.even_sub. destruct (Z.even r); reflexivity.
Qed.

Section Even.
Hypothesis Hev : Z.even ny = true.

(** Two steps of the lattice: turning by 60 degrees composes, turning by 180 degrees cancels. *)
Lemma nb_nb c j j' : 0 <= c < NC ->
  col (nb (nb c j) j') = ncol nx (ncol nx (col c) (row c) j) (nrow ny (row c) j) j' /\
  row (nb (nb c j) j') = nrow ny (nrow ny (row c) j) j'.
Proof. intros Hc. now rewrite (colof_nb nx ny Hnx), !(rowof_nb nx ny Hnx), (colof_nb nx ny Hnx). Qed.

Ltac six j := assert (j = 0 \/ j = 1 \/ j = 2 \/ j = 3 \/ j = 4 \/ j = 5)
    as [-> | [-> | [-> | [-> | [-> | ->]]]]] by lia.

Lemma nb_opp c j : 0 <= c < NC -> 0 <= j < 6 -> nb (nb c j) ((j + 3) mod 6) = c.
Proof.
  intros Hc Hj. pose proof (colof_range nx Hnx c) as Hi. pose proof (rowof_range nx ny Hnx c Hc) as Hr.
  pose proof (mxc_range nx Hnx _ Hi). pose proof (pxc_range nx Hnx _ Hi).
  destruct (nb_nb c j ((j + 3) mod 6) Hc) as [E1 E2].
  apply cell_ext; [rewrite E1|rewrite E2]; clear E1 E2; six j;
    cbn [Z.add Z.modulo Z.div_eucl Z.pos_div_eucl Pos.add Pos.succ];
    try match goal with |- context [(?a mod 6)] => let v := eval vm_compute in (a mod 6) in change (a mod 6) with v end;
    unfold ncol, nrow; cbn [Z.eqb Pos.eqb orb];
    rewrite ?even_pyr, ?even_myr, ?pyr_myr, ?myr_pyr by assumption;
    try destruct (Z.even (row c)); cbn [negb]; rewrite ?mxc_pxc, ?pxc_mxc by assumption; reflexivity.
Qed.
Lemma nb_turn c j : 0 <= c < NC -> 0 <= j < 6 -> nb (nb c j) ((j + 2) mod 6) = nb c ((j + 1) mod 6).
Proof.
  intros Hc Hj. pose proof (colof_range nx Hnx c) as Hi. pose proof (rowof_range nx ny Hnx c Hc) as Hr.
  pose proof (mxc_range nx Hnx _ Hi). pose proof (pxc_range nx Hnx _ Hi).
  destruct (nb_nb c j ((j + 2) mod 6) Hc) as [E1 E2].
  apply cell_ext; [rewrite E1, (colof_nb nx ny Hnx)|rewrite E2, (rowof_nb nx ny Hnx)]; clear E1 E2; six j;
    repeat match goal with |- context [(?a mod 6)] => let v := eval vm_compute in (a mod 6) in change (a mod 6) with v end;
    unfold ncol, nrow; cbn [Z.eqb Pos.eqb orb];
    rewrite ?even_pyr, ?even_myr, ?pyr_myr, ?myr_pyr by assumption;
    try destruct (Z.even (row c)); cbn [negb]; rewrite ?mxc_pxc, ?pxc_mxc by assumption; reflexivity.
Qed.
Lemma nb_turn' c j : 0 <= c < NC -> 0 <= j < 6 -> nb (nb c j) ((j + 4) mod 6) = nb c ((j + 5) mod 6).
Proof.
  intros Hc Hj. pose proof (colof_range nx Hnx c) as Hi. pose proof (rowof_range nx ny Hnx c Hc) as Hr.
  pose proof (mxc_range nx Hnx _ Hi). pose proof (pxc_range nx Hnx _ Hi).
  destruct (nb_nb c j ((j + 4) mod 6) Hc) as [E1 E2].
  apply cell_ext; [rewrite E1, (colof_nb nx ny Hnx)|rewrite E2, (rowof_nb nx ny Hnx)]; clear E1 E2; six j;
    repeat match goal with |- context [(?a mod 6)] => let v := eval vm_compute in (a mod 6) in change (a mod 6) with v end;
    unfold ncol, nrow; cbn [Z.eqb Pos.eqb orb];
    rewrite ?even_pyr, ?even_myr, ?pyr_myr, ?myr_pyr by assumption;
    try destruct (Z.even (row c)); cbn [negb]; rewrite ?mxc_pxc, ?pxc_mxc by assumption; reflexivity.
Qed.
Lemma inb_is_nb d j : 0 <= d < NC -> 2 <= j <= 5 -> inb_ d j = nb d ((j + 3) mod 6).
Proof.
  intros Hd Hj. pose proof (inb_range nx ny Hnx Hny d j Hd) as Hr.
  rewrite <- (nb_inb nx ny Hnx d j Hd Hj) at 2. now rewrite nb_opp by lia.
Qed.
End Even.

(** At the seam of an odd mesh the lists are not reciprocal. *)
Lemma nb_seam_odd : 2 <= nx -> Z.even ny = false -> nb (nb 0 1) 4 <> 0.
Proof.
  intros H2 Hodd E. assert (Hc : 0 <= 0 < NC) by nia.
  destruct (nb_nb 0 1 4 Hc) as [E1 _]. rewrite E in E1.
  assert (C0 : col 0 = 0) by (apply Z.mod_small; lia). assert (R0 : row 0 = 0) by (apply Z.div_small; lia).
  rewrite C0, R0 in E1. unfold ncol, nrow in E1. cbn [Z.eqb Pos.eqb orb Z.even] in E1.
  unfold Hex.myr in E1. cbn [Z.eqb] in E1. rewrite Z.even_sub, Hodd in E1. cbn in E1.
  unfold Hex.mxc in E1. cbn [Z.eqb] in E1. lia.
Qed.
Lemma reciprocal_iff : 2 <= nx ->
  ((forall c j, 0 <= c < NC -> 0 <= j < 6 -> nb (nb c j) ((j + 3) mod 6) = c) <-> Z.even ny = true).
Proof.
  intros H2. split.
  - intros H. destruct (Z.even ny) eqn:E; [reflexivity|]. exfalso. apply (nb_seam_odd H2 E).
    apply (H 0 1); [nia|lia].
  - intros E c j. now apply nb_opp.
Qed.
End HexComb.
