(** Closed form of the periodic hexagonal connectivity that the constructor is proved to build
    (MeshProof.v), and its index arithmetic. *)
From Coq Require Import ZArith List Bool Lia ZifyBool.
Import ListNotations.
Open Scope Z_scope.

Section Hex.
Context (nx ny : Z).

Definition mxc (i : Z) : Z := if i =? 0 then nx - 1 else i - 1.
Definition pxc (i : Z) : Z := if i =? nx - 1 then 0 else i + 1.
Definition myr (r : Z) : Z := if r =? 0 then ny - 1 else r - 1.
Definition pyr (r : Z) : Z := if r =? ny - 1 then 0 else r + 1.
Definition cix (i r : Z) : Z := r * nx + i.
Definition colof (c : Z) : Z := c mod nx.
Definition rowof (c : Z) : Z := c / nx.

(** Column and row of neighbour [j] of the cell in column [i] and row [r]. *)
Definition ncol (i r j : Z) : Z :=
  if Z.even r then
    if j =? 0 then mxc i else if j =? 1 then mxc i else if j =? 2 then i
    else if j =? 3 then pxc i else if j =? 4 then i else mxc i
  else
    if j =? 0 then mxc i else if j =? 1 then i else if j =? 2 then pxc i
    else if j =? 3 then pxc i else if j =? 4 then pxc i else i.
Definition nrow (r j : Z) : Z :=
  if (j =? 0) || (j =? 3) then r else if (j =? 1) || (j =? 2) then myr r else pyr r.

Definition nb (c j : Z) : Z := cix (ncol (colof c) (rowof c) j) (nrow (rowof c) j).

(** The cell whose neighbour [j] is [d], for [j] = 2, 3, 4, 5. *)
Definition inb_ (d j : Z) : Z :=
  let i := colof d in let r := rowof d in
  if j =? 2 then cix (if Z.even (pyr r) then i else mxc i) (pyr r)
  else if j =? 3 then cix (mxc i) r
  else if j =? 4 then cix (if Z.even (myr r) then i else mxc i) (myr r)
  else cix (if Z.even (myr r) then pxc i else i) (myr r).

(** Edges and vertices of a cell. *)
Definition hE (c j : Z) : Z := if j <? 3 then 3 * c + j else 3 * nb c j + (j - 3).
Definition hV (c j : Z) : Z :=
  if j =? 0 then 2 * c else if j =? 1 then 2 * c + 1
  else if j =? 2 then 2 * nb c 2 else if j =? 3 then 2 * nb c 3 + 1
  else if j =? 4 then 2 * nb c 3 else 2 * nb c 4 + 1.

(** The cell on side 0 of edge [e] (side 1 is [e / 3]). *)
Definition ecell (e : Z) : Z := inb_ (e / 3) (3 + e mod 3).
Definition hcoe (e s : Z) : Z := if s =? 0 then ecell e else e / 3.
Definition hvoe (e s : Z) : Z := hV (e / 3) (if s =? 0 then e mod 3 + 1 else e mod 3).
Definition heoe (e s : Z) : Z :=
  if s <? 5 then hE (ecell e) ((3 + e mod 3 + 1 + s) mod 6)
  else if s <? 10 then hE (e / 3) ((e mod 3 + 1 + (s - 5)) mod 6) else 0.
Definition hcov (v s : Z) : Z :=
  let d := v / 2 in
  if v mod 2 =? 0 then if s =? 0 then d else if s =? 1 then inb_ d 2 else inb_ d 3
  else if s =? 0 then inb_ d 3 else if s =? 1 then inb_ d 4 else d.
Definition heov (v s : Z) : Z :=
  let d := v / 2 in
  if v mod 2 =? 0 then if s =? 0 then 3 * d else if s =? 1 then 3 * inb_ d 2 + 2 else 3 * inb_ d 2 + 1
  else if s =? 0 then 3 * d else if s =? 1 then 3 * inb_ d 3 + 2 else 3 * d + 1.

Hypothesis Hnx : 1 <= nx.
Hypothesis Hny : 1 <= ny.

Lemma mxc_range i : 0 <= i < nx -> 0 <= mxc i < nx.
Proof. unfold mxc. destruct (Z.eqb_spec i 0); lia. Qed.
Lemma pxc_range i : 0 <= i < nx -> 0 <= pxc i < nx.
Proof. unfold pxc. destruct (Z.eqb_spec i (nx - 1)); lia. Qed.
Lemma myr_range r : 0 <= r < ny -> 0 <= myr r < ny.
Proof. unfold myr. destruct (Z.eqb_spec r 0); lia. Qed.
Lemma pyr_range r : 0 <= r < ny -> 0 <= pyr r < ny.
Proof. unfold pyr. destruct (Z.eqb_spec r (ny - 1)); lia. Qed.
Lemma mxc_pxc i : 0 <= i < nx -> mxc (pxc i) = i.
Proof. unfold mxc, pxc. destruct (Z.eqb_spec i (nx - 1)); destruct (Z.eqb_spec 0 0); destruct (Z.eqb_spec (i + 1) 0); lia. Qed.
Lemma pxc_mxc i : 0 <= i < nx -> pxc (mxc i) = i.
Proof. unfold mxc, pxc. destruct (Z.eqb_spec i 0); [destruct (Z.eqb_spec (nx - 1) (nx - 1))|destruct (Z.eqb_spec (i - 1) (nx - 1))]; lia. Qed.
Lemma myr_pyr r : 0 <= r < ny -> myr (pyr r) = r.
Proof. unfold myr, pyr. destruct (Z.eqb_spec r (ny - 1)); destruct (Z.eqb_spec 0 0); destruct (Z.eqb_spec (r + 1) 0); lia. Qed.
Lemma pyr_myr r : 0 <= r < ny -> pyr (myr r) = r.
Proof. unfold myr, pyr. destruct (Z.eqb_spec r 0); [destruct (Z.eqb_spec (ny - 1) (ny - 1))|destruct (Z.eqb_spec (r - 1) (ny - 1))]; lia. Qed.

Lemma colof_cix i r : 0 <= i < nx -> colof (cix i r) = i.
Proof. intros. unfold colof, cix. rewrite Z.add_comm, Z.mod_add by lia. apply Z.mod_small; lia. Qed.
Lemma rowof_cix i r : 0 <= i < nx -> rowof (cix i r) = r.
Proof. intros. unfold rowof, cix. rewrite Z.add_comm, Z.div_add by lia. rewrite Z.div_small by lia. lia. Qed.
Lemma cix_surj c : cix (colof c) (rowof c) = c.
Proof. unfold cix, colof, rowof. pose proof (Z.div_mod c nx). lia. Qed.
Lemma colof_range c : 0 <= colof c < nx.
Proof. unfold colof. apply Z.mod_pos_bound; lia. Qed.
Lemma rowof_range c : 0 <= c < nx * ny -> 0 <= rowof c < ny.
Proof. intros H. unfold rowof. split; [apply Z.div_pos; lia|apply Z.div_lt_upper_bound; lia]. Qed.
Lemma cix_range i r : 0 <= i < nx -> 0 <= r < ny -> 0 <= cix i r < nx * ny.
Proof. intros. unfold cix. split; nia. Qed.

Lemma ncol_range i r j : 0 <= i < nx -> 0 <= ncol i r j < nx.
Proof.
  intros H. pose proof (mxc_range i H). pose proof (pxc_range i H). unfold ncol.
  destruct (Z.even r), (j =? 0), (j =? 1), (j =? 2), (j =? 3), (j =? 4); lia.
Qed.
Lemma nrow_range r j : 0 <= r < ny -> 0 <= nrow r j < ny.
Proof.
  intros H. pose proof (myr_range r H). pose proof (pyr_range r H). unfold nrow.
  destruct ((j =? 0) || (j =? 3)), ((j =? 1) || (j =? 2)); lia.
Qed.
Lemma nb_range c j : 0 <= c < nx * ny -> 0 <= nb c j < nx * ny.
Proof. intros H. apply cix_range; [apply ncol_range, colof_range|apply nrow_range, rowof_range; exact H]. Qed.
Lemma colof_nb c j : colof (nb c j) = ncol (colof c) (rowof c) j.
Proof. apply colof_cix, ncol_range, colof_range. Qed.
Lemma rowof_nb c j : rowof (nb c j) = nrow (rowof c) j.
Proof. apply rowof_cix, ncol_range, colof_range. Qed.
Lemma nb_cix i r j : 0 <= i < nx -> nb (cix i r) j = cix (ncol i r j) (nrow r j).
Proof. intros. unfold nb. now rewrite colof_cix, rowof_cix. Qed.

Lemma inb_range d j : 0 <= d < nx * ny -> 0 <= inb_ d j < nx * ny.
Proof.
  intros H. pose proof (colof_range d) as Hc. pose proof (rowof_range d H) as Hr.
  pose proof (mxc_range _ Hc). pose proof (pxc_range _ Hc). pose proof (myr_range _ Hr). pose proof (pyr_range _ Hr).
  unfold inb_. destruct (j =? 2), (j =? 3), (j =? 4), (Z.even (pyr (rowof d))), (Z.even (myr (rowof d)));
    apply cix_range; auto.
Qed.

Ltac jcases j := assert (j = 2 \/ j = 3 \/ j = 4 \/ j = 5) as [-> | [-> | [-> | ->]]] by lia.

Lemma inb_nb c j : 0 <= c < nx * ny -> 2 <= j <= 5 -> inb_ (nb c j) j = c.
Proof.
  intros H Hj. pose proof (colof_range c) as Hc. pose proof (rowof_range c H) as Hr.
  unfold inb_. rewrite colof_nb, rowof_nb. transitivity (cix (colof c) (rowof c)); [|apply cix_surj].
  jcases j; cbn [Z.eqb Pos.eqb]; unfold nrow, ncol; cbn [Z.eqb Pos.eqb orb];
    rewrite ?pyr_myr, ?myr_pyr by assumption;
    destruct (Z.even (rowof c)); rewrite ?mxc_pxc, ?pxc_mxc by assumption; reflexivity.
Qed.
Lemma nb_inb d j : 0 <= d < nx * ny -> 2 <= j <= 5 -> nb (inb_ d j) j = d.
Proof.
  intros H Hj. pose proof (colof_range d) as Hc. pose proof (rowof_range d H) as Hr.
  pose proof (mxc_range _ Hc). pose proof (pxc_range _ Hc).
  unfold inb_. transitivity (cix (colof d) (rowof d)); [|apply cix_surj].
  jcases j; cbn [Z.eqb Pos.eqb];
    rewrite nb_cix by (try destruct (Z.even _); assumption);
    unfold nrow, ncol; cbn [Z.eqb Pos.eqb orb]; rewrite ?pyr_myr, ?myr_pyr by assumption;
    try (destruct (Z.even (pyr (rowof d)))); try (destruct (Z.even (myr (rowof d))));
    try (destruct (Z.even (rowof d))); rewrite ?mxc_pxc, ?pxc_mxc by assumption; reflexivity.
Qed.
Lemma nb_inj c c' j : 0 <= c < nx * ny -> 0 <= c' < nx * ny -> 2 <= j <= 5 -> nb c j = nb c' j -> c = c'.
Proof. intros H H' Hj E. rewrite <- (inb_nb c j), <- (inb_nb c' j) by auto. now rewrite E. Qed.

Lemma hE_range c j : 0 <= c < nx * ny -> 0 <= j < 6 -> 0 <= hE c j < 3 * (nx * ny).
Proof. intros H Hj. pose proof (nb_range c j H). unfold hE. destruct (Z.ltb_spec j 3); lia. Qed.
Lemma hV_range c j : 0 <= c < nx * ny -> 0 <= hV c j < 2 * (nx * ny).
Proof.
  intros H. pose proof (nb_range c 2 H). pose proof (nb_range c 3 H). pose proof (nb_range c 4 H). unfold hV.
  destruct (j =? 0), (j =? 1), (j =? 2), (j =? 3), (j =? 4); lia.
Qed.
Lemma ediv_range e : 0 <= e < 3 * (nx * ny) -> 0 <= e / 3 < nx * ny.
Proof. intros H. split; [apply Z.div_pos; lia|apply Z.div_lt_upper_bound; lia]. Qed.
Lemma vdiv_range v : 0 <= v < 2 * (nx * ny) -> 0 <= v / 2 < nx * ny.
Proof. intros H. split; [apply Z.div_pos; lia|apply Z.div_lt_upper_bound; lia]. Qed.
Lemma ecell_range e : 0 <= e < 3 * (nx * ny) -> 0 <= ecell e < nx * ny.
Proof. intros H. apply inb_range, ediv_range, H. Qed.
Lemma hcoe_range e s : 0 <= e < 3 * (nx * ny) -> 0 <= hcoe e s < nx * ny.
Proof. intros H. unfold hcoe. destruct (s =? 0); [now apply ecell_range|now apply ediv_range]. Qed.
Lemma hvoe_range e s : 0 <= e < 3 * (nx * ny) -> 0 <= hvoe e s < 2 * (nx * ny).
Proof. intros H. apply hV_range, ediv_range, H. Qed.
Lemma heoe_range e s : 0 <= e < 3 * (nx * ny) -> 0 <= heoe e s < 3 * (nx * ny).
Proof.
  intros H. unfold heoe. destruct (s <? 5); [|destruct (s <? 10)].
  - apply hE_range; [now apply ecell_range|apply Z.mod_pos_bound; lia].
  - apply hE_range; [now apply ediv_range|apply Z.mod_pos_bound; lia].
  - pose proof (ediv_range e H). lia.
Qed.
Lemma hcov_range v s : 0 <= v < 2 * (nx * ny) -> 0 <= hcov v s < nx * ny.
Proof.
  intros H. pose proof (vdiv_range v H) as Hd. unfold hcov. cbn zeta.
  destruct (v mod 2 =? 0), (s =? 0), (s =? 1); auto using inb_range.
Qed.
Lemma heov_range v s : 0 <= v < 2 * (nx * ny) -> 0 <= heov v s < 3 * (nx * ny).
Proof.
  intros H. pose proof (vdiv_range v H) as Hd. pose proof (inb_range _ 2 Hd). pose proof (inb_range _ 3 Hd).
  unfold heov. cbn zeta. destruct (v mod 2 =? 0), (s =? 0), (s =? 1); lia.
Qed.

(** Decoding of the edge and vertex numbers. *)
Lemma div3 x j : 0 <= j < 3 -> (3 * x + j) / 3 = x.
Proof. intros. Z.to_euclidean_division_equations; lia. Qed.
Lemma mod3 x j : 0 <= j < 3 -> (3 * x + j) mod 3 = j.
Proof. intros. Z.to_euclidean_division_equations; lia. Qed.
Lemma div2 x j : 0 <= j < 2 -> (2 * x + j) / 2 = x.
Proof. intros. Z.to_euclidean_division_equations; lia. Qed.
Lemma mod2 x j : 0 <= j < 2 -> (2 * x + j) mod 2 = j.
Proof. intros. Z.to_euclidean_division_equations; lia. Qed.
Lemma div2' x : (2 * x) / 2 = x. Proof. rewrite Z.mul_comm. now apply Z.div_mul. Qed.
Lemma mod2' x : (2 * x) mod 2 = 0. Proof. rewrite Z.mul_comm. apply Z.mod_mul. lia. Qed.
Lemma div3' x : (3 * x) / 3 = x. Proof. rewrite Z.mul_comm. now apply Z.div_mul. Qed.
Lemma mod3' x : (3 * x) mod 3 = 0. Proof. rewrite Z.mul_comm. apply Z.mod_mul. lia. Qed.

Lemma ecell_hE c j : 0 <= c < nx * ny -> 3 <= j < 6 -> ecell (hE c j) = c.
Proof.
  intros H Hj. unfold ecell, hE. destruct (Z.ltb_spec j 3); [lia|].
  rewrite div3, mod3 by lia. replace (3 + (j - 3)) with j by lia. apply inb_nb; lia.
Qed.
Lemma hE_ecell e : 0 <= e < 3 * (nx * ny) -> hE (ecell e) (3 + e mod 3) = e.
Proof.
  intros H. pose proof (ediv_range e H). pose proof (Z.mod_pos_bound e 3 ltac:(lia)).
  unfold ecell, hE. destruct (Z.ltb_spec (3 + e mod 3) 3); [lia|].
  rewrite nb_inb by lia. pose proof (Z.div_mod e 3). lia.
Qed.
Lemma hE_low e : hE (e / 3) (e mod 3) = e.
Proof.
  pose proof (Z.mod_pos_bound e 3 ltac:(lia)). unfold hE. destruct (Z.ltb_spec (e mod 3) 3); [|lia].
  pose proof (Z.div_mod e 3). lia.
Qed.
End Hex.
