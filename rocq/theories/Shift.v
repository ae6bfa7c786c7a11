(** Translations of the periodic hexagonal mesh by lattice vectors: [a] cells along a row and [b] rows
    up.  Neighbours are translates, translations compose by adding their vectors, hence they commute
    with the connectivity, slot by slot. *)
From Coq Require Import ZArith List Bool Lia ZifyBool.
From Verif Require Import Hex.
Import ListNotations.
Open Scope Z_scope.

Section Shift.
Context (nx ny : Z) (Hnx : 1 <= nx) (Hny : 1 <= ny).
Local Notation cix := (cix nx).
Local Notation colof := (colof nx).
Local Notation rowof := (rowof nx).

(** Odd rows lie half a cell to the right of even rows, so going up [b] rows moves the column by
    [b / 2], rounded up when starting in an odd row. *)
Definition shc (a b c : Z) : Z :=
  cix ((colof c + a + (b + rowof c mod 2) / 2) mod nx) ((rowof c + b) mod ny).
Definition she (a b e : Z) : Z := 3 * shc a b (e / 3) + e mod 3.
Definition shv (a b v : Z) : Z := 2 * shc a b (v / 2) + v mod 2.

(** Translations that map even rows to even rows or even rows to odd rows. *)
Definition sh_ok (b : Z) : Prop := Z.even ny = true \/ b = 0.

Lemma shc_range a b c : 0 <= shc a b c < nx * ny.
Proof. unfold shc. apply cix_range; auto; apply Z.mod_pos_bound; lia. Qed.
Lemma she_range a b e : 0 <= she a b e < 3 * (nx * ny).
Proof. unfold she. pose proof (shc_range a b (e / 3)). pose proof (Z.mod_pos_bound e 3 ltac:(lia)). lia. Qed.
Lemma shv_range a b v : 0 <= shv a b v < 2 * (nx * ny).
Proof. unfold shv. pose proof (shc_range a b (v / 2)). pose proof (Z.mod_pos_bound v 2 ltac:(lia)). lia. Qed.
Lemma colof_shc a b c : colof (shc a b c) = (colof c + a + (b + rowof c mod 2) / 2) mod nx.
Proof. unfold shc. rewrite colof_cix; auto; apply Z.mod_pos_bound; lia. Qed.
Lemma rowof_shc a b c : rowof (shc a b c) = (rowof c + b) mod ny.
Proof. unfold shc. rewrite rowof_cix; auto; apply Z.mod_pos_bound; lia. Qed.

Lemma mod_shift n x y : 1 <= n -> (exists q, x = y + q * n) -> x mod n = y mod n.
Proof. intros Hn (q & ->). apply Z_mod_plus_full. Qed.
Lemma par_row b r : sh_ok b -> 0 <= r < ny -> ((r + b) mod ny) mod 2 = (r + b) mod 2.
Proof.
  intros [He| ->] Hr.
  - apply Z.even_spec in He. destruct He as (h & ->).
    pose proof (Z.div_mod (r + b) (2 * h) ltac:(lia)) as E.
    apply mod_shift; [lia|]. exists (- (h * ((r + b) / (2 * h)))). lia.
  - rewrite Z.add_0_r, (Z.mod_small r ny) by lia. reflexivity.
Qed.

Lemma shc_shc a b a' b' c : 0 <= c < nx * ny -> sh_ok b ->
  shc a' b' (shc a b c) = shc (a + a') (b + b') c.
Proof.
  intros Hc Hb. pose proof (rowof_range nx ny Hnx c Hc) as Hr.
  unfold shc at 1 3. rewrite colof_shc, rowof_shc. f_equal.
  - rewrite par_row by assumption. apply mod_shift; [exact Hnx|].
    set (i := colof c). set (r := rowof c) in *.
    exists (- ((i + a + (b + r mod 2) / 2) / nx)).
    pose proof (Z.div_mod (i + a + (b + r mod 2) / 2) nx ltac:(lia)) as E.
    set (u := (i + a + (b + r mod 2) / 2)) in *. 
    assert (Q : (b + r mod 2) / 2 + (b' + (r + b) mod 2) / 2 = (b + b' + r mod 2) / 2).
    { clear. rewrite (Z.add_comm r b), <- Zplus_mod_idemp_r. set (w := b + r mod 2).
      pose proof (Z.div_mod w 2 ltac:(lia)) as E. replace (b + b' + r mod 2) with (b' + w mod 2 + w / 2 * 2) by (unfold w in *; lia).
      rewrite Z.div_add by lia. lia. }
    unfold u in *. nia.
  - rewrite Zplus_mod_idemp_l. f_equal. lia.
Qed.
Lemma shc_0 c : 0 <= c < nx * ny -> shc 0 0 c = c.
Proof.
  intros Hc. pose proof (rowof_range nx ny Hnx c Hc). pose proof (colof_range nx Hnx c).
  unfold shc. pose proof (Z.mod_pos_bound (rowof c) 2 ltac:(lia)).
  rewrite (Z.div_small (0 + _) 2) by lia. rewrite !Z.add_0_r, !Z.mod_small by lia. apply cix_surj; auto.
Qed.
Lemma sh_opp b : sh_ok b -> sh_ok (- b).
Proof. unfold sh_ok. intuition lia. Qed.
Lemma shc_inv a b c : 0 <= c < nx * ny -> sh_ok b -> shc (- a) (- b) (shc a b c) = c.
Proof. intros Hc Hb. rewrite shc_shc by assumption. rewrite !Z.add_opp_diag_r. now apply shc_0. Qed.
Lemma shc_inj a b c c' : 0 <= c < nx * ny -> 0 <= c' < nx * ny -> sh_ok b -> shc a b c = shc a b c' -> c = c'.
Proof. intros Hc Hc' Hb E. rewrite <- (shc_inv a b c), <- (shc_inv a b c') by assumption. now rewrite E. Qed.

(** The neighbours are translates. *)
Definition nba (j : Z) : Z := if j =? 0 then -1 else if j =? 1 then 0 else if j =? 2 then 1 else if j =? 3 then 1 else if j =? 4 then 0 else -1.
Definition nbb (j : Z) : Z := if j =? 0 then 0 else if j =? 1 then -1 else if j =? 2 then -1 else if j =? 3 then 0 else 1.
Lemma mxc_mod i : 0 <= i < nx -> mxc nx i = (i + -1) mod nx.
Proof.
  intros Hi. unfold mxc. destruct (Z.eqb_spec i 0) as [->|].
  - apply (Z.mod_unique_pos _ _ (-1)); lia.
  - symmetry. apply Z.mod_small. lia.
Qed.
Lemma pxc_mod i : 0 <= i < nx -> pxc nx i = (i + 1) mod nx.
Proof.
  intros Hi. unfold pxc. destruct (Z.eqb_spec i (nx - 1)) as [->|].
  - apply (Z.mod_unique_pos _ _ 1); lia.
  - symmetry. apply Z.mod_small. lia.
Qed.
Lemma myr_mod i : 0 <= i < ny -> myr ny i = (i + -1) mod ny.
Proof.
  intros Hi. unfold myr. destruct (Z.eqb_spec i 0) as [->|].
  - apply (Z.mod_unique_pos _ _ (-1)); lia.
  - symmetry. apply Z.mod_small. lia.
Qed.
Lemma pyr_mod i : 0 <= i < ny -> pyr ny i = (i + 1) mod ny.
Proof.
  intros Hi. unfold pyr. destruct (Z.eqb_spec i (ny - 1)) as [->|].
  - apply (Z.mod_unique_pos _ _ 1); lia.
  - symmetry. apply Z.mod_small. lia.
Qed.
Lemma nb_sh c j : 0 <= c < nx * ny -> 0 <= j < 6 -> nb nx ny c j = shc (nba j) (nbb j) c.
Proof.
  intros Hc Hj. pose proof (rowof_range nx ny Hnx c Hc) as Hr. pose proof (colof_range nx Hnx c) as Hi.
  unfold nb, shc. set (i := colof c) in *. set (r := rowof c) in *.
  assert (P : r mod 2 = if Z.even r then 0 else 1) by (rewrite Zmod_even; reflexivity).
  rewrite P. clear P. unfold ncol, nrow.
  assert (J : j = 0 \/ j = 1 \/ j = 2 \/ j = 3 \/ j = 4 \/ j = 5) by lia.
  destruct J as [->|[->|[->|[->|[->| ->]]]]]; cbn [Z.eqb orb nba nbb Pos.eqb];
    rewrite ?mxc_mod, ?pxc_mod, ?myr_mod, ?pyr_mod by assumption; unfold nba, nbb; cbn [Z.eqb Pos.eqb];
    apply (f_equal2 (Hex.cix nx)); try (destruct (Z.even r); cbn); rewrite ?Z.add_0_r; try reflexivity;
    rewrite ?Z.mod_small by lia; try reflexivity; f_equal; lia.
Qed.

Section Commute.
Context (a b : Z) (Hb : sh_ok b).
Local Notation sc := (shc a b).
Local Notation se := (she a b).
Local Notation sv := (shv a b).

Lemma sh_comm a' b' c : 0 <= c < nx * ny -> sc (shc a' b' c) = shc a' b' (sc c).
Proof.
  intros Hc. destruct Hb as [He| ->].
  - rewrite !shc_shc by (auto; left; exact He). f_equal; lia.
  - rewrite (shc_shc a 0 a' b') by (auto; now right).
    pose proof (rowof_range nx ny Hnx c Hc) as Hr.
    unfold shc at 1. rewrite colof_shc, rowof_shc.
    rewrite (Z.div_small (0 + _) 2) by (pose proof (Z.mod_pos_bound ((rowof c + b') mod ny) 2 ltac:(lia)); lia).
    unfold shc. f_equal.
    + rewrite <- Z.add_assoc, Zplus_mod_idemp_l. f_equal. rewrite Z.add_0_l. lia.
    + rewrite Z.add_0_r, Zmod_mod, Z.add_0_l. reflexivity.
Qed.

Lemma sc_nb c j : 0 <= c < nx * ny -> 0 <= j < 6 -> sc (nb nx ny c j) = nb nx ny (sc c) j.
Proof. intros Hc Hj. rewrite !nb_sh by (auto using shc_range). now apply sh_comm. Qed.
Lemma sc_inb d j : 0 <= d < nx * ny -> 2 <= j <= 5 -> sc (inb_ nx ny d j) = inb_ nx ny (sc d) j.
Proof.
  intros Hd Hj. apply (nb_inj nx ny Hnx) with (j := j); auto using shc_range, inb_range.
  rewrite <- sc_nb by (auto using inb_range; lia). rewrite !nb_inb by (auto using shc_range). reflexivity.
Qed.
Lemma se_3 c q : 0 <= q < 3 -> se (3 * c + q) = 3 * sc c + q.
Proof. intros Hq. unfold she. now rewrite div3, mod3. Qed.
Lemma se_30 c : se (3 * c) = 3 * sc c.
Proof. rewrite <- (Z.add_0_r (3 * c)), se_3 by lia. lia. Qed.
Lemma sv_2 c q : 0 <= q < 2 -> sv (2 * c + q) = 2 * sc c + q.
Proof. intros Hq. unfold shv. now rewrite div2, mod2. Qed.
Lemma sv_20 c : sv (2 * c) = 2 * sc c.
Proof. rewrite <- (Z.add_0_r (2 * c)), sv_2 by lia. lia. Qed.
Lemma se_div e : se e / 3 = sc (e / 3).
Proof. unfold she. apply div3. apply Z.mod_pos_bound. lia. Qed.
Lemma se_mod e : se e mod 3 = e mod 3.
Proof. unfold she. apply mod3. apply Z.mod_pos_bound. lia. Qed.
Lemma sv_div v : sv v / 2 = sc (v / 2).
Proof. unfold shv. apply div2. apply Z.mod_pos_bound. lia. Qed.
Lemma sv_mod v : sv v mod 2 = v mod 2.
Proof. unfold shv. apply mod2. apply Z.mod_pos_bound. lia. Qed.

Lemma s_hE c j : 0 <= c < nx * ny -> 0 <= j < 6 -> se (hE nx ny c j) = hE nx ny (sc c) j.
Proof.
  intros Hc Hj. unfold hE. destruct (Z.ltb_spec j 3).
  - apply se_3. lia.
  - rewrite se_3 by lia. now rewrite sc_nb.
Qed.
Lemma s_hV c j : 0 <= c < nx * ny -> 0 <= j < 6 -> sv (hV nx ny c j) = hV nx ny (sc c) j.
Proof.
  intros Hc Hj. unfold hV.
  repeat match goal with |- context [if ?x =? ?y then _ else _] => destruct (Z.eqb_spec x y) end;
    rewrite ?sv_20, ?sv_2, ?sc_nb by (auto; lia); reflexivity.
Qed.
Lemma s_ecell e : 0 <= e < 3 * (nx * ny) -> sc (ecell nx ny e) = ecell nx ny (se e).
Proof.
  intros He. unfold ecell. rewrite se_div, se_mod. pose proof (Z.mod_pos_bound e 3 ltac:(lia)).
  apply sc_inb; [now apply ediv_range|lia].
Qed.
Lemma s_hcoe e s : 0 <= e < 3 * (nx * ny) -> sc (hcoe nx ny e s) = hcoe nx ny (se e) s.
Proof. intros He. unfold hcoe. destruct (s =? 0); [now apply s_ecell|now rewrite se_div]. Qed.
Lemma s_hvoe e s : 0 <= e < 3 * (nx * ny) -> sv (hvoe nx ny e s) = hvoe nx ny (se e) s.
Proof.
  intros He. unfold hvoe. rewrite se_div, se_mod. pose proof (Z.mod_pos_bound e 3 ltac:(lia)).
  apply s_hV; [now apply ediv_range|]. destruct (s =? 0); lia.
Qed.
Lemma s_heoe e s : 0 <= e < 3 * (nx * ny) -> 0 <= s < 10 -> se (heoe nx ny e s) = heoe nx ny (se e) s.
Proof.
  intros He Hs. unfold heoe. rewrite se_div, se_mod. pose proof (Z.mod_pos_bound e 3 ltac:(lia)).
  destruct (s <? 5).
  - rewrite s_hE, s_ecell by (auto using ecell_range; apply Z.mod_pos_bound; lia). reflexivity.
  - destruct (Z.ltb_spec s 10); [|lia].
    rewrite s_hE by (auto using ediv_range; apply Z.mod_pos_bound; lia). reflexivity.
Qed.
Lemma s_hcov v s : 0 <= v < 2 * (nx * ny) -> sc (hcov nx ny v s) = hcov nx ny (sv v) s.
Proof.
  intros Hv. pose proof (vdiv_range nx ny v Hv). unfold hcov. rewrite sv_div, sv_mod.
  repeat match goal with |- context [if ?x =? ?y then _ else _] => destruct (x =? y) end;
    rewrite ?sc_inb by (auto; lia); reflexivity.
Qed.
Lemma s_heov v s : 0 <= v < 2 * (nx * ny) -> se (heov nx ny v s) = heov nx ny (sv v) s.
Proof.
  intros Hv. pose proof (vdiv_range nx ny v Hv). unfold heov. rewrite sv_div, sv_mod.
  repeat match goal with |- context [if ?x =? ?y then _ else _] => destruct (x =? y) end;
    rewrite ?se_30, ?se_3, ?sc_inb by (auto; lia); reflexivity.
Qed.
Lemma sc_eqb c c' : 0 <= c < nx * ny -> 0 <= c' < nx * ny -> (sc c =? sc c') = (c =? c').
Proof.
  intros Hc Hc'. destruct (Z.eqb_spec c c') as [->|Hne]; [apply Z.eqb_refl|].
  apply Z.eqb_neq. intros E. apply Hne. now apply (shc_inj a b).
Qed.
Lemma sv_eqb v v' : 0 <= v < 2 * (nx * ny) -> 0 <= v' < 2 * (nx * ny) -> (sv v =? sv v') = (v =? v').
Proof.
  intros Hv Hv'. destruct (Z.eqb_spec v v') as [->|Hne]; [apply Z.eqb_refl|].
  apply Z.eqb_neq. intros E. apply Hne.
  assert (E1 : v / 2 = v' / 2).
  { apply (shc_inj a b); auto using vdiv_range. rewrite <- !sv_div. now rewrite E. }
  assert (E2 : v mod 2 = v' mod 2) by (rewrite <- (sv_mod v), <- (sv_mod v'); now rewrite E).
  rewrite (Z.div_mod v 2), (Z.div_mod v' 2), E1, E2 by lia. reflexivity.
Qed.
End Commute.
End Shift.
