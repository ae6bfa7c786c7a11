(** The constructor of the mesh is free of undefined behaviour and races and builds the closed form
    of Hex.v. *)
From Coq Require Import ZArith List Bool Lia ZifyBool.
From Verif Require Import Arith Arrays Prog Conc Mesh Hex Launch.
Import ListNotations.
Open Scope Z_scope.

(** The constructor's arguments are within the limits of [Int] (C02 shows that these limits are
    the exact ones). *)
Definition mesh_ok {A} (cf : config) (h : hexargs A) : Prop :=
  1 <= nx h /\ 1 <= ny h /\ 3 * (nx h * ny h) <= INT_MAX /\
  1 <= lanes cf /\ 0 <= nlayers h /\ zceil (nlayers h) (vector_length cf) * vector_length cf <= INT_MAX.

Lemma zceil_nonneg n v : 0 <= n -> 1 <= v -> 0 <= zceil n v.
Proof. intros. unfold zceil. assert (- n / v <= 0) by (apply Z.div_le_upper_bound; lia). lia. Qed.

(** Unscaled weights. *)
Definition hw0 {A : Arith} (e s : Z) : F A :=
  (let r := e mod 3 in
  if s <? 10 then
    let q := s mod 5 in
    if r =? 0 then if q =? 0 then #1/#3 else if q =? 1 then #1/#6 else if q =? 2 then #0 else if q =? 3 then #1/#6 else #1/#3
    else if r =? 1 then if q =? 0 then #1/#3 else if q =? 1 then #(-1)/#6 else if q =? 2 then #0 else if q =? 3 then #1/#6 else #(-1)/#3
    else if q =? 0 then #(-1)/#3 else if q =? 1 then #(-1)/#6 else if q =? 2 then #0 else if q =? 3 then #(-1)/#6 else #(-1)/#3
  else #0)%fp.
Definition hw {A : Arith} (e s : Z) : F A := (hw0 e s * (#1 / fsqrt #3))%fp.

Section MeshProof.
Context {A : Arith} (cf : config) (h : hexargs A) (ntr : Z).
Local Notation D := (dims_of cf h ntr).
Local Notation VL := (vector_length cf).
Local Notation X := (nx h).
Local Notation Y := (ny h).
Local Notation nb := (nb X Y).
Local Notation inb' := (inb_ X Y).
Local Notation hE := (hE X Y).
Local Notation hV := (hV X Y).
Local Notation ecell := (ecell X Y).
Local Notation colof := (colof X).
Local Notation rowof := (rowof X).
Local Notation cix := (cix X).
Hypothesis Hok : mesh_ok cf h.

Lemma Hx : 1 <= X. Proof. apply Hok. Qed.
Lemma Hy : 1 <= Y. Proof. apply Hok. Qed.
Lemma Hmax : 3 * (X * Y) <= INT_MAX. Proof. apply Hok. Qed.
Lemma HVL : 1 <= VL. Proof. unfold vector_length. destruct (no_simd cf); [lia|apply Hok]. Qed.
Hint Resolve Hx Hy Hmax HVL : core.
Hint Resolve nb_range hE_range hV_range ecell_range ediv_range vdiv_range hcoe_range hvoe_range heoe_range
  hcov_range heov_range inb_range : hex.

Lemma X_le : X <= X * Y. Proof. pose proof Hx. pose proof Hy. nia. Qed.
Lemma Y_le : Y <= X * Y. Proof. pose proof Hx. pose proof Hy. nia. Qed.

Ltac ints := pose proof Hx; pose proof Hy; pose proof Hmax; pose proof X_le; pose proof Y_le;
  unfold INT_MIN, INT_MAX in *.

Ltac il := unfold INT_MIN, INT_MAX in *; lia.

(** ** Index computations *)
Lemma safe_cellidx i r m (R W : loc -> Prop) (Q : Z -> mem A -> Prop) :
  0 <= i < X -> 0 <= r < Y -> Q (cix i r) m -> safe D (cellidx h i r) m R W Q.
Proof.
  intros Hi Hr HQ. pose proof (cix_range X Y Hx i r Hi Hr) as Hc. unfold Hex.cix in *. unfold cellidx. ints.
  assert (0 <= r * X) by nia.
  apply safe_bind, safe_imul; [il|]. apply safe_iadd; [il|]. exact HQ.
Qed.

Lemma safe_cell_on_cell i r j m (R W : loc -> Prop) (Q : Z -> mem A -> Prop) :
  0 <= i < X -> 0 <= r < Y -> 0 <= j < 6 -> Q (nb (cix i r) j) m ->
  safe D (cell_on_cell h i r j) m R W Q.
Proof.
  intros Hi Hr Hj HQ. rewrite nb_cix in HQ by auto. ints. unfold cell_on_cell.
  assert (E0 : (if i =? 0 then isub X 1 else isub i 1) = @Ret A Z (mxc X i)).
  { unfold mxc, isub, chk, in_int, INT_MIN, INT_MAX. destruct (i =? 0);
    [destruct ((-2147483648 <=? X - 1) && (X - 1 <=? 2147483647)) eqn:E|
     destruct ((-2147483648 <=? i - 1) && (i - 1 <=? 2147483647)) eqn:E]; try reflexivity; lia. }
  assert (E1 : (if i =? X - 1 then Ret 0 else iadd i 1) = @Ret A Z (pxc X i)).
  { unfold pxc, iadd, chk, in_int, INT_MIN, INT_MAX. destruct (i =? X - 1); [reflexivity|].
    destruct ((-2147483648 <=? i + 1) && (i + 1 <=? 2147483647)) eqn:E; try reflexivity; lia. }
  assert (E2 : (if r =? 0 then isub Y 1 else isub r 1) = @Ret A Z (myr Y r)).
  { unfold myr, isub, chk, in_int, INT_MIN, INT_MAX. destruct (r =? 0);
    [destruct ((-2147483648 <=? Y - 1) && (Y - 1 <=? 2147483647)) eqn:E|
     destruct ((-2147483648 <=? r - 1) && (r - 1 <=? 2147483647)) eqn:E]; try reflexivity; lia. }
  assert (E3 : (if r =? Y - 1 then Ret 0 else iadd r 1) = @Ret A Z (pyr Y r)).
  { unfold pyr, iadd, chk, in_int, INT_MIN, INT_MAX. destruct (r =? Y - 1); [reflexivity|].
    destruct ((-2147483648 <=? r + 1) && (r + 1 <=? 2147483647)) eqn:E; try reflexivity; lia. }
  rewrite E0. apply safe_bind, safe_ret. apply safe_bind, safe_isub; [il|].
  rewrite E1. apply safe_bind, safe_ret. rewrite E2. apply safe_bind, safe_ret.
  apply safe_bind, safe_isub; [il|]. rewrite E3. apply safe_bind, safe_ret.
  assert (Ev : (Z.rem r 2 =? 0) = Z.even r).
  { rewrite Z.rem_mod_nonneg by lia. rewrite Zmod_even. destruct (Z.even r); reflexivity. }
  rewrite Ev. unfold ncol, nrow in HQ.
  pose proof (mxc_range X Hx i Hi). pose proof (pxc_range X Hx i Hi).
  pose proof (myr_range Y Hy r Hr). pose proof (pyr_range Y Hy r Hr).
  assert (Hjj : j = 0 \/ j = 1 \/ j = 2 \/ j = 3 \/ j = 4 \/ j = 5) by lia.
  destruct Hjj as [->|[->|[->|[->|[->| ->]]]]]; cbn [Z.eqb Pos.eqb orb] in *; destruct (Z.even r);
    apply safe_cellidx; auto.
Qed.

Lemma safe_edge_on_cell i r j m (R W : loc -> Prop) (Q : Z -> mem A -> Prop) :
  0 <= i < X -> 0 <= r < Y -> 0 <= j < 6 -> Q (hE (cix i r) j) m ->
  safe D (edge_on_cell h (cix i r) i r j) m R W Q.
Proof.
  intros Hi Hr Hj HQ. pose proof (cix_range X Y Hx i r Hi Hr) as Hc.
  pose proof (nb_range X Y Hx Hy _ j Hc) as Hn. unfold edge_on_cell, Hex.hE in *. ints.
  assert (Hjj : j = 0 \/ j = 1 \/ j = 2 \/ j = 3 \/ j = 4 \/ j = 5) by lia.
  destruct Hjj as [->|[->|[->|[->|[->| ->]]]]]; cbn [Z.eqb Pos.eqb orb Z.ltb Z.compare Pos.compare Pos.compare_cont] in *.
  - apply safe_imul; [il|]. now replace (3 * cix i r) with (3 * cix i r + 0) by lia.
  - apply safe_bind, safe_imul; [il|]. apply safe_iadd; [il|exact HQ].
  - apply safe_bind, safe_imul; [il|]. apply safe_iadd; [il|exact HQ].
  - apply safe_bind, safe_cell_on_cell; try lia. apply safe_imul; [il|].
    now replace (3 * nb (cix i r) 3) with (3 * nb (cix i r) 3 + (3 - 3)) by lia.
  - apply safe_bind, safe_cell_on_cell; try lia. apply safe_bind, safe_imul; [il|].
    apply safe_iadd; [il|exact HQ].
  - apply safe_bind, safe_cell_on_cell; try lia. apply safe_bind, safe_imul; [il|].
    apply safe_iadd; [il|exact HQ].
Qed.

Lemma safe_vertex_on_cell i r j m (R W : loc -> Prop) (Q : Z -> mem A -> Prop) :
  0 <= i < X -> 0 <= r < Y -> 0 <= j < 6 -> Q (hV (cix i r) j) m ->
  safe D (vertex_on_cell h (cix i r) i r j) m R W Q.
Proof.
  intros Hi Hr Hj HQ. pose proof (cix_range X Y Hx i r Hi Hr) as Hc.
  pose proof (nb_range X Y Hx Hy _ 2 Hc) as Hn2. pose proof (nb_range X Y Hx Hy _ 3 Hc) as Hn3.
  pose proof (nb_range X Y Hx Hy _ 4 Hc) as Hn4. unfold vertex_on_cell, Hex.hV in *. ints.
  assert (Hjj : j = 0 \/ j = 1 \/ j = 2 \/ j = 3 \/ j = 4 \/ j = 5) by lia.
  destruct Hjj as [->|[->|[->|[->|[->| ->]]]]]; cbn [Z.eqb Pos.eqb orb] in *.
  - apply safe_imul; [il|exact HQ].
  - apply safe_bind, safe_imul; [il|]. apply safe_iadd; [il|exact HQ].
  - apply safe_bind, safe_cell_on_cell; try lia. apply safe_imul; [il|exact HQ].
  - apply safe_bind, safe_cell_on_cell; try lia. apply safe_bind, safe_imul; [il|].
    apply safe_iadd; [il|exact HQ].
  - apply safe_bind, safe_cell_on_cell; try lia. apply safe_imul; [il|exact HQ].
  - apply safe_bind, safe_cell_on_cell; try lia. apply safe_bind, safe_imul; [il|].
    apply safe_iadd; [il|exact HQ].
Qed.

(** ** Connectivity *)
Definition tg1 (l : loc) : Z + F A :=
  match l with
  | LI NedgesOnCell _ => inl 6
  | LI CellsOnCell [c; j] => inl (nb c j)
  | LI EdgesOnCell [c; j] => inl (hE c j)
  | LI VerticesOnCell [c; j] => inl (hV c j)
  | LI CellsOnEdge [e; s] => inl (hcoe X Y e s)
  | LI VerticesOnEdge [e; s] => inl (hvoe X Y e s)
  | LI EdgesOnEdge [e; s] => inl (heoe X Y e s)
  | LI CellsOnVertex [v; s] => inl (hcov X Y v s)
  | LI EdgesOnVertex [v; s] => inl (heov X Y v s)
  | LR WeightsOnEdge [e; s] => inr (hw0 e s)
  | LI _ _ => inl 0
  | LR _ _ => inr (fofZ 0)
  end.

Definition ocell (l : loc) : option Z :=
  match l with
  | LI NedgesOnCell [c] => Some c
  | LI CellsOnCell [c; j] | LI EdgesOnCell [c; j] | LI VerticesOnCell [c; j] => Some c
  | LI CellsOnEdge [e; s] => Some (hcoe X Y e s)
  | LI VerticesOnEdge [e; s] => Some (e / 3)
  | LI EdgesOnEdge [e; s] | LR WeightsOnEdge [e; s] =>
      if s <? 5 then Some (ecell e) else if s <? 10 then Some (e / 3) else None
  | LI CellsOnVertex [v; s] => Some (hcov X Y v s)
  | LI EdgesOnVertex [v; s] =>
      if v mod 2 =? 0 then if s =? 0 then Some (v / 2) else Some (inb' (v / 2) 2)
      else if s =? 1 then Some (inb' (v / 2) 3) else Some (v / 2)
  | _ => None
  end.
Definition own1 (l : loc) : option tid :=
  if validb D l then
    match ocell l with Some c => Some [rowof c; colof c] | None => None end
  else None.

Lemma own1_some l c : validb D l = true -> ocell l = Some c -> own1 l = Some [rowof c; colof c].
Proof. intros H E. unfold own1. now rewrite H, E. Qed.
Lemma own1_inv l i r : 0 <= i < X -> own1 l = Some [r; i] -> validb D l = true /\ ocell l = Some (cix i r).
Proof.
  intros Hi. unfold own1. destruct (validb D l); [|discriminate]. destruct (ocell l) as [c|]; [|discriminate].
  intros E. injection E as <- <-. split; [reflexivity|]. f_equal. symmetry. apply cix_surj. exact Hx.
Qed.

Lemma hE_div c j : 0 <= j < 3 -> hE c j / 3 = c.
Proof. intros Hj. unfold Hex.hE. destruct (Z.ltb_spec j 3); [|lia]. apply div3; lia. Qed.
Lemma hE_mod c j : 0 <= j < 6 -> hE c j mod 3 = j mod 3.
Proof.
  intros Hj. unfold Hex.hE. destruct (Z.ltb_spec j 3).
  - rewrite mod3 by lia. symmetry; apply Z.mod_small; lia.
  - rewrite mod3 by lia. Z.to_euclidean_division_equations; lia.
Qed.

Ltac vld := cbn [validb iext rext dims_of d_ncells d_nedges d_nvertices d_nlayers d_nlayers_vec];
  rewrite ?inb1, ?inb2; auto with hex; try lia.

(** Facts used to resolve the reads of the connectivity kernels. *)
Definition cells_done (c : Z) (m : mem A) : Prop :=
  forall j, 0 <= j < 6 -> hit tg1 m (LI EdgesOnCell [c; j]) /\ hit tg1 m (LI VerticesOnCell [c; j]).
Lemma cells_done_keeps c m m' : cells_done c m -> keeps tg1 m m' -> cells_done c m'.
Proof. intros H K j Hj. destruct (H j Hj). auto. Qed.
Lemma cells_done_E c m j : cells_done c m -> 0 <= j < 6 -> mi m EdgesOnCell [c; j] = hE c j.
Proof. intros H Hj. destruct (H j Hj) as [E _]. unfold hit in E. cbn in E. congruence. Qed.
Lemma cells_done_V c m j : cells_done c m -> 0 <= j < 6 -> mi m VerticesOnCell [c; j] = hV c j.
Proof. intros H Hj. destruct (H j Hj) as [_ E]. unfold hit in E. cbn in E. congruence. Qed.

Lemma mesh_arrays_thread i r m : 0 <= i < X -> 0 <= r < Y ->
  safe D (compute_mesh_arrays_body h r i) m (Rd own1 [r; i]) (Wr own1 [r; i])
    (fun _ m' => forall l, own1 l = Some [r; i] -> hit tg1 m' l).
Proof.
  intros Hi Hr. pose proof (cix_range X Y Hx i r Hi Hr) as Hc.
  unfold compute_mesh_arrays_body.
  apply safe_bind, safe_cellidx; try assumption.
  remember (cix i r) as c eqn:Ec.
  assert (Hcol : colof c = i) by (subst c; now apply colof_cix).
  assert (Hrow : rowof c = r) by (subst c; now apply rowof_cix).
  assert (Hw : forall l, validb D l = true -> ocell l = Some c -> Wr own1 [r; i] l).
  { intros l Hv Ho. unfold Wr. rewrite (own1_some _ _ Hv Ho). now rewrite Hcol, Hrow. }
  assert (HwR : forall l, validb D l = true -> ocell l = Some c -> Rd own1 [r; i] l).
  { intros l Hv Ho. apply Wr_Rd. auto. }
  pose proof (fun j => nb_range X Y Hx Hy c j Hc) as Hnb.
  apply safe_bind. apply safe_sti_t with (tg := tg1); [vld|apply Hw; [vld|reflexivity]|reflexivity|].
  intros m1 K1 G1.
  (* the loop over the six neighbours *)
  apply safe_bind.
  apply safe_foru_t with (tg := tg1) (I := fun _ => True)
    (G := fun j l => l = LI CellsOnCell [c; j] \/ l = LI EdgesOnCell [c; j] \/ l = LI VerticesOnCell [c; j]).
  { lia. } { auto. } { exact I. }
  { intros j m2 Hj _. subst c.
    apply safe_bind, safe_cell_on_cell; try assumption.
    apply safe_bind. apply safe_sti_t with (tg := tg1); [vld|apply Hw; [vld|reflexivity]|reflexivity|].
    intros m3 K3 G3. apply safe_bind, safe_edge_on_cell; try assumption.
    apply safe_bind. apply safe_sti_t with (tg := tg1); [vld|apply Hw; [vld|reflexivity]|reflexivity|].
    intros m4 K4 G4. apply safe_bind, safe_vertex_on_cell; try assumption.
    apply safe_sti_t with (tg := tg1); [vld|apply Hw; [vld|reflexivity]|reflexivity|].
    intros m5 K5 G5. split.
    - eapply keeps_trans; [exact K3|]. eapply keeps_trans; [exact K4|exact K5].
    - intros l [->|[->| ->]]; auto. }
  intros m2 K2 G2. assert (Gn : hit tg1 m2 (LI NedgesOnCell [c])) by auto.
  assert (Gc : forall j, 0 <= j < 6 -> hit tg1 m2 (LI CellsOnCell [c; j])) by (intros j Hj; apply (G2 j); auto).
  assert (Ge : cells_done c m2).
  { intros j Hj. split; apply (G2 j); auto. }
  clear K1 G1 K2 G2 m m1.
  (* cells on edge *)
  apply safe_bind. apply safe_forL_t with (tg := tg1) (I := cells_done c) (lx := fun j => LI CellsOnEdge [hE c j; 1]).
  { intros; eapply cells_done_keeps; eauto. } { exact Ge. }
  { intros j m1 Hj H1. assert (Hj' : 0 <= j < 3) by (cbn in Hj; lia).
    apply safe_bind, safe_rdi; [vld|apply HwR; [vld|reflexivity]|]. rewrite (cells_done_E c m1 j) by (auto; lia).
    pose proof (hE_range X Y Hx Hy c j Hc ltac:(lia)).
    assert (Ho : hcoe X Y (hE c j) 1 = c) by (unfold Hex.hcoe; cbn [Z.eqb]; now apply hE_div).
    apply safe_sti_t with (tg := tg1); [vld|apply Hw; [vld|cbn [ocell]; now rewrite Ho]|cbn [tg1]; now rewrite Ho|].
    auto. }
  intros m3 K3 G3.
  apply safe_bind. apply safe_forL_t with (tg := tg1) (I := cells_done c) (lx := fun j => LI CellsOnEdge [hE c j; 0]).
  { intros; eapply cells_done_keeps; eauto. } { eapply cells_done_keeps; eauto. }
  { intros j m1 Hj H1. assert (Hj' : 3 <= j < 6) by (cbn in Hj; lia).
    apply safe_bind, safe_rdi; [vld|apply HwR; [vld|reflexivity]|]. rewrite (cells_done_E c m1 j) by (auto; lia).
    pose proof (hE_range X Y Hx Hy c j Hc ltac:(lia)).
    assert (Ho : hcoe X Y (hE c j) 0 = c) by (unfold Hex.hcoe; cbn [Z.eqb]; now apply ecell_hE).
    apply safe_sti_t with (tg := tg1); [vld|apply Hw; [vld|cbn [ocell]; now rewrite Ho]|cbn [tg1]; now rewrite Ho|].
    auto. }
  intros m4 K4 G4. assert (Ge4 : cells_done c m4) by (eapply cells_done_keeps; [eapply cells_done_keeps|]; eauto).
  (* vertices on edge *)
  apply safe_bind. apply safe_forL_t with (tg := tg1) (I := cells_done c)
    (lx := fun x => LI VerticesOnEdge [hE c (fst (fst x)); snd (fst x)]).
  { intros; eapply cells_done_keeps; eauto. } { exact Ge4. }
  { intros [[j s] j'] m1 Hj H1. cbn [fst snd].
    assert (Hj' : 0 <= j < 3 /\ 0 <= s < 2 /\ 0 <= j' < 6 /\ j' = if s =? 0 then j + 1 else j).
    { cbn in Hj. repeat (destruct Hj as [E|Hj]; [injection E as <- <- <-; cbn; lia|]). destruct Hj. }
    destruct Hj' as (Hj0 & Hs & Hj1 & Ej).
    apply safe_bind, safe_rdi; [vld|apply HwR; [vld|reflexivity]|]. rewrite (cells_done_V c m1 j') by (auto; lia).
    apply safe_bind, safe_rdi; [vld|apply HwR; [vld|reflexivity]|]. rewrite (cells_done_E c m1 j) by (auto; lia).
    pose proof (hE_range X Y Hx Hy c j Hc ltac:(lia)).
    apply safe_sti_t with (tg := tg1).
    - vld.
    - apply Hw; [vld|]. cbn [ocell]. now rewrite hE_div.
    - cbn [tg1]. unfold Hex.hvoe. rewrite hE_div, hE_mod, (Z.mod_small j 3) by lia. now rewrite Ej.
    - auto. }
  intros m5 K5 G5. assert (Ge5 : cells_done c m5) by (eapply cells_done_keeps; eauto).
  (* edges on edge *)
  apply safe_bind. apply safe_forL_t with (tg := tg1) (I := cells_done c)
    (lx := fun x => LI EdgesOnEdge [hE c (fst (fst x)); snd (fst x)]).
  { intros; eapply cells_done_keeps; eauto. } { exact Ge5. }
  { intros [[j s] j'] m1 Hj H1. cbn [fst snd].
    assert (Hj' : 0 <= j < 6 /\ 0 <= s < 10 /\ 0 <= j' < 6 /\ (s <? 5) = (3 <=? j) /\
                  j' = if s <? 5 then (j + 1 + s) mod 6 else (j + 1 + (s - 5)) mod 6).
    { cbn in Hj. repeat (destruct Hj as [E|Hj]; [injection E as <- <- <-; cbn; lia|]). destruct Hj. }
    destruct Hj' as (Hj0 & Hs & Hj1 & Esj & Ej).
    apply safe_bind, safe_rdi; [vld|apply HwR; [vld|reflexivity]|]. rewrite (cells_done_E c m1 j') by (auto; lia).
    apply safe_bind, safe_rdi; [vld|apply HwR; [vld|reflexivity]|]. rewrite (cells_done_E c m1 j) by (auto; lia).
    pose proof (hE_range X Y Hx Hy c j Hc ltac:(lia)).
    assert (Ho : (if s <? 5 then Some (ecell (hE c j)) else if s <? 10 then Some (hE c j / 3) else None) = Some c).
    { replace (s <? 10) with true by lia. destruct (Z.ltb_spec s 5).
      - rewrite ecell_hE; auto; lia.
      - rewrite hE_div; auto; lia. }
    apply safe_sti_t with (tg := tg1).
    - vld.
    - apply Hw; [vld|]. exact Ho.
    - cbn [tg1]. unfold Hex.heoe. rewrite hE_mod by lia. destruct (Z.ltb_spec s 5).
      + rewrite ecell_hE by (auto; lia). do 2 f_equal. rewrite Ej. f_equal.
        assert (j mod 3 = j - 3) by (Z.to_euclidean_division_equations; lia). lia.
      + replace (s <? 10) with true by lia. rewrite hE_div by lia. do 2 f_equal. rewrite Ej. f_equal.
        rewrite (Z.mod_small j 3) by lia. lia.
    - auto. }
  intros m6 K6 G6. assert (Ge6 : cells_done c m6) by (eapply cells_done_keeps; eauto).
  (* weights *)
  apply safe_bind. apply safe_forL_t with (tg := tg1) (I := cells_done c)
    (lx := fun x => LR WeightsOnEdge [hE c (fst (fst x)); snd (fst x)]).
  { intros; eapply cells_done_keeps; eauto. } { exact Ge6. }
  { intros [[j s] w] m1 Hj H1. cbn [fst snd].
    assert (Hj' : 0 <= j < 6 /\ 0 <= s < 10 /\ (s <? 5) = (3 <=? j) /\ forall e, e mod 3 = j mod 3 -> hw0 e s = w).
    { cbn in Hj. repeat (destruct Hj as [E|Hj]; [injection E as <- <- <-; repeat split; try lia;
        intros e He; unfold hw0; rewrite He; reflexivity|]). destruct Hj. }
    destruct Hj' as (Hj0 & Hs & Esj & Ej).
    apply safe_bind, safe_rdi; [vld|apply HwR; [vld|reflexivity]|]. rewrite (cells_done_E c m1 j) by (auto; lia).
    pose proof (hE_range X Y Hx Hy c j Hc ltac:(lia)).
    assert (Ho : (if s <? 5 then Some (ecell (hE c j)) else if s <? 10 then Some (hE c j / 3) else None) = Some c).
    { replace (s <? 10) with true by lia. destruct (Z.ltb_spec s 5).
      - rewrite ecell_hE; auto; lia.
      - rewrite hE_div; auto; lia. }
    apply safe_str_t with (tg := tg1).
    - vld.
    - apply Hw; [vld|]. exact Ho.
    - cbn [tg1]. rewrite Ej; [reflexivity|]. apply hE_mod; lia.
    - auto. }
  intros m7 K7 G7. assert (Ge7 : cells_done c m7) by (eapply cells_done_keeps; eauto).
  (* cells on vertex *)
  apply safe_bind. apply safe_forL_t with (tg := tg1) (I := cells_done c)
    (lx := fun x => LI CellsOnVertex [hV c (fst x); snd x]).
  { intros; eapply cells_done_keeps; eauto. } { exact Ge7. }
  { intros [j s] m1 Hj H1. cbn [fst snd].
    assert (Hj' : 0 <= j < 6 /\ 0 <= s < 3 /\ hcov X Y (hV c j) s = c).
    { cbn in Hj. repeat (destruct Hj as [E|Hj]; [injection E as <- <-; repeat split; try lia;
        unfold Hex.hcov, Hex.hV; cbn [Z.eqb Pos.eqb]; rewrite ?div2, ?mod2, ?div2', ?mod2' by lia;
        cbn [Z.eqb Pos.eqb]; try reflexivity; apply inb_nb; auto; lia|]). destruct Hj. }
    destruct Hj' as (Hj0 & Hs & Ho).
    apply safe_bind, safe_rdi; [vld|apply HwR; [vld|reflexivity]|]. rewrite (cells_done_V c m1 j) by (auto; lia).
    pose proof (hV_range X Y Hx Hy c j Hc).
    apply safe_sti_t with (tg := tg1); [vld|apply Hw; [vld|cbn [ocell]; now rewrite Ho]|cbn [tg1]; now rewrite Ho|].
    auto. }
  intros m8 K8 G8. assert (Ge8 : cells_done c m8) by (eapply cells_done_keeps; eauto).
  (* edges on vertex *)
  apply safe_forL_t with (tg := tg1) (I := cells_done c)
    (lx := fun x => LI EdgesOnVertex [hV c (fst (fst x)); snd (fst x)]).
  { intros; eapply cells_done_keeps; eauto. } { exact Ge8. }
  { intros [[j s] j'] m1 Hj H1. cbn [fst snd].
    assert (Hj' : 0 <= j < 6 /\ 0 <= s < 3 /\ 0 <= j' < 3 /\ ocell (LI EdgesOnVertex [hV c j; s]) = Some c /\
                  heov X Y (hV c j) s = hE c j').
    { cbn in Hj. repeat (destruct Hj as [E|Hj]; [injection E as <- <- <-; repeat split; try lia;
        cbn [ocell]; unfold Hex.heov, Hex.hV, Hex.hE;
        cbn [Z.eqb Pos.eqb Z.ltb Z.compare Pos.compare Pos.compare_cont];
        rewrite ?div2, ?mod2, ?div2', ?mod2' by lia; cbn [Z.eqb Pos.eqb];
        rewrite ?inb_nb by (auto; lia); try reflexivity; try lia|]). destruct Hj. }
    destruct Hj' as (Hj0 & Hs & Hj1 & Ho & Et).
    apply safe_bind, safe_rdi; [vld|apply HwR; [vld|reflexivity]|]. rewrite (cells_done_E c m1 j') by (auto; lia).
    apply safe_bind, safe_rdi; [vld|apply HwR; [vld|reflexivity]|]. rewrite (cells_done_V c m1 j) by (auto; lia).
    pose proof (hV_range X Y Hx Hy c j Hc).
    apply safe_sti_t with (tg := tg1); [vld|apply Hw; [vld|exact Ho]|cbn [tg1]; now rewrite Et|].
    auto. }
  intros m9 K9 G9.
  (* coverage *)
  assert (K89 : keeps tg1 m8 m9) by exact K9.
  assert (K79 : keeps tg1 m7 m9) by (eapply keeps_trans; eauto).
  assert (K69 : keeps tg1 m6 m9) by (eapply keeps_trans; eauto).
  assert (K59 : keeps tg1 m5 m9) by (eapply keeps_trans; eauto).
  assert (K49 : keeps tg1 m4 m9) by (eapply keeps_trans; eauto).
  assert (K39 : keeps tg1 m3 m9) by (eapply keeps_trans; eauto).
  assert (K29 : keeps tg1 m2 m9) by (eapply keeps_trans; eauto).
  intros l Hl. apply own1_inv in Hl; [|exact Hi]. rewrite <- Ec in Hl. destruct Hl as [Hv Ho].
  destruct l as [a ix|a ix]; destruct a; cbn [ocell] in Ho; try discriminate.
  all: destruct ix as [|x [|s [|? ?]]]; try discriminate.
  all: cbn [validb iext rext dims_of d_ncells d_nedges d_nvertices] in Hv; rewrite ?inb1, ?inb2 in Hv.
  - injection Ho as ->. auto.
  - injection Ho as ->. apply K29. apply Ge; lia.
  - injection Ho as ->. apply K29. apply Gc; lia.
  - injection Ho as ->. apply K29. apply Ge; lia.
  - (* EdgesOnEdge *)
    destruct (Z.ltb_spec s 5).
    + injection Ho as Ho. rewrite <- (hE_ecell X Y Hx x) by lia. rewrite Ho.
      pose proof (Z.mod_pos_bound x 3 ltac:(lia)).
      apply K69. apply (G6 (3 + x mod 3, s, (3 + x mod 3 + 1 + s) mod 6)).
      assert (Hm : x mod 3 = 0 \/ x mod 3 = 1 \/ x mod 3 = 2) by lia.
      assert (Hs : s = 0 \/ s = 1 \/ s = 2 \/ s = 3 \/ s = 4) by lia.
      destruct Hm as [->|[->| ->]], Hs as [->|[->|[->|[->| ->]]]]; cbn; tauto.
    + destruct (Z.ltb_spec s 10); [|discriminate]. injection Ho as Ho. rewrite <- (hE_low X Y x). rewrite Ho.
      pose proof (Z.mod_pos_bound x 3 ltac:(lia)).
      apply K69. apply (G6 (x mod 3, s, (x mod 3 + 1 + (s - 5)) mod 6)).
      assert (Hm : x mod 3 = 0 \/ x mod 3 = 1 \/ x mod 3 = 2) by lia.
      assert (Hs : s = 5 \/ s = 6 \/ s = 7 \/ s = 8 \/ s = 9) by lia.
      destruct Hm as [->|[->| ->]], Hs as [->|[->|[->|[->| ->]]]]; cbn; tauto.
  - (* CellsOnEdge *)
    injection Ho as Ho. pose proof (Z.mod_pos_bound x 3 ltac:(lia)).
    assert (Hs : s = 0 \/ s = 1) by lia. unfold Hex.hcoe in Ho. destruct Hs as [->| ->]; cbn [Z.eqb] in Ho.
    + rewrite <- (hE_ecell X Y Hx x) by lia. rewrite Ho. apply K49. apply (G4 (3 + x mod 3)). cbn [In]. lia.
    + rewrite <- (hE_low X Y x). rewrite Ho. apply K39. apply (G3 (x mod 3)). cbn [In]. lia.
  - (* VerticesOnEdge *)
    injection Ho as Ho. pose proof (Z.mod_pos_bound x 3 ltac:(lia)).
    rewrite <- (hE_low X Y x). rewrite Ho. apply K59.
    apply (G5 (x mod 3, s, if s =? 0 then x mod 3 + 1 else x mod 3)).
    assert (Hm : x mod 3 = 0 \/ x mod 3 = 1 \/ x mod 3 = 2) by lia.
    assert (Hs : s = 0 \/ s = 1) by lia.
    destruct Hm as [->|[->| ->]], Hs as [->| ->]; cbn; tauto.
  - (* EdgesOnVertex *)
    pose proof (Z.mod_pos_bound x 2 ltac:(lia)). pose proof (Z.div_mod x 2 ltac:(lia)) as Ex.
    assert (Hd : 0 <= x / 2 < X * Y) by (apply vdiv_range; lia).
    assert (Hs : s = 0 \/ s = 1 \/ s = 2) by lia.
    destruct (Z.eqb_spec (x mod 2) 0) as [E0|E0].
    + rewrite E0, Z.add_0_r in Ex.
      destruct Hs as [->|[->| ->]]; cbn [Z.eqb] in Ho; injection Ho as Ho.
      * replace x with (hV c 0) by (unfold Hex.hV; cbn [Z.eqb Pos.eqb]; lia). apply (G9 (0, 0, 0)). cbn; tauto.
      * replace x with (hV c 2) by (unfold Hex.hV; cbn [Z.eqb Pos.eqb]; rewrite <- Ho, nb_inb; auto; lia).
        apply (G9 (2, 1, 2)). cbn; tauto.
      * replace x with (hV c 2) by (unfold Hex.hV; cbn [Z.eqb Pos.eqb]; rewrite <- Ho, nb_inb; auto; lia).
        apply (G9 (2, 2, 1)). cbn; tauto.
    + assert (E1 : x mod 2 = 1) by lia. rewrite E1 in Ex.
      destruct Hs as [->|[->| ->]]; cbn [Z.eqb Pos.eqb] in Ho; injection Ho as Ho.
      * replace x with (hV c 1) by (unfold Hex.hV; cbn [Z.eqb Pos.eqb]; lia). apply (G9 (1, 0, 0)). cbn; tauto.
      * replace x with (hV c 3) by (unfold Hex.hV; cbn [Z.eqb Pos.eqb]; rewrite <- Ho, nb_inb; auto; lia).
        apply (G9 (3, 1, 2)). cbn; tauto.
      * replace x with (hV c 1) by (unfold Hex.hV; cbn [Z.eqb Pos.eqb]; lia). apply (G9 (1, 2, 1)). cbn; tauto.
  - (* CellsOnVertex *)
    pose proof (Z.mod_pos_bound x 2 ltac:(lia)). pose proof (Z.div_mod x 2 ltac:(lia)) as Ex.
    assert (Hd : 0 <= x / 2 < X * Y) by (apply vdiv_range; lia).
    assert (Hs : s = 0 \/ s = 1 \/ s = 2) by lia. unfold Hex.hcov in Ho. cbn zeta in Ho.
    destruct (Z.eqb_spec (x mod 2) 0) as [E0|E0].
    + rewrite E0, Z.add_0_r in Ex.
      destruct Hs as [->|[->| ->]]; cbn [Z.eqb Pos.eqb] in Ho; injection Ho as Ho; apply K89.
      * replace x with (hV c 0) by (unfold Hex.hV; cbn [Z.eqb Pos.eqb]; lia). apply (G8 (0, 0)). cbn; tauto.
      * replace x with (hV c 2) by (unfold Hex.hV; cbn [Z.eqb Pos.eqb]; rewrite <- Ho, nb_inb; auto; lia).
        apply (G8 (2, 1)). cbn; tauto.
      * replace x with (hV c 4) by (unfold Hex.hV; cbn [Z.eqb Pos.eqb]; rewrite <- Ho, nb_inb; auto; lia).
        apply (G8 (4, 2)). cbn; tauto.
    + assert (E1 : x mod 2 = 1) by lia. rewrite E1 in Ex.
      destruct Hs as [->|[->| ->]]; cbn [Z.eqb Pos.eqb] in Ho; injection Ho as Ho; apply K89.
      * replace x with (hV c 3) by (unfold Hex.hV; cbn [Z.eqb Pos.eqb]; rewrite <- Ho, nb_inb; auto; lia).
        apply (G8 (3, 0)). cbn; tauto.
      * replace x with (hV c 5) by (unfold Hex.hV; cbn [Z.eqb Pos.eqb]; rewrite <- Ho, nb_inb; auto; lia).
        apply (G8 (5, 1)). cbn; tauto.
      * replace x with (hV c 1) by (unfold Hex.hV; cbn [Z.eqb Pos.eqb]; lia). apply (G8 (1, 2)). cbn; tauto.
  - (* WeightsOnEdge *)
    destruct (Z.ltb_spec s 5).
    + injection Ho as Ho. rewrite <- (hE_ecell X Y Hx x) by lia. rewrite Ho.
      pose proof (Z.mod_pos_bound x 3 ltac:(lia)).
      assert (Hm : x mod 3 = 0 \/ x mod 3 = 1 \/ x mod 3 = 2) by lia.
      assert (Hs : s = 0 \/ s = 1 \/ s = 2 \/ s = 3 \/ s = 4) by lia.
      apply K79. apply (G7 (3 + x mod 3, s, hw0 (x mod 3) s)).
      destruct Hm as [->|[->| ->]], Hs as [->|[->|[->|[->| ->]]]]; cbn; tauto.
    + destruct (Z.ltb_spec s 10); [|discriminate]. injection Ho as Ho. rewrite <- (hE_low X Y x). rewrite Ho.
      pose proof (Z.mod_pos_bound x 3 ltac:(lia)).
      assert (Hm : x mod 3 = 0 \/ x mod 3 = 1 \/ x mod 3 = 2) by lia.
      assert (Hs : s = 5 \/ s = 6 \/ s = 7 \/ s = 8 \/ s = 9) by lia.
      apply K79. apply (G7 (x mod 3, s, hw0 (x mod 3) s)).
      destruct Hm as [->|[->| ->]], Hs as [->|[->|[->|[->| ->]]]]; cbn; tauto.
Qed.
End MeshProof.
