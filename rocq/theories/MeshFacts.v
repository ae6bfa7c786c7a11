(** Consequences for the memory built by the mesh constructor: connectivity (any arithmetic). *)
From Coq Require Import ZArith List Bool Lia ZifyBool.
From Verif Require Import Arith Arrays Prog Conc Mesh Hex HexComb Launch MeshProof MeshMem.
Import ListNotations.
Open Scope Z_scope.

Section Facts.
Context {A : Arith} (cf : config) (h : hexargs A) (ntr : Z).
Local Notation D := (dims_of cf h ntr).
Local Notation X := (nx h).
Local Notation Y := (ny h).
Local Notation NC := (nx h * ny h).

Lemma ctor_always (P : mem A -> Prop) :
  mesh_ok cf h -> (forall m, hexmem h (d_nlayers D) m -> P m) ->
  always D (mesh_ctor cf h) (mzero A) P.
Proof.
  intros Hok HP. pose proof (mesh_ctor_hsafe cf h ntr Hok (mzero A) (meq_refl _)) as H.
  apply hsafe_always in H. destruct H as [H1 H2]. split; [|exact H2].
  intros o Ho. destruct (H1 o Ho) as (m & E & Hm & _). exists m. auto.
Qed.

Lemma ctor_safe_det : mesh_ok cf h ->
  always D (mesh_ctor cf h) (mzero A) (fun _ => True) /\ deterministic D (mesh_ctor cf h) (mzero A).
Proof.
  intros Hok. split; [now apply ctor_always|].
  eapply hsafe_deterministic, mesh_ctor_hsafe; [exact Hok|apply meq_refl].
Qed.

(** ** C02 *)
Lemma ctor_overflow : 1 <= X -> 1 <= Y ->
  0 <= zceil (nlayers h) (vector_length cf) ->
  INT_MAX < 3 * (X * Y) -> exec D (mesh_ctor cf h) (mzero A) UB.
Proof.
  intros Hx Hy Hz Ho. apply ex_ub. apply lx_bad. left. eexists _, _. split; [left; reflexivity|].
  unfold bind, chk, imul, chk.
  destruct (in_int (zceil (nlayers h) (vector_length cf) * vector_length cf)) eqn:E1; [|reflexivity]. cbn [bind].
  destruct (in_int (zceil (nlayers h) (vector_length cf))) eqn:E2; [|reflexivity]. cbn [bind].
  destruct (in_int (X * Y)) eqn:E3; [|reflexivity]. cbn [bind].
  destruct (in_int (3 * (X * Y))) eqn:E4; [|reflexivity].
  exfalso. unfold in_int, INT_MAX in *. lia.
Qed.
Lemma ctor_limits_iff : 1 <= X -> 1 <= Y -> 1 <= lanes cf -> 0 <= nlayers h ->
  zceil (nlayers h) (vector_length cf) * vector_length cf <= INT_MAX ->
  ((forall o, exec D (mesh_ctor cf h) (mzero A) o -> o <> UB) <-> 3 * (X * Y) <= INT_MAX).
Proof.
  intros Hx Hy Hl Hn Hz. split.
  - intros H. destruct (Z.leb_spec (3 * (X * Y)) INT_MAX) as [L|L]; [exact L|]. exfalso.
    apply (H UB); [|reflexivity]. apply ctor_overflow; auto. apply zceil_nonneg; [exact Hn|].
    unfold vector_length. destruct (no_simd cf); lia.
  - intros L o Ho ->. assert (Hok : mesh_ok cf h) by (repeat split; auto).
    destruct (ctor_safe_det Hok) as [[H1 _] _]. destruct (H1 _ Ho) as (m & E & _). discriminate.
Qed.

(** ** Connectivity *)
Section OnMem.
Context (Hok : mesh_ok cf h) (m : mem A) (Hm : hexmem h (d_nlayers D) m).
Let Hx := Hx cf h Hok.
Let Hy := Hy cf h Hok.

Ltac rng := first [assumption | lia | (apply nb_range; auto; lia) | (apply hE_range; auto; lia) | (apply hV_range; auto; lia)
   | (apply hcoe_range; auto; lia) | (apply hvoe_range; auto; lia) | (apply heov_range; auto; lia) | (apply hcov_range; auto; lia)].

Lemma edge_exactly_two e : 0 <= e < 3 * NC -> exists j1 j0, 0 <= j1 < 3 /\ 3 <= j0 < 6 /\
  forall c j, 0 <= c < NC -> 0 <= j < 6 ->
    (mi m EdgesOnCell [c; j] = e <->
     (c = mi m CellsOnEdge [e; 1] /\ j = j1) \/ (c = mi m CellsOnEdge [e; 0] /\ j = j0)).
Proof.
  intros He. exists (e mod 3), (3 + e mod 3). pose proof (Z.mod_pos_bound e 3 ltac:(lia)).
  split; [lia|]. split; [lia|]. intros c j Hc Hj.
  rewrite (hm_eoc _ _ _ Hm), !(hm_coe _ _ _ Hm) by lia. apply (edge_two_sides X Y Hx); auto.
Qed.
Lemma cell_edges_valid c j : 0 <= c < NC -> 0 <= j < 6 ->
  0 <= mi m EdgesOnCell [c; j] < 3 * NC /\
  mi m CellsOnEdge [mi m EdgesOnCell [c; j]; if j <? 3 then 1 else 0] = c.
Proof.
  intros Hc Hj. rewrite (hm_eoc _ _ _ Hm) by lia. split; [rng|].
  rewrite (hm_coe _ _ _ Hm); [apply (hcoe_hE X Y Hx); auto|rng|destruct (j <? 3); lia].
Qed.
Lemma edge_cells_valid e s : 0 <= e < 3 * NC -> 0 <= s < 2 -> 0 <= mi m CellsOnEdge [e; s] < NC.
Proof. intros He Hs. rewrite (hm_coe _ _ _ Hm) by lia. rng. Qed.

Lemma sign_closed c j : 2 <= X -> 2 <= Y -> 0 <= c < NC -> 0 <= j < 6 ->
  mr m EdgeSignOnCell [c; j] = fofZ (if j <? 3 then -1 else 1).
Proof.
  intros H1 H2 Hc Hj. rewrite (hm_esc _ _ _ Hm) by lia. unfold hesc. rewrite coe0_hE by auto.
  destruct (Z.ltb_spec j 3), (Z.leb_spec 3 j); try lia; reflexivity.
Qed.
Lemma sign_degenerate_x c : X = 1 -> 0 <= c < NC ->
  mi m EdgesOnCell [c; 3] = mi m EdgesOnCell [c; 0] /\
  mr m EdgeSignOnCell [c; 0] = fofZ 1 /\ mr m EdgeSignOnCell [c; 3] = fofZ 1.
Proof.
  intros H1 Hc. rewrite !(hm_esc _ _ _ Hm), !(hm_eoc _ _ _ Hm) by lia. unfold hesc.
  destruct (coe0_nx1 X Y Hx c H1 Hc) as [E1 E2]. rewrite E1, E2, Z.eqb_refl. auto.
Qed.
Lemma sign_degenerate_y c : Y = 1 -> 0 <= c < NC ->
  mi m EdgesOnCell [c; 4] = mi m EdgesOnCell [c; 1] /\
  mr m EdgeSignOnCell [c; 1] = fofZ 1 /\ mr m EdgeSignOnCell [c; 4] = fofZ 1.
Proof.
  intros H1 Hc. rewrite !(hm_esc _ _ _ Hm), !(hm_eoc _ _ _ Hm) by lia. unfold hesc.
  destruct (coe0_ny1 X Y Hx Hy c H1 Hc) as [E1 E2]. rewrite E1, E2, Z.eqb_refl. auto.
Qed.

Lemma vertex_slots_distinct v s s' : 0 <= v < 2 * NC -> 0 <= s < 3 -> 0 <= s' < 3 -> s <> s' ->
  mi m EdgesOnVertex [v; s] <> mi m EdgesOnVertex [v; s'] /\
  (2 <= X -> 2 <= Y -> mi m CellsOnVertex [v; s] <> mi m CellsOnVertex [v; s']).
Proof.
  intros Hv Hs Hs' N. rewrite !(hm_eov _ _ _ Hm), !(hm_cov _ _ _ Hm) by lia. split.
  - intros E. apply N. eapply heov_inj; eauto.
  - intros H1 H2 E. apply N. eapply (hcov_inj X Y Hx); eauto.
Qed.
Lemma vertex_edge_end v s : 0 <= v < 2 * NC -> 0 <= s < 3 ->
  let e := mi m EdgesOnVertex [v; s] in
  0 <= e < 3 * NC /\
  (mi m VerticesOnEdge [e; 0] = v /\ mr m EdgeSignOnVertex [v; s] = fofZ (-1) \/
   mi m VerticesOnEdge [e; 1] = v /\ mr m EdgeSignOnVertex [v; s] = fofZ 1).
Proof.
  intros Hv Hs. cbn zeta. rewrite (hm_eov _ _ _ Hm), (hm_esv _ _ _ Hm) by lia.
  pose proof (heov_range X Y Hx Hy v s Hv) as He. split; [exact He|].
  rewrite !(hm_voe _ _ _ Hm) by lia. unfold hesv. rewrite (hesv_closed X Y Hx Hy) by lia.
  pose proof (hvoe_heov X Y Hx v s Hv Hs) as E.
  assert (eend v s = 0 \/ eend v s = 1) as [E1|E1] by (unfold eend; destruct (if v mod 2 =? 0 then _ else _); auto);
    rewrite E1 in E |- *; cbn [Z.eqb Pos.eqb]; auto.
Qed.
Lemma edge_ends e : 0 <= e < 3 * NC -> mi m VerticesOnEdge [e; 0] <> mi m VerticesOnEdge [e; 1].
Proof. intros He. rewrite !(hm_voe _ _ _ Hm) by lia. apply hvoe_ne; auto. Qed.
Lemma edge_end_once e s : 0 <= e < 3 * NC -> 0 <= s < 2 ->
  let v := mi m VerticesOnEdge [e; s] in
  0 <= v < 2 * NC /\
  exists s0, 0 <= s0 < 3 /\ forall s', 0 <= s' < 3 -> (mi m EdgesOnVertex [v; s'] = e <-> s' = s0).
Proof.
  intros He Hs. cbn zeta. rewrite (hm_voe _ _ _ Hm) by lia.
  pose proof (hvoe_range X Y Hx Hy e s He) as Hv. split; [exact Hv|].
  assert (Hs0 : 0 <= vslot e s < 3) by (unfold vslot; destruct (e mod 3 =? 0), (e mod 3 =? 1); lia).
  exists (vslot e s). split; [exact Hs0|]. intros s' Hs'. rewrite (hm_eov _ _ _ Hm) by lia.
  pose proof (heov_hvoe X Y Hx e s He Hs) as E. split; [|intros ->; exact E].
  intros E'. apply (heov_inj X Y (hvoe X Y e s)); [lia|lia|congruence].
Qed.
Lemma vertex_cell_corner v s : 0 <= v < 2 * NC -> 0 <= s < 3 ->
  let c := mi m CellsOnVertex [v; s] in
  0 <= c < NC /\ exists j, 0 <= j < 6 /\ mi m VerticesOnCell [c; j] = v.
Proof.
  intros Hv Hs. cbn zeta. rewrite (hm_cov _ _ _ Hm) by lia.
  pose proof (hcov_range X Y Hx Hy v s Hv) as Hc. split; [exact Hc|].
  assert (Hj : 0 <= vcorner v s < 6).
  { unfold vcorner. destruct (v mod 2 =? 0), (s =? 0), (s =? 1); lia. }
  exists (vcorner v s). split; [exact Hj|]. rewrite (hm_voc _ _ _ Hm) by lia.
  apply (hV_hcov X Y Hx); auto.
Qed.

Lemma kite_inverse c j : 2 <= X -> 2 <= Y -> 0 <= c < NC -> 0 <= j < 6 ->
  let v := mi m VerticesOnCell [c; j] in
  0 <= v < 2 * NC /\ 0 <= mi m KiteIndexOnCell [c; j] < 3 /\
  forall s, 0 <= s < 3 -> (mi m CellsOnVertex [v; s] = c <-> s = mi m KiteIndexOnCell [c; j]).
Proof.
  intros H1 H2 Hc Hj. cbn zeta. rewrite (hm_voc _ _ _ Hm), (hm_ki _ _ _ Hm) by lia.
  pose proof (hV_range X Y Hx Hy c j Hc) as Hv. split; [exact Hv|].
  assert (Hki : hki h c j = cslot j).
  { pose proof (hcov_hV X Y Hx c j Hc Hj) as E. unfold hki. cbn zeta.
    assert (Hs : 0 <= cslot j < 3)
      by (unfold cslot; destruct (j =? 0), (j =? 1), (j =? 2), (j =? 3), (j =? 4); lia).
    destruct (Z.eqb_spec (hcov X Y (hV X Y c j) 2) c) as [E2|N2].
    - apply (hcov_inj X Y Hx (hV X Y c j)); [lia|lia|lia|lia|lia|congruence].
    - destruct (Z.eqb_spec (hcov X Y (hV X Y c j) 1) c) as [E1|N1].
      + apply (hcov_inj X Y Hx (hV X Y c j)); [lia|lia|lia|lia|lia|congruence].
      + assert (cslot j <> 2) by (intros E2; apply N2; now rewrite <- E2).
        assert (cslot j <> 1) by (intros E1; apply N1; now rewrite <- E1). lia. }
  rewrite Hki.
  assert (Hs0 : 0 <= cslot j < 3)
    by (unfold cslot; destruct (j =? 0), (j =? 1), (j =? 2), (j =? 3), (j =? 4); lia).
  split; [exact Hs0|]. intros s Hs. rewrite (hm_cov _ _ _ Hm) by lia.
  pose proof (hcov_hV X Y Hx c j Hc Hj) as E. split; [|intros ->; exact E].
  intros E'. apply (hcov_inj X Y Hx (hV X Y c j)); [lia|lia|lia|lia|lia|congruence].
Qed.

Lemma adjacency_reciprocal_iff : 2 <= X ->
  ((forall c j, 0 <= c < NC -> 0 <= j < 6 ->
      mi m CellsOnCell [mi m CellsOnCell [c; j]; (j + 3) mod 6] = c) <-> Z.even Y = true).
Proof.
  intros H1. rewrite <- (reciprocal_iff X Y Hx Hy H1).
  assert (E : forall c j, 0 <= c < NC -> 0 <= j < 6 ->
    mi m CellsOnCell [mi m CellsOnCell [c; j]; (j + 3) mod 6] = nb X Y (nb X Y c j) ((j + 3) mod 6)).
  { intros c j Hc Hj. rewrite (hm_coc _ _ _ Hm c j) by lia.
    rewrite (hm_coc _ _ _ Hm); [reflexivity|rng|apply Z.mod_pos_bound; lia]. }
  split; intros H c j Hc Hj; specialize (H c j Hc Hj); rewrite ?E in * by auto; auto.
Qed.
End OnMem.
End Facts.
