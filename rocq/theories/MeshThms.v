(** Lemmas with the exact statements of PropsMesh.v. *)
From Coq Require Import ZArith Reals List Bool Lia Lra.
From Verif Require Import Arith Arrays Prog Conc Mesh RSum Spec Hex HexComb Launch MeshProof MeshMem MeshFacts MeshR MeshCalc.
Import ListNotations.
Open Scope Z_scope.

Lemma C01_constructor_safe_and_deterministic_proof :
  forall (A : Arith) (cf : config) (h : hexargs A), mesh_ok cf h ->
  always (dims_of cf h 0) (mesh_ctor cf h) (mzero A) (fun _ => True) /\
  deterministic (dims_of cf h 0) (mesh_ctor cf h) (mzero A).
Proof.
  intros A cf h Hok. now apply ctor_safe_det.
Qed.

Lemma C02_int_limits_proof :
  forall (A : Arith) (cf : config) (h : hexargs A),
  1 <= nx h -> 1 <= ny h -> 1 <= lanes cf -> 0 <= nlayers h ->
  zceil (nlayers h) (vector_length cf) * vector_length cf <= INT_MAX ->
  let D := dims_of cf h 0 in
  d_ncells D = nx h * ny h /\ d_nedges D = 3 * nx h * ny h /\ d_nvertices D = 2 * nx h * ny h /\
  ((forall o, exec D (mesh_ctor cf h) (mzero A) o -> o <> UB) <-> 3 * nx h * ny h <= 2 ^ 31 - 1) /\
  (2 ^ 31 - 1 < 3 * nx h * ny h -> exec D (mesh_ctor cf h) (mzero A) UB).
Proof.
  intros A cf h H1 H2 H3 H4 H5. cbn zeta. cbn [dims_of d_ncells d_nedges d_nvertices].
  split; [reflexivity|]. split; [lia|]. split; [lia|].
  replace (3 * nx h * ny h) with (3 * (nx h * ny h)) by lia. change (2 ^ 31 - 1) with INT_MAX. split.
  - now apply ctor_limits_iff.
  - intros Ho. apply ctor_overflow; auto. apply zceil_nonneg; [lia|]. unfold vector_length. destruct (no_simd cf); lia.
Qed.

Lemma C03_edge_shared_by_two_sides_proof :
  forall (A : Arith) (cf : config) (h : hexargs A), mesh_ok cf h ->
  always (dims_of cf h 0) (mesh_ctor cf h) (mzero A) (fun m =>
    (forall e, 0 <= e < 3 * (nx h * ny h) ->
       let c0 := mi m CellsOnEdge [e; 0] in let c1 := mi m CellsOnEdge [e; 1] in
       0 <= c0 < nx h * ny h /\ 0 <= c1 < nx h * ny h /\
       exists j1 j0, 0 <= j1 < 3 /\ 3 <= j0 < 6 /\
         forall c j, 0 <= c < nx h * ny h -> 0 <= j < 6 ->
           (mi m EdgesOnCell [c; j] = e <-> (c = c1 /\ j = j1) \/ (c = c0 /\ j = j0))) /\
    (forall c j, 0 <= c < nx h * ny h -> 0 <= j < 6 ->
       mi m NedgesOnCell [c] = 6 /\ 0 <= mi m EdgesOnCell [c; j] < 3 * (nx h * ny h) /\
       mi m CellsOnEdge [mi m EdgesOnCell [c; j]; if j <? 3 then 1 else 0] = c)).
Proof.
  intros A cf h Hok. apply ctor_always; [exact Hok|]. intros m Hm.
  split.
  - intros e He. cbn zeta. split; [|split]; [eapply edge_cells_valid; eauto; lia|eapply edge_cells_valid; eauto; lia|].
    destruct (edge_exactly_two cf h 0 Hok m Hm e He) as (j1 & j0 & H1 & H0 & H). exists j1, j0. auto.
  - intros c j Hc Hj. split; [now apply (hm_noc _ _ _ Hm)|]. now apply (cell_edges_valid cf h 0 Hok m Hm).
Qed.

Lemma C04_edge_signs_proof :
  forall (A : Arith) (cf : config) (h : hexargs A), mesh_ok cf h ->
  always (dims_of cf h 0) (mesh_ctor cf h) (mzero A) (fun m =>
    (2 <= nx h -> 2 <= ny h -> forall c j, 0 <= c < nx h * ny h -> 0 <= j < 6 ->
       mr m EdgeSignOnCell [c; j] = fofZ (if j <? 3 then -1 else 1)) /\
    (nx h = 1 -> forall c, 0 <= c < nx h * ny h ->
       mi m EdgesOnCell [c; 3] = mi m EdgesOnCell [c; 0] /\
       mr m EdgeSignOnCell [c; 0] = fofZ 1 /\ mr m EdgeSignOnCell [c; 3] = fofZ 1) /\
    (ny h = 1 -> forall c, 0 <= c < nx h * ny h ->
       mi m EdgesOnCell [c; 4] = mi m EdgesOnCell [c; 1] /\
       mr m EdgeSignOnCell [c; 1] = fofZ 1 /\ mr m EdgeSignOnCell [c; 4] = fofZ 1)).
Proof.
  intros A cf h Hok. apply ctor_always; [exact Hok|]. intros m Hm.
  split; [|split]; intros.
  - eapply sign_closed; eauto.
  - eapply sign_degenerate_x; eauto.
  - eapply sign_degenerate_y; eauto.
Qed.

Lemma C05_vertex_incidence_proof :
  forall (A : Arith) (cf : config) (h : hexargs A), mesh_ok cf h ->
  always (dims_of cf h 0) (mesh_ctor cf h) (mzero A) (fun m =>
    (forall v s, 0 <= v < 2 * (nx h * ny h) -> 0 <= s < 3 ->
       (let e := mi m EdgesOnVertex [v; s] in
        0 <= e < 3 * (nx h * ny h) /\
        (mi m VerticesOnEdge [e; 0] = v /\ mr m EdgeSignOnVertex [v; s] = fofZ (-1) \/
         mi m VerticesOnEdge [e; 1] = v /\ mr m EdgeSignOnVertex [v; s] = fofZ 1)) /\
       (let c := mi m CellsOnVertex [v; s] in
        0 <= c < nx h * ny h /\ exists j, 0 <= j < 6 /\ mi m VerticesOnCell [c; j] = v) /\
       forall s', 0 <= s' < 3 -> s <> s' ->
         mi m EdgesOnVertex [v; s] <> mi m EdgesOnVertex [v; s'] /\
         (2 <= nx h -> 2 <= ny h -> mi m CellsOnVertex [v; s] <> mi m CellsOnVertex [v; s'])) /\
    (forall e, 0 <= e < 3 * (nx h * ny h) ->
       mi m VerticesOnEdge [e; 0] <> mi m VerticesOnEdge [e; 1] /\
       forall s, 0 <= s < 2 ->
         let v := mi m VerticesOnEdge [e; s] in
         0 <= v < 2 * (nx h * ny h) /\
         exists s0, 0 <= s0 < 3 /\ forall s', 0 <= s' < 3 -> (mi m EdgesOnVertex [v; s'] = e <-> s' = s0))).
Proof.
  intros A cf h Hok. apply ctor_always; [exact Hok|]. intros m Hm.
  split.
  - intros v s Hv Hs. split; [eapply vertex_edge_end; eauto|]. split; [eapply vertex_cell_corner; eauto|].
    intros s' Hs' N. eapply vertex_slots_distinct; eauto.
  - intros e He. split; [eapply edge_ends; eauto|]. intros s Hs. eapply edge_end_once; eauto.
Qed.

Lemma C06_kite_index_inverts_cells_on_vertex_proof :
  forall (A : Arith) (cf : config) (h : hexargs A), mesh_ok cf h ->
  2 <= nx h -> 2 <= ny h ->
  always (dims_of cf h 0) (mesh_ctor cf h) (mzero A) (fun m =>
    forall c j, 0 <= c < nx h * ny h -> 0 <= j < 6 ->
      let v := mi m VerticesOnCell [c; j] in
      0 <= v < 2 * (nx h * ny h) /\ 0 <= mi m KiteIndexOnCell [c; j] < 3 /\
      forall s, 0 <= s < 3 -> (mi m CellsOnVertex [v; s] = c <-> s = mi m KiteIndexOnCell [c; j])).
Proof.
  intros A cf h Hok H1 H2. apply ctor_always; [exact Hok|]. intros m Hm c j Hc Hj. eapply kite_inverse; eauto.
Qed.

Lemma C07_adjacency_reciprocal_iff_even_proof :
  forall (A : Arith) (cf : config) (h : hexargs A), mesh_ok cf h ->
  2 <= nx h ->
  always (dims_of cf h 0) (mesh_ctor cf h) (mzero A) (fun m =>
    (forall c j, 0 <= c < nx h * ny h -> 0 <= j < 6 ->
       mi m CellsOnCell [mi m CellsOnCell [c; j]; (j + 3) mod 6] = c) <-> Z.even (ny h) = true).
Proof.
  intros A cf h Hok H1. apply ctor_always; [exact Hok|]. intros m Hm. eapply adjacency_reciprocal_iff; eauto.
Qed.

Lemma C08_geometry_consistent_proof :
  forall (cf : config) (h : hexargs RA), mesh_ok cf h ->
  Z.even (ny h) = true ->
  always (dims_of cf h 0) (mesh_ctor cf h) (mzero RA) (fun m =>
    (forall e, 0 <= e < 3 * (nx h * ny h) ->
       let c0 := mi m CellsOnEdge [e; 0] in let c1 := mi m CellsOnEdge [e; 1] in
       let v0 := mi m VerticesOnEdge [e; 0] in let v1 := mi m VerticesOnEdge [e; 1] in
       let th := (mr m AngleEdge [e] : R) in let d := (mr m DcEdge [e] : R) in let dv := (mr m DvEdge [e] : R) in
       d = dc h /\ dv = (d * sqrt 3 / 3)%R /\
       eqmod (period_x h) (mr m XCell [c1]) (mr m XCell [c0] + d * cos th) /\
       eqmod (period_y h) (mr m YCell [c1]) (mr m YCell [c0] + d * sin th) /\
       eqmod (period_x h) (mr m XEdge [e]) (mr m XCell [c0] + d / 2 * cos th) /\
       eqmod (period_y h) (mr m YEdge [e]) (mr m YCell [c0] + d / 2 * sin th) /\
       eqmod (period_x h) (mr m XEdge [e]) (mr m XCell [c1] - d / 2 * cos th) /\
       eqmod (period_y h) (mr m YEdge [e]) (mr m YCell [c1] - d / 2 * sin th) /\
       eqmod (period_x h) (mr m XVertex [v1]) (mr m XVertex [v0] - dv * sin th) /\
       eqmod (period_y h) (mr m YVertex [v1]) (mr m YVertex [v0] + dv * cos th)) /\
    (forall v s, 0 <= v < 2 * (nx h * ny h) -> 0 <= s < 3 ->
       let c := mi m CellsOnVertex [v; s] in
       exists x y, eqmod (period_x h) (mr m XVertex [v]) (mr m XCell [c] + x) /\
         eqmod (period_y h) (mr m YVertex [v]) (mr m YCell [c] + y) /\
         (x * x + y * y = dc h * dc h / 3)%R)).
Proof.
  intros cf h Hok Hev. apply ctor_always; [exact Hok|]. intros m Hm. split.
  - intros e He. eapply m_edge_geometry; eauto.
  - intros v s Hv Hs. eapply m_vertex_distance; eauto.
Qed.

Lemma C09_areas_partition_domain_proof :
  forall (cf : config) (h : hexargs RA), mesh_ok cf h ->
  always (dims_of cf h 0) (mesh_ctor cf h) (mzero RA) (fun m =>
    (forall v, 0 <= v < 2 * (nx h * ny h) -> rsum 3 (fun s => mr m KiteareasOnVertex [v; s]) = mr m AreaTriangle [v]) /\
    (forall c, 0 <= c < nx h * ny h ->
       rsum 6 (fun j => mr m KiteareasOnVertex [mi m VerticesOnCell [c; j]; mi m KiteIndexOnCell [c; j]]) = mr m AreaCell [c]) /\
    (rsum (nx h * ny h) (fun c => mr m AreaCell [c]) = period_x h * period_y h)%R /\
    (rsum (2 * (nx h * ny h)) (fun v => mr m AreaTriangle [v]) = period_x h * period_y h)%R /\
    (rsum (3 * (nx h * ny h)) (fun e => mr m DcEdge [e] * mr m DvEdge [e] / 2) = period_x h * period_y h)%R).
Proof.
  intros cf h Hok. apply ctor_always; [exact Hok|]. intros m Hm. exact (m_areas cf h 0 Hok m Hm).
Qed.

Lemma C10_weights_antisymmetric_proof :
  forall (cf : config) (h : hexargs RA), mesh_ok cf h ->
  always (dims_of cf h 0) (mesh_ctor cf h) (mzero RA) (fun m =>
    forall e s, 0 <= e < 3 * (nx h * ny h) -> 0 <= s < 10 ->
      let e' := mi m EdgesOnEdge [e; s] in
      0 <= e' < 3 * (nx h * ny h) /\
      exists s', 0 <= s' < 10 /\ mi m EdgesOnEdge [e'; s'] = e /\
        mi m CellsOnEdge [e'; if s' <? 5 then 0 else 1] = mi m CellsOnEdge [e; if s <? 5 then 0 else 1] /\
        (mr m WeightsOnEdge [e'; s'] = - mr m WeightsOnEdge [e; s])%R).
Proof.
  intros cf h Hok. apply ctor_always; [exact Hok|]. intros m Hm. intros e s He Hs. eapply weights_antisym; eauto.
Qed.

Lemma C11_uniform_reconstruction_exact_proof :
  forall (cf : config) (h : hexargs RA), mesh_ok cf h ->
  always (dims_of cf h 0) (mesh_ctor cf h) (mzero RA) (fun m =>
    forall (e : Z) (U V : R), 0 <= e < 3 * (nx h * ny h) ->
      (recon m (fun e' => U * cos (mr m AngleEdge [e']) + V * sin (mr m AngleEdge [e'])) e =
       - U * sin (mr m AngleEdge [e]) + V * cos (mr m AngleEdge [e]))%R).
Proof.
  intros cf h Hok. apply ctor_always; [exact Hok|]. intros m Hm. intros e U V He. exact (uniform_reconstruction cf h 0 Hok m Hm e U V He).
Qed.

Lemma C12_curl_grad_zero_iff_even_proof :
  forall (cf : config) (h : hexargs RA), mesh_ok cf h ->
  2 <= nx h -> (0 < (dc h : R))%R ->
  always (dims_of cf h 0) (mesh_ctor cf h) (mzero RA) (fun m =>
    (forall (phi : Z -> R) v, 0 <= v < 2 * (nx h * ny h) -> circ m (grad m phi) v = 0%R) <-> Z.even (ny h) = true).
Proof.
  intros cf h Hok H1 Hd. apply ctor_always; [exact Hok|]. intros m Hm. eapply m_curl_grad_iff; eauto.
Qed.

Lemma C13_div_rotated_grad_zero_proof :
  forall (cf : config) (h : hexargs RA), mesh_ok cf h ->
  2 <= nx h -> 2 <= ny h -> Z.even (ny h) = true -> (0 < (dc h : R))%R ->
  always (dims_of cf h 0) (mesh_ctor cf h) (mzero RA) (fun m =>
    forall (psi : Z -> R) c, 0 <= c < nx h * ny h -> outflow m (rgrad m psi) c = 0%R).
Proof.
  intros cf h Hok H1 H2 Hev Hd. apply ctor_always; [exact Hok|]. intros m Hm psi c Hc. eapply m_div_rot_grad; eauto.
Qed.

Lemma C14_curl_of_reconstruction_is_kite_divergence_proof :
  forall (cf : config) (h : hexargs RA), mesh_ok cf h ->
  2 <= nx h -> 2 <= ny h -> Z.even (ny h) = true -> (0 < (dc h : R))%R ->
  always (dims_of cf h 0) (mesh_ctor cf h) (mzero RA) (fun m =>
    forall (u : Z -> R) v, 0 <= v < 2 * (nx h * ny h) ->
      circ m (recon m u) v =
      (- rsum 3 (fun s => mr m KiteareasOnVertex [v; s] * outflow m u (mi m CellsOnVertex [v; s])))%R).
Proof.
  intros cf h Hok H1 H2 Hev Hd. apply ctor_always; [exact Hok|]. intros m Hm u v Hv. eapply m_trisk; eauto.
Qed.

