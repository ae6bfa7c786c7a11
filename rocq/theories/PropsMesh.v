(** Properties C01 - C14: the mesh constructor.  [always D prog m P]: no schedule of [prog] started in [m] has
    undefined behaviour, every schedule that finishes satisfies [P], and some schedule finishes. *)
From Coq Require Import ZArith Reals List Bool Lia Lra.
From Verif Require Import Arith Arrays Prog Conc Mesh RSum Spec MeshProof MeshThms.
Import ListNotations.
Open Scope Z_scope.

(** Arguments used by the non-vacuity examples: an 8 lane build, a 4 x 6 mesh with 3 layers, and a degenerate and an odd one. *)
Definition ex_cf : config := mkConfig false false false 8.
Definition ex_h : hexargs RA := mkHex (A:=RA) 4 6 (IZR 1) 3.
Definition ex_odd : hexargs RA := mkHex (A:=RA) 25 29 (IZR 1) 1.
Definition ex_deg : hexargs RA := mkHex (A:=RA) 1 1 (IZR 1) 1.
Ltac ok := repeat split; unfold INT_MAX, zceil, vector_length; cbn; lia.
Example ex_ok : mesh_ok ex_cf ex_h. Proof. ok. Qed.
Example ex_odd_ok : mesh_ok ex_cf ex_odd. Proof. ok. Qed.
Example ex_deg_ok : mesh_ok ex_cf ex_deg. Proof. ok. Qed.

(** C01, for every arithmetic, hence bit for bit for binary64. *)
Theorem C01_constructor_safe_and_deterministic :
  forall (A : Arith) (cf : config) (h : hexargs A), mesh_ok cf h ->
  always (dims_of cf h 0) (mesh_ctor cf h) (mzero A) (fun _ => True) /\
  deterministic (dims_of cf h 0) (mesh_ctor cf h) (mzero A).
Proof. exact C01_constructor_safe_and_deterministic_proof. Qed.
Print Assumptions C01_constructor_safe_and_deterministic.

(** C02.  The padded layer count is required to fit, as it always does for realistic arguments. *)
Theorem C02_int_limits :
  forall (A : Arith) (cf : config) (h : hexargs A),
  1 <= nx h -> 1 <= ny h -> 1 <= lanes cf -> 0 <= nlayers h ->
  zceil (nlayers h) (vector_length cf) * vector_length cf <= INT_MAX ->
  let D := dims_of cf h 0 in
  d_ncells D = nx h * ny h /\ d_nedges D = 3 * nx h * ny h /\ d_nvertices D = 2 * nx h * ny h /\
  ((forall o, exec D (mesh_ctor cf h) (mzero A) o -> o <> UB) <-> 3 * nx h * ny h <= 2 ^ 31 - 1) /\
  (2 ^ 31 - 1 < 3 * nx h * ny h -> exec D (mesh_ctor cf h) (mzero A) UB).
Proof. exact C02_int_limits_proof. Qed.
Print Assumptions C02_int_limits.

Example C02_both_sides : 3 * 26754 * 26754 <= 2 ^ 31 - 1 /\ 2 ^ 31 - 1 < 3 * 26755 * 26755. Proof. lia. Qed.

(** C03. *)
Theorem C03_edge_shared_by_two_sides :
  forall (A : Arith) (cf : config) (h : hexargs A), mesh_ok cf h ->
  always (dims_of cf h 0) (mesh_ctor cf h) (mzero A) (fun m =>
    (forall e, 0 <= e < 3 * (nx h * ny h) ->
       let c0 := mi m CellsOnEdge [e; 0] in let c1 := mi m CellsOnEdge [e; 1] in
       0 <= c0 < nx h * ny h /\ 0 <= c1 < nx h * ny h /\
       exists j1 j0, 0 <= j1 < 3 /\ 3 <= j0 < 6 /\
         forall c j, 0 <= c < nx h * ny h -> 0 <= j < 6 ->
           (mi m EdgesOnCell [c; j] = e <-> (c = c1 /\ j = j1) \/ (c = c0 /\ j = j0))) /\
    (forall c j, 0 <= c < nx h * ny h -> 0 <= j < 6 ->
       mi m NedgesOnCell [c] = 6 /\ 0 <= mi m EdgesOnCell [c; j] < 3 * (nx h * ny h) /\
       mi m CellsOnEdge [mi m EdgesOnCell [c; j]; if j <? 3 then 1 else 0] = c)).
Proof. exact C03_edge_shared_by_two_sides_proof. Qed.
Print Assumptions C03_edge_shared_by_two_sides.

(** C04, with the degenerate sizes. *)
Theorem C04_edge_signs :
  forall (A : Arith) (cf : config) (h : hexargs A), mesh_ok cf h ->
  always (dims_of cf h 0) (mesh_ctor cf h) (mzero A) (fun m =>
    (2 <= nx h -> 2 <= ny h -> forall c j, 0 <= c < nx h * ny h -> 0 <= j < 6 ->
       mr m EdgeSignOnCell [c; j] = fofZ (if j <? 3 then -1 else 1)) /\
    (nx h = 1 -> forall c, 0 <= c < nx h * ny h ->
       mi m EdgesOnCell [c; 3] = mi m EdgesOnCell [c; 0] /\
       mr m EdgeSignOnCell [c; 0] = fofZ 1 /\ mr m EdgeSignOnCell [c; 3] = fofZ 1) /\
    (ny h = 1 -> forall c, 0 <= c < nx h * ny h ->
       mi m EdgesOnCell [c; 4] = mi m EdgesOnCell [c; 1] /\
       mr m EdgeSignOnCell [c; 1] = fofZ 1 /\ mr m EdgeSignOnCell [c; 4] = fofZ 1)).
Proof. exact C04_edge_signs_proof. Qed.
Print Assumptions C04_edge_signs.

(** C05. *)
Theorem C05_vertex_incidence :
  forall (A : Arith) (cf : config) (h : hexargs A), mesh_ok cf h ->
  always (dims_of cf h 0) (mesh_ctor cf h) (mzero A) (fun m =>
    (forall v s, 0 <= v < 2 * (nx h * ny h) -> 0 <= s < 3 ->
       (let e := mi m EdgesOnVertex [v; s] in
        0 <= e < 3 * (nx h * ny h) /\
        (mi m VerticesOnEdge [e; 0] = v /\ mr m EdgeSignOnVertex [v; s] = fofZ (-1) \/
         mi m VerticesOnEdge [e; 1] = v /\ mr m EdgeSignOnVertex [v; s] = fofZ 1)) /\
       (let c := mi m CellsOnVertex [v; s] in
        0 <= c < nx h * ny h /\ exists j, 0 <= j < 6 /\ mi m VerticesOnCell [c; j] = v) /\
       forall s', 0 <= s' < 3 -> s <> s' ->
         mi m EdgesOnVertex [v; s] <> mi m EdgesOnVertex [v; s'] /\
         (2 <= nx h -> 2 <= ny h -> mi m CellsOnVertex [v; s] <> mi m CellsOnVertex [v; s'])) /\
    (forall e, 0 <= e < 3 * (nx h * ny h) ->
       mi m VerticesOnEdge [e; 0] <> mi m VerticesOnEdge [e; 1] /\
       forall s, 0 <= s < 2 ->
         let v := mi m VerticesOnEdge [e; s] in
         0 <= v < 2 * (nx h * ny h) /\
         exists s0, 0 <= s0 < 3 /\ forall s', 0 <= s' < 3 -> (mi m EdgesOnVertex [v; s'] = e <-> s' = s0))).
Proof. exact C05_vertex_incidence_proof. Qed.
Print Assumptions C05_vertex_incidence.

(** C06. *)
Theorem C06_kite_index_inverts_cells_on_vertex :
  forall (A : Arith) (cf : config) (h : hexargs A), mesh_ok cf h ->
  2 <= nx h -> 2 <= ny h ->
  always (dims_of cf h 0) (mesh_ctor cf h) (mzero A) (fun m =>
    forall c j, 0 <= c < nx h * ny h -> 0 <= j < 6 ->
      let v := mi m VerticesOnCell [c; j] in
      0 <= v < 2 * (nx h * ny h) /\ 0 <= mi m KiteIndexOnCell [c; j] < 3 /\
      forall s, 0 <= s < 3 -> (mi m CellsOnVertex [v; s] = c <-> s = mi m KiteIndexOnCell [c; j])).
Proof. exact C06_kite_index_inverts_cells_on_vertex_proof. Qed.
Print Assumptions C06_kite_index_inverts_cells_on_vertex.

Example C06_hyps : mesh_ok ex_cf ex_h /\ 2 <= nx ex_h /\ 2 <= ny ex_h. Proof. split; [exact ex_ok|cbn; lia]. Qed.

(** C07. *)
Theorem C07_adjacency_reciprocal_iff_even :
  forall (A : Arith) (cf : config) (h : hexargs A), mesh_ok cf h ->
  2 <= nx h ->
  always (dims_of cf h 0) (mesh_ctor cf h) (mzero A) (fun m =>
    (forall c j, 0 <= c < nx h * ny h -> 0 <= j < 6 ->
       mi m CellsOnCell [mi m CellsOnCell [c; j]; (j + 3) mod 6] = c) <-> Z.even (ny h) = true).
Proof. exact C07_adjacency_reciprocal_iff_even_proof. Qed.
Print Assumptions C07_adjacency_reciprocal_iff_even.

(** The default arguments of test/double_vortex give the second mesh: not reciprocal. *)
Example C07_both_cases : Z.even (ny ex_h) = true /\ Z.even (ny ex_odd) = false /\ mesh_ok ex_cf ex_odd.
Proof. split; [reflexivity|split; [reflexivity|exact ex_odd_ok]]. Qed.

(** C08. *)
Theorem C08_geometry_consistent :
  forall (cf : config) (h : hexargs RA), mesh_ok cf h ->
  Z.even (ny h) = true ->
  always (dims_of cf h 0) (mesh_ctor cf h) (mzero RA) (fun m =>
    (forall e, 0 <= e < 3 * (nx h * ny h) ->
       let c0 := mi m CellsOnEdge [e; 0] in let c1 := mi m CellsOnEdge [e; 1] in
       let v0 := mi m VerticesOnEdge [e; 0] in let v1 := mi m VerticesOnEdge [e; 1] in
       let th := (mr m AngleEdge [e] : R) in let d := (mr m DcEdge [e] : R) in let dv := (mr m DvEdge [e] : R) in
       d = dc h /\ dv = (d * sqrt 3 / 3)%R /\
       eqmod (period_x h) (mr m XCell [c1]) (mr m XCell [c0] + d * cos th) /\
       eqmod (period_y h) (mr m YCell [c1]) (mr m YCell [c0] + d * sin th) /\
       eqmod (period_x h) (mr m XEdge [e]) (mr m XCell [c0] + d / 2 * cos th) /\
       eqmod (period_y h) (mr m YEdge [e]) (mr m YCell [c0] + d / 2 * sin th) /\
       eqmod (period_x h) (mr m XEdge [e]) (mr m XCell [c1] - d / 2 * cos th) /\
       eqmod (period_y h) (mr m YEdge [e]) (mr m YCell [c1] - d / 2 * sin th) /\
       eqmod (period_x h) (mr m XVertex [v1]) (mr m XVertex [v0] - dv * sin th) /\
       eqmod (period_y h) (mr m YVertex [v1]) (mr m YVertex [v0] + dv * cos th)) /\
    (forall v s, 0 <= v < 2 * (nx h * ny h) -> 0 <= s < 3 ->
       let c := mi m CellsOnVertex [v; s] in
       exists x y, eqmod (period_x h) (mr m XVertex [v]) (mr m XCell [c] + x) /\
         eqmod (period_y h) (mr m YVertex [v]) (mr m YCell [c] + y) /\
         (x * x + y * y = dc h * dc h / 3)%R)).
Proof. exact C08_geometry_consistent_proof. Qed.
Print Assumptions C08_geometry_consistent.

Example C08_hyps : mesh_ok ex_cf ex_h /\ Z.even (ny ex_h) = true. Proof. split; [exact ex_ok|reflexivity]. Qed.

(** C09. *)
Theorem C09_areas_partition_domain :
  forall (cf : config) (h : hexargs RA), mesh_ok cf h ->
  always (dims_of cf h 0) (mesh_ctor cf h) (mzero RA) (fun m =>
    (forall v, 0 <= v < 2 * (nx h * ny h) -> rsum 3 (fun s => mr m KiteareasOnVertex [v; s]) = mr m AreaTriangle [v]) /\
    (forall c, 0 <= c < nx h * ny h ->
       rsum 6 (fun j => mr m KiteareasOnVertex [mi m VerticesOnCell [c; j]; mi m KiteIndexOnCell [c; j]]) = mr m AreaCell [c]) /\
    (rsum (nx h * ny h) (fun c => mr m AreaCell [c]) = period_x h * period_y h)%R /\
    (rsum (2 * (nx h * ny h)) (fun v => mr m AreaTriangle [v]) = period_x h * period_y h)%R /\
    (rsum (3 * (nx h * ny h)) (fun e => mr m DcEdge [e] * mr m DvEdge [e] / 2) = period_x h * period_y h)%R).
Proof. exact C09_areas_partition_domain_proof. Qed.
Print Assumptions C09_areas_partition_domain.

(** C10. *)
Theorem C10_weights_antisymmetric :
  forall (cf : config) (h : hexargs RA), mesh_ok cf h ->
  always (dims_of cf h 0) (mesh_ctor cf h) (mzero RA) (fun m =>
    forall e s, 0 <= e < 3 * (nx h * ny h) -> 0 <= s < 10 ->
      let e' := mi m EdgesOnEdge [e; s] in
      0 <= e' < 3 * (nx h * ny h) /\
      exists s', 0 <= s' < 10 /\ mi m EdgesOnEdge [e'; s'] = e /\
        mi m CellsOnEdge [e'; if s' <? 5 then 0 else 1] = mi m CellsOnEdge [e; if s <? 5 then 0 else 1] /\
        (mr m WeightsOnEdge [e'; s'] = - mr m WeightsOnEdge [e; s])%R).
Proof. exact C10_weights_antisymmetric_proof. Qed.
Print Assumptions C10_weights_antisymmetric.

(** C11. *)
Theorem C11_uniform_reconstruction_exact :
  forall (cf : config) (h : hexargs RA), mesh_ok cf h ->
  always (dims_of cf h 0) (mesh_ctor cf h) (mzero RA) (fun m =>
    forall (e : Z) (U V : R), 0 <= e < 3 * (nx h * ny h) ->
      (recon m (fun e' => U * cos (mr m AngleEdge [e']) + V * sin (mr m AngleEdge [e'])) e =
       - U * sin (mr m AngleEdge [e]) + V * cos (mr m AngleEdge [e]))%R).
Proof. exact C11_uniform_reconstruction_exact_proof. Qed.
Print Assumptions C11_uniform_reconstruction_exact.

(** C12. *)
Theorem C12_curl_grad_zero_iff_even :
  forall (cf : config) (h : hexargs RA), mesh_ok cf h ->
  2 <= nx h -> (0 < (dc h : R))%R ->
  always (dims_of cf h 0) (mesh_ctor cf h) (mzero RA) (fun m =>
    (forall (phi : Z -> R) v, 0 <= v < 2 * (nx h * ny h) -> circ m (grad m phi) v = 0%R) <-> Z.even (ny h) = true).
Proof. exact C12_curl_grad_zero_iff_even_proof. Qed.
Print Assumptions C12_curl_grad_zero_iff_even.

Example C12_hyps : mesh_ok ex_cf ex_odd /\ 2 <= nx ex_odd /\ (0 < (dc ex_odd : R))%R. Proof. split; [exact ex_odd_ok|cbn; split; [lia|lra]]. Qed.

(** C13. *)
Theorem C13_div_rotated_grad_zero :
  forall (cf : config) (h : hexargs RA), mesh_ok cf h ->
  2 <= nx h -> 2 <= ny h -> Z.even (ny h) = true -> (0 < (dc h : R))%R ->
  always (dims_of cf h 0) (mesh_ctor cf h) (mzero RA) (fun m =>
    forall (psi : Z -> R) c, 0 <= c < nx h * ny h -> outflow m (rgrad m psi) c = 0%R).
Proof. exact C13_div_rotated_grad_zero_proof. Qed.
Print Assumptions C13_div_rotated_grad_zero.

Example C13_hyps : mesh_ok ex_cf ex_h /\ 2 <= nx ex_h /\ 2 <= ny ex_h /\ Z.even (ny ex_h) = true /\ (0 < (dc ex_h : R))%R.
Proof. split; [exact ex_ok|cbn; repeat split; try lia; lra]. Qed.

(** C14 (same hypotheses as C13). *)
Theorem C14_curl_of_reconstruction_is_kite_divergence :
  forall (cf : config) (h : hexargs RA), mesh_ok cf h ->
  2 <= nx h -> 2 <= ny h -> Z.even (ny h) = true -> (0 < (dc h : R))%R ->
  always (dims_of cf h 0) (mesh_ctor cf h) (mzero RA) (fun m =>
    forall (u : Z -> R) v, 0 <= v < 2 * (nx h * ny h) ->
      circ m (recon m u) v =
      (- rsum 3 (fun s => mr m KiteareasOnVertex [v; s] * outflow m u (mi m CellsOnVertex [v; s])))%R).
Proof. exact C14_curl_of_reconstruction_is_kite_divergence_proof. Qed.
Print Assumptions C14_curl_of_reconstruction_is_kite_divergence.

