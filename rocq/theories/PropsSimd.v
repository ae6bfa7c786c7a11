(** Builds with explicit SIMD kernels. *)
From Coq Require Import ZArith Reals List Bool Lia Lra.
From Verif Require Import Arith Arrays Prog Conc Launch Mesh AuxVars Tend Model RSum Spec MeshProof Ready Relate StepVal StepRun StepThms FieldInv SteadyThms SimdThms PropsCons.
Import ListNotations.
Open Scope Z_scope.

(** C19, agreement.  [same_results] is about compute_tendency and any number of steps of both steppers, see Relate.v; here in any common layer.  The builds may also differ in vector length, launch structure and number of layers. *)
Theorem C19_simd_agrees_with_scalar :
  forall (cf1 cf2 : config) (h1 h2 : hexargs RA) (P : params RA) (hk : option (forcing RA)) (k : Z),
  let S1 := mkSetup cf1 h1 P hk in let S2 := mkSetup cf2 h2 P hk in
  setup_ok S1 -> setup_ok S2 -> same_mesh h1 h2 ->
  0 <= k < d_nlayers (sdims S1) -> 0 <= k < d_nlayers (sdims S2) ->
  let plain cf := ksimd cf = false \/ vector_length cf = 1 in
  ((visc_del4 P : R) <= 0)%R \/ disable_vn P = true \/ (plain cf1 /\ plain cf2) ->
  same_results S1 S2 (eq k).
Proof. exact C19_simd_agrees_with_scalar_proof. Qed.
Print Assumptions C19_simd_agrees_with_scalar.

Definition h19 : hexargs RA := mkHex (A:=RA) 4 6 (IZR 1) 3.
Example C19_agree_ex (k : Z) : 0 <= k < 8 ->
  let P := mkParams (A:=RA) (IZR 1) (IZR 10) (IZR 0) (IZR 1) (IZR 0) (IZR 1) (IZR 1) 1 false false in
  same_results (mkSetup (mkConfig false true false 8) h19 P None) (mkSetup (mkConfig false false true 8) h19 P None) (eq k).
Proof. intros Hk. apply C19_simd_agrees_with_scalar; ok. Qed.

(** C19, difference: with hyperviscosity on and more than one lane there is a state, the same for both builds, whose tendencies differ in layer 1. *)
Theorem C19_simd_hyperviscosity_differs :
  forall (ns ni : bool) (ln : Z) (h : hexargs RA) (P : params RA) (hk : option (forcing RA)),
  let S1 := mkSetup (mkConfig ns false ni ln) h P hk in let S2 := mkSetup (mkConfig ns true ni ln) h P hk in
  setup_ok S1 -> setup_ok S2 -> 1 < vector_length (cfg_of S2) -> 1 <= nlayers h ->
  2 <= nx h -> 2 <= ny h -> Z.even (ny h) = true -> (0 < (dc h : R))%R ->
  disable_vn P = false -> (0 < (visc_del4 P : R))%R ->
  exists m, ready S1 m /\ ready S2 m /\ forall time m1 m2,
    exec (sdims S1) (compute_tendency S1 Tend St time Replace) m (OK m1) ->
    exec (sdims S2) (compute_tendency S2 Tend St time Replace) m (OK m2) ->
    mr m1 (VnEdge Tend) [0; 1] <> mr m2 (VnEdge Tend) [0; 1].
Proof. exact C19_simd_hyperviscosity_differs_proof. Qed.
Print Assumptions C19_simd_hyperviscosity_differs.

Example C19_differ_ex : let P := mkParams (A:=RA) (IZR 1) (IZR 10) (IZR 0) (IZR 0) (IZR 1) (IZR 0) (IZR 0) 0 false false in
  exists m, ready (mkSetup (mkConfig false false false 8) h19 P None) m /\ forall m1 m2,
    exec (sdims (mkSetup (mkConfig false false false 8) h19 P None)) (compute_tendency (mkSetup (mkConfig false false false 8) h19 P None) Tend St 0%R Replace) m (OK m1) ->
    exec (sdims (mkSetup (mkConfig false true false 8) h19 P None)) (compute_tendency (mkSetup (mkConfig false true false 8) h19 P None) Tend St 0%R Replace) m (OK m2) ->
    mr m1 (VnEdge Tend) [0; 1] <> mr m2 (VnEdge Tend) [0; 1].
Proof.
  intros P. destruct (C19_simd_hyperviscosity_differs false false 8 h19 P None) as (m & H1 & _ & H2); try (ok; fail).
  exists m. split; [exact H1|]. intros m1 m2 X1 X2. exact (H2 _ m1 m2 X1 X2).
Qed.

(** C34 fails for explicit SIMD kernels with more than one lane: whatever the positive coefficient, there is a state to which hyperviscosity adds energy in layer 1. *)
Theorem C34_simd_hyperviscosity_dissipates_refuted :
  forall (S : setup RA), setup_ok S -> (0 < (dc (mesh_of_setup S) : R))%R ->
  2 <= nx (mesh_of_setup S) -> 2 <= ny (mesh_of_setup S) -> Z.even (ny (mesh_of_setup S)) = true -> 1 <= nlayers (mesh_of_setup S) ->
  ksimd (cfg_of S) = true -> 1 < vector_length (cfg_of S) ->
  disable_vn (par_of S) = false -> (0 < (visc_del4 (par_of S) : R))%R ->
  exists m, ready S m /\ forall t s time md m1 m0, s <> t ->
  exec (sdims S) (compute_tendency S t s time md) m (OK m1) ->
  exec (sdims S) (compute_tendency (set_visc_del4 S (IZR 0)) t s time md) m (OK m0) ->
  (0 < rsum (d_nedges (sdims S)) (fun e => (mr m DcEdge [e] : R) * mr m DvEdge [e] * mr m (VnEdge s) [e; 1%Z] * (mr m1 (VnEdge t) [e; 1%Z] - mr m0 (VnEdge t) [e; 1%Z])))%R.
Proof. exact C34_simd_hyperviscosity_dissipates_refuted_proof. Qed.
Print Assumptions C34_simd_hyperviscosity_dissipates_refuted.

Example C34_refuted_hyps : let S := mkSetup (mkConfig false true false 8) h19 P24 None in
  setup_ok S /\ ksimd (cfg_of S) = true /\ 1 < vector_length (cfg_of S) /\ Z.even (ny (mesh_of_setup S)) = true /\ (0 < (visc_del4 (par_of S) : R))%R.
Proof. ok. Qed.

