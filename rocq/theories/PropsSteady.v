(** Steady states, uniform concentrations and dissipation, over the exact reals. *)
From Coq Require Import ZArith Reals List Bool Lia Lra.
From Verif Require Import Arith Arrays Prog Conc Launch Mesh AuxVars Tend Model RSum Spec MeshProof Ready Relate StepVal StepRun StepThms FieldInv SteadyThms PropsCons.
Import ListNotations.
Open Scope Z_scope.

(** C30.  [H] is the thickness of each layer.  When tracer diffusion is active the tracers have to be uniform too.  [disabled_zero] excludes stale values in tendencies that are switched off. *)
Theorem C30_lake_at_rest :
  forall (S : setup RA), setup_ok S -> (0 < (dc (mesh_of_setup S) : R))%R ->
  hook S = None ->
  forall (H : Z -> R) (m : mem RA), ready S m -> disabled_zero S Tend m ->
  (forall k c, 0 <= k < d_nlayers (sdims S) -> 0 <= c < d_ncells (sdims S) -> mr m (HCell St) [c; k] = H k) ->
  (forall k e, 0 <= k < d_nlayers (sdims S) -> 0 <= e < d_nedges (sdims S) -> mr m (VnEdge St) [e; k] = 0%R) ->
  (((eddy_diff2 (par_of S) : R) <= 0)%R /\ ((eddy_diff4 (par_of S) : R) <= 0)%R \/
   exists T : Z -> Z -> R, forall l k c, 0 <= l < ntracers (par_of S) -> 0 <= k < d_nlayers (sdims S) -> 0 <= c < d_ncells (sdims S) ->
     mr m (TrCell St) [l; c; k] = T l k) ->
  (forall time, always (sdims S) (compute_tendency S Tend St time Replace) m (fun m' => forall k, 0 <= k < d_nlayers (sdims S) ->
    (forall c, 0 <= c < d_ncells (sdims S) -> mr m' (HCell Tend) [c; k] = 0%R) /\
    (forall e, 0 <= e < d_nedges (sdims S) -> mr m' (VnEdge Tend) [e; k] = 0%R) /\
    (forall l c, 0 <= l < ntracers (par_of S) -> 0 <= c < d_ncells (sdims S) -> mr m' (TrCell Tend) [l; c; k] = 0%R))) /\
  let unchanged (m' : mem RA) := forall k, 0 <= k < d_nlayers (sdims S) ->
    (forall c, 0 <= c < d_ncells (sdims S) -> mr m' (HCell St) [c; k] = mr m (HCell St) [c; k]) /\
    (forall e, 0 <= e < d_nedges (sdims S) -> mr m' (VnEdge St) [e; k] = mr m (VnEdge St) [e; k]) /\
    (forall l c, 0 <= l < ntracers (par_of S) -> 0 <= c < d_ncells (sdims S) -> mr m' (TrCell St) [l; c; k] = mr m (TrCell St) [l; c; k]) in
  forall steps : list (R * R), always (sdims S) (rk4_run S steps) m unchanged /\ forall n, always (sdims S) (lsrk_run S n steps) m unchanged.
Proof. exact C30_lake_at_rest_proof. Qed.
Print Assumptions C30_lake_at_rest.

(** A lake at rest with different thicknesses in the layers and uniform tracers, all terms enabled. *)
Example C30_applies : exists m, ready S24 m /\ disabled_zero S24 Tend m /\
  (forall k c, mr m (HCell St) [c; k] = IZR (k + 1)) /\ (forall k e, mr m (VnEdge St) [e; k] = 0%R) /\ (forall l k c, mr m (TrCell St) [l; c; k] = IZR (3 * k + 7)).
Proof.
  destruct (any24 (fun a ix => match a, ix with HCell _, [c; k] => IZR (k + 1) | TrCell _, [l; c; k] => IZR (3 * k + 7) | _, _ => 0%R end)) as (m & R & E).
  exists m. split; [exact R|]. split; [|repeat split; intros; apply E].
  intros k Hk. split; discriminate.
Qed.

(** C31.  A thickness H k and a velocity (U k, V k) per layer; the normal component at an edge is read off the angle of the edge.  Tracers are arbitrary. *)
Theorem C31_uniform_flow :
  forall (S : setup RA), setup_ok S -> (0 < (dc (mesh_of_setup S) : R))%R ->
  2 <= nx (mesh_of_setup S) -> 2 <= ny (mesh_of_setup S) ->
  hook S = None -> f0 (par_of S) = 0%R ->
  forall (H U V : Z -> R) (m : mem RA), ready S m -> disabled_zero S Tend m ->
  (forall k c, 0 <= k < d_nlayers (sdims S) -> 0 <= c < d_ncells (sdims S) -> mr m (HCell St) [c; k] = H k) ->
  (forall k e, 0 <= k < d_nlayers (sdims S) -> 0 <= e < d_nedges (sdims S) ->
    mr m (VnEdge St) [e; k] = (U k * cos (mr m AngleEdge [e]) + V k * sin (mr m AngleEdge [e]))%R) ->
  (forall time, always (sdims S) (compute_tendency S Tend St time Replace) m (fun m' => forall k, 0 <= k < d_nlayers (sdims S) ->
    (forall c, 0 <= c < d_ncells (sdims S) -> mr m' (HCell Tend) [c; k] = 0%R) /\
    (forall e, 0 <= e < d_nedges (sdims S) -> mr m' (VnEdge Tend) [e; k] = 0%R))) /\
  let unchanged (m' : mem RA) := forall k, 0 <= k < d_nlayers (sdims S) ->
    (forall c, 0 <= c < d_ncells (sdims S) -> mr m' (HCell St) [c; k] = mr m (HCell St) [c; k]) /\
    (forall e, 0 <= e < d_nedges (sdims S) -> mr m' (VnEdge St) [e; k] = mr m (VnEdge St) [e; k]) in
  forall steps : list (R * R), always (sdims S) (rk4_run S steps) m unchanged /\ forall n, always (sdims S) (lsrk_run S n steps) m unchanged.
Proof. exact C31_uniform_flow_proof. Qed.
Print Assumptions C31_uniform_flow.

Definition S31 : setup RA := mkSetup (mkConfig false true false 4) (mkHex (A:=RA) 5 4 (IZR 2) 3)
  (mkParams (A:=RA) (IZR 0) (IZR 10) (IZR 0) (IZR 1) (IZR 1) (IZR 1) (IZR 1) 1 false false) None.
Example C31_applies : setup_ok S31 /\ exists m, ready S31 m /\ disabled_zero S31 Tend m /\
  (forall k c, mr m (HCell St) [c; k] = 5%R) /\
  (forall k e, mr m (VnEdge St) [e; k] = (IZR (k + 1) * cos (mr m AngleEdge [e]) + IZR (k - 7) * sin (mr m AngleEdge [e]))%R).
Proof.
  assert (Ho : setup_ok S31) by ok. split; [exact Ho|].
  destruct (ready_any S31 Ho (fun _ _ => 0%R)) as (m0 & R0 & _).
  pose (m := Mem (A:=RA) (mi m0) (fun a ix => match a, ix with HCell _, _ => 5%R
    | VnEdge _, [e; k] => (IZR (k + 1) * cos (mr m0 AngleEdge [e]) + IZR (k - 7) * sin (mr m0 AngleEdge [e]))%R
    | a, ix => mr m0 a ix end)).
  exists m. split; [|split; [intros k Hk; split; discriminate|split; reflexivity]].
  eapply ready_frame; [|exact R0]. intros [a ix|a ix] Ha; [reflexivity|]. destruct a; try discriminate Ha; reflexivity.
Qed.

(** C33.  The diffusion tendency is the difference between the tracer tendencies of the model and of the model with eddy_diff2 = 0, other things equal; [r] is the concentration. *)
Theorem C33_diffusion_dissipates :
  forall (S : setup RA), setup_ok S -> (0 < (dc (mesh_of_setup S) : R))%R ->
  2 <= nx (mesh_of_setup S) -> 2 <= ny (mesh_of_setup S) ->
  forall (t s : sid) (time : R) (md : add_mode) (m m1 m0 : mem RA), s <> t -> ready S m ->
  exec (sdims S) (compute_tendency S t s time md) m (OK m1) ->
  exec (sdims S) (compute_tendency (set_eddy_diff2 S (IZR 0)) t s time md) m (OK m0) ->
  forall l k, 0 <= l < ntracers (par_of S) -> 0 <= k < d_nlayers (sdims S) ->
  let thickness e := ((mr m (HCell s) [mi m CellsOnEdge [e; 0%Z]; k] + mr m (HCell s) [mi m CellsOnEdge [e; 1%Z]; k]) / 2)%R in
  let r c := (mr m (TrCell s) [l; c; k] / mr m (HCell s) [c; k])%R in
  let work := rsum (d_ncells (sdims S)) (fun c => (mr m AreaCell [c] : R) * r c * (mr m1 (TrCell t) [l; c; k] - mr m0 (TrCell t) [l; c; k]))%R in
  (forall e, 0 <= e < d_nedges (sdims S) -> (0 <= thickness e)%R) ->
  (work <= 0)%R /\
  ((0 < (eddy_diff2 (par_of S) : R))%R -> work = 0%R ->
   forall e, 0 <= e < d_nedges (sdims S) -> (0 < thickness e)%R -> r (mi m CellsOnEdge [e; 0]) = r (mi m CellsOnEdge [e; 1])).
Proof. exact C33_diffusion_dissipates_proof. Qed.
Print Assumptions C33_diffusion_dissipates.

Example C33_hyps : setup_ok S24 /\ (0 < (eddy_diff2 (par_of S24) : R))%R /\ exists m, ready S24 m /\
  (forall c k, (0 < (mr m (HCell St) [c; k] : R))%R) /\ (mr m (TrCell St) [0; 0; 0] <> mr m (TrCell St) [0; 1; 0]).
Proof.
  split; [apply ok24|]. split; [cbn; lra|].
  destruct (any24 (fun a ix => match a, ix with HCell _, _ => 1%R | TrCell _, [_; c; _] => IZR c | _, _ => 0%R end)) as (m & R & E).
  exists m. split; [exact R|]. split.
  - intros c k. destruct (E St [c; k]) as (-> & _). cbn. lra.
  - destruct (E St [0; 0; 0]) as (_ & _ & ->), (E St [0; 1; 0]) as (_ & _ & ->). cbn. lra.
Qed.

(** C34, viscosity: the viscous tendency is the difference between the velocity tendencies of the model and of the model with visc_del2 = 0. *)
Theorem C34_viscosity_dissipates :
  forall (S : setup RA), setup_ok S -> (0 < (dc (mesh_of_setup S) : R))%R ->
  2 <= nx (mesh_of_setup S) -> 2 <= ny (mesh_of_setup S) ->
  forall (t s : sid) (time : R) (md : add_mode) (m m1 m0 : mem RA), s <> t -> ready S m ->
  exec (sdims S) (compute_tendency S t s time md) m (OK m1) ->
  exec (sdims S) (compute_tendency (set_visc_del2 S (IZR 0)) t s time md) m (OK m0) ->
  forall k, 0 <= k < d_nlayers (sdims S) ->
  (rsum (d_nedges (sdims S)) (fun e => (mr m DcEdge [e] : R) * mr m DvEdge [e] * mr m (VnEdge s) [e; k] * (mr m1 (VnEdge t) [e; k] - mr m0 (VnEdge t) [e; k])) <= 0)%R.
Proof. exact C34_viscosity_dissipates_proof. Qed.
Print Assumptions C34_viscosity_dissipates.

Example C34_hyps : setup_ok S24 /\ (0 < (visc_del2 (par_of S24) : R))%R /\ (0 < (visc_del4 (par_of S24) : R))%R /\ ksimd (cfg_of S24) = false.
Proof. split; [apply ok24|]. cbn. repeat split; lra. Qed.

(** C34, hyperviscosity, for the scalar kernels and for vector length 1.  For explicit SIMD kernels with more lanes the claim is false, see PropsSimd.v. *)
Theorem C34_hyperviscosity_dissipates :
  forall (S : setup RA), setup_ok S -> (0 < (dc (mesh_of_setup S) : R))%R ->
  2 <= nx (mesh_of_setup S) -> 2 <= ny (mesh_of_setup S) ->
  ksimd (cfg_of S) = false \/ vector_length (cfg_of S) = 1 ->
  forall (t s : sid) (time : R) (md : add_mode) (m m1 m0 : mem RA), s <> t -> ready S m ->
  exec (sdims S) (compute_tendency S t s time md) m (OK m1) ->
  exec (sdims S) (compute_tendency (set_visc_del4 S (IZR 0)) t s time md) m (OK m0) ->
  forall k, 0 <= k < d_nlayers (sdims S) ->
  (rsum (d_nedges (sdims S)) (fun e => (mr m DcEdge [e] : R) * mr m DvEdge [e] * mr m (VnEdge s) [e; k] * (mr m1 (VnEdge t) [e; k] - mr m0 (VnEdge t) [e; k])) <= 0)%R.
Proof. exact C34_hyperviscosity_dissipates_proof. Qed.
Print Assumptions C34_hyperviscosity_dissipates.

(** C35.  [fmax] is std::max of the code. *)
Theorem C35_clamp_inert :
  forall (S : setup RA), setup_ok S -> (0 < (dc (mesh_of_setup S) : R))%R ->
  forall m : mem RA, ready S m -> forall e, 0 <= e < d_nedges (sdims S) ->
  fmax (mr m DvEdge [e]) (fquarter * mr m DcEdge [e])%fp = mr m DvEdge [e] /\ ((mr m DcEdge [e] : R) / 4 < mr m DvEdge [e])%R.
Proof. exact C35_clamp_inert_proof. Qed.
Print Assumptions C35_clamp_inert.

(** C35, of the running program: after every successful evaluation with hyperviscosity the work array holds the vector Laplacian
    with the unclamped edge length [DvEdge], in terms of the divergence and vorticity that the same evaluation computed. *)
Theorem C35_clamp_never_taken :
  forall (S : setup RA), setup_ok S -> (0 < (dc (mesh_of_setup S) : R))%R ->
  (0 < (visc_del4 (par_of S) : R))%R -> disable_vn (par_of S) = false ->
  forall (t s : sid) (time : R) (md : add_mode) (m M : mem RA), s <> t -> ready S m ->
  exec (sdims S) (compute_tendency S t s time md) m (OK M) ->
  forall e k, 0 <= e < d_nedges (sdims S) -> 0 <= k < d_nlayers (sdims S) ->
  (mr M VelDel2Edge [e; k] : R) =
  ((mr M VelDivCell [mi m CellsOnEdge [e; 1%Z]; k] - mr M VelDivCell [mi m CellsOnEdge [e; 0%Z]; k]) / mr m DcEdge [e] -
   (mr M RvortVertex [mi m VerticesOnEdge [e; 1%Z]; k] - mr M RvortVertex [mi m VerticesOnEdge [e; 0%Z]; k]) / mr m DvEdge [e])%R.
Proof. exact C35_clamp_never_taken_proof. Qed.
Print Assumptions C35_clamp_never_taken.

Example C35_hyps : setup_ok S24 /\ (0 < (visc_del4 (par_of S24) : R))%R /\ disable_vn (par_of S24) = false /\ exists m, ready S24 m.
Proof. split; [apply ok24|]. split; [cbn; lra|]. split; [reflexivity|]. destruct (any24 (fun _ _ => 0%R)) as (m & R & _). eauto. Qed.

(** C49.  [r] is any result of the reduction, in any order and grouping; there is one, and it is always the exact sum. *)
Theorem C49_diagnostics :
  forall (S : setup RA), setup_ok S ->
  forall (s : sid) (m : mem RA), ready S m ->
  ((exists r, mass_integral S s m r) /\ forall r, mass_integral S s m r ->
     r = Some (rsum (d_ncells (sdims S)) (fun c => rsum (d_nlayers (sdims S)) (fun k => (mr m AreaCell [c] : R) * mr m (HCell s) [c; k])))%R) /\
  ((exists r, energy_integral S s m r) /\ forall r, energy_integral S s m r ->
     r = Some (rsum (d_ncells (sdims S)) (fun c => rsum (d_nlayers (sdims S)) (fun k =>
       let ke := (rsum 6 (fun j => let e := mi m EdgesOnCell [c; j] in (mr m DvEdge [e] : R) * mr m DcEdge [e] * (mr m (VnEdge s) [e; k] * mr m (VnEdge s) [e; k]) / 4) / mr m AreaCell [c])%R in
       (mr m AreaCell [c] : R) * (grav (par_of S) * mr m (HCell s) [c; k] * mr m (HCell s) [c; k] / 2 + mr m (HCell s) [c; k] * ke))))%R).
Proof. exact C49_diagnostics_proof. Qed.
Print Assumptions C49_diagnostics.

(** The padding layers count: with one layer padded to 8, a mesh at thickness 1 everywhere has 8 times the mass of a layer. *)
Definition S49 : setup RA := mkSetup (mkConfig false false false 8) (mkHex (A:=RA) 4 6 (IZR 1) 1) P24 None.
Example C49_padding : setup_ok S49 /\ d_nlayers (sdims S49) = 8.
Proof. split; [ok|reflexivity]. Qed.

