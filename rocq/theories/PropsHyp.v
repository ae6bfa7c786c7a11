(** Hyperdiffusion and the variance of tracers. *)
From Coq Require Import ZArith Reals List Bool Lia Lra.
From Verif Require Import Arith Arrays Prog Conc Launch Mesh AuxVars Tend Model RSum Spec MeshProof MeshMem Ready TendFn StepFn TendVal StepVal StepRun StepThms PropsCons HypThms.
Import ListNotations.
Open Scope Z_scope.

(** In a layer of uniform thickness hyperdiffusion reduces the variance of every tracer, and strictly so unless the concentration is the same on both sides of every edge.  The hyperdiffusion tendency is the difference between the tracer tendencies of the model and of the model with eddy_diff4 = 0, other things equal; [r] is the concentration. *)
Theorem C97_hyperdiffusion_dissipates :
forall (S : setup RA), setup_ok S -> (0 < (dc (mesh_of_setup S) : R))%R -> 2 <= nx (mesh_of_setup S) -> 2 <= ny (mesh_of_setup S) ->
  forall (t s : sid) (time : R) (md : add_mode) (m m1 m0 : mem RA), s <> t -> ready S m ->
  exec (sdims S) (compute_tendency S t s time md) m (OK m1) ->
  exec (sdims S) (compute_tendency (set_eddy_diff4 S (IZR 0)) t s time md) m (OK m0) ->
  forall l k H, 0 <= l < ntracers (par_of S) -> 0 <= k < d_nlayers (sdims S) -> (0 <= H)%R -> (forall c, 0 <= c < d_ncells (sdims S) -> mr m (HCell s) [c; k] = H) ->
  let r c := (mr m (TrCell s) [l; c; k] / mr m (HCell s) [c; k])%R in
  let work := rsum (d_ncells (sdims S)) (fun c => (mr m AreaCell [c] : R) * r c * (mr m1 (TrCell t) [l; c; k] - mr m0 (TrCell t) [l; c; k]))%R in
  (work <= 0)%R /\
  ((0 < (eddy_diff4 (par_of S) : R))%R -> (0 < H)%R -> work = 0%R -> forall e, 0 <= e < d_nedges (sdims S) -> r (mi m CellsOnEdge [e; 0]) = r (mi m CellsOnEdge [e; 1])).
Proof. exact C97_hyperdiffusion_dissipates_proof. Qed.
Print Assumptions C97_hyperdiffusion_dissipates.

Definition S97 : setup RA := mkSetup (mkConfig false true false 8) (mkHex (A:=RA) 4 6 (IZR 2) 3) (mkParams (A:=RA) (IZR 1) (IZR 10) (IZR 0) (IZR 3) (IZR 4) (IZR 1) (IZR 5) 2 false false) None.
Example C97_hyps : setup_ok S97 /\ 4 <= nx (mesh_of_setup S97) /\ 2 <= ny (mesh_of_setup S97) /\ (0 < (eddy_diff4 (par_of S97) : R))%R /\ exists m, ready S97 m /\
  (forall c k, mr m (HCell St) [c; k] = 3%R) /\ (forall c k, mr m (TrCell St) [0; c; k] = IZR c) /\
  exists m1 m0, exec (sdims S97) (compute_tendency S97 Tend St 0%R Replace) m (OK m1) /\ exec (sdims S97) (compute_tendency (set_eddy_diff4 S97 (IZR 0)) Tend St 0%R Replace) m (OK m0).
Proof.
  assert (Ok : setup_ok S97) by ok. split; [exact Ok|]. split; [cbn; lia|]. split; [cbn; lia|]. split; [cbn; lra|].
  destruct (ready_any S97 Ok (fun a ix => match a, ix with HCell _, _ => 3%R | TrCell _, [_; c; _] => IZR c | _, _ => 0%R end)) as (m & Hr & Hm).
  exists m. split; [exact Hr|]. split; [intros c k; now rewrite Hm|]. split; [intros c k; now rewrite Hm|].
  destruct (tendency_runs S97 Ok Tend St 0%R Replace m ltac:(discriminate) Hr) as [m1 X1].
  destruct (tendency_runs (set_eddy_diff4 S97 (IZR 0)) Ok Tend St 0%R Replace m ltac:(discriminate) Hr) as [m0 X0].
  exists m1, m0. split; [exact X1|exact X0].
Qed.

(** In general it does not: on every mesh with at least four columns and for every positive coefficient there is a state, at rest, with positive thickness and concentrations between 0 and 20, in which hyperdiffusion increases the variance of every tracer in every layer.  (The thickness is 1 except in one cell.  The operator is div grad div (h grad r), a product of two different positive operators.) *)
Theorem C97_hyperdiffusion_dissipates_refuted :
forall (S : setup RA), setup_ok S -> (0 < (dc (mesh_of_setup S) : R))%R -> 4 <= nx (mesh_of_setup S) -> 2 <= ny (mesh_of_setup S) -> (0 < (eddy_diff4 (par_of S) : R))%R ->
  exists m, ready S m /\ (forall s c k, (1 <= mr m (HCell s) [c; k])%R) /\ (forall s l c k, (0 <= mr m (TrCell s) [l; c; k] <= 20 * mr m (HCell s) [c; k])%R) /\ (forall s e k, mr m (VnEdge s) [e; k] = 0%R) /\
  forall (t s : sid) (time : R) (md : add_mode) m1 m0, s <> t ->
  exec (sdims S) (compute_tendency S t s time md) m (OK m1) ->
  exec (sdims S) (compute_tendency (set_eddy_diff4 S (IZR 0)) t s time md) m (OK m0) ->
  forall l k, 0 <= l < ntracers (par_of S) -> 0 <= k < d_nlayers (sdims S) ->
  let r c := (mr m (TrCell s) [l; c; k] / mr m (HCell s) [c; k])%R in
  (0 < rsum (d_ncells (sdims S)) (fun c => (mr m AreaCell [c] : R) * r c * (mr m1 (TrCell t) [l; c; k] - mr m0 (TrCell t) [l; c; k])))%R.
Proof. exact C97_hyperdiffusion_dissipates_refuted_proof. Qed.
Print Assumptions C97_hyperdiffusion_dissipates_refuted.

