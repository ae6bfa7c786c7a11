(** What viscosity does to the total energy (C104). *)
From Coq Require Import ZArith Reals List Bool Lia Lra.
From Verif Require Import Arith Arrays Prog Conc Launch Mesh AuxVars Tend Model RSum Spec MeshProof Ready Relate StepVal StepRun StepThms FieldInv ConsThms SteadyThms PropsCons EnergyBudget.
Import ListNotations.
Open Scope Z_scope.

(** C104.  [E eps] is the energy of the state y + eps * k, where k is the tendency computed from y; [m1] is memory after a computation of the tendency with viscosity and hyperviscosity, [m0] after one without ([inviscid]).  The rate of change of the energy is the work of the difference, weighted by the mean thickness of the two cells of each edge. *)
Theorem C104_energy_budget :
  forall (S : setup RA), setup_ok S -> (0 < (dc (mesh_of_setup S) : R))%R ->
  2 <= nx (mesh_of_setup S) -> 2 <= ny (mesh_of_setup S) ->
  disable_h (par_of S) = false -> disable_vn (par_of S) = false -> hook S = None ->
  forall (t s : sid) (time : R) (m m1 m0 : mem RA) (E : R -> R), s <> t -> ready S m ->
  exec (sdims S) (compute_tendency S t s time Replace) m (OK m1) ->
  exec (sdims S) (compute_tendency (inviscid S) t s time Replace) m (OK m0) ->
  (forall eps, exists n, ready S n /\ energy_integral S s n (Some (E eps)) /\
     holds S s n (fmap2 (A:=RA) (fun u w => u + eps * w)%R (fld s m) (fld t m1))) ->
  derivable_pt_lim E 0%R (rsum (d_nlayers (sdims S)) (fun k => rsum (d_nedges (sdims S)) (fun e => mr m DcEdge [e] * mr m DvEdge [e] *
    ((mr m (HCell s) [mi m CellsOnEdge [e; 0%Z]; k] + mr m (HCell s) [mi m CellsOnEdge [e; 1%Z]; k]) / 2 * mr m (VnEdge s) [e; k]) *
    (mr m1 (VnEdge t) [e; k] - mr m0 (VnEdge t) [e; k]))))%R.
Proof. exact C104_energy_budget_proof. Qed.
Print Assumptions C104_energy_budget.

(** In layers of uniform thickness the energy does not grow. *)
Theorem C104_viscosity_dissipates_energy :
  forall (S : setup RA), setup_ok S -> (0 < (dc (mesh_of_setup S) : R))%R ->
  2 <= nx (mesh_of_setup S) -> 2 <= ny (mesh_of_setup S) ->
  disable_h (par_of S) = false -> disable_vn (par_of S) = false -> hook S = None ->
  ksimd (cfg_of S) = false \/ vector_length (cfg_of S) = 1 \/ ((visc_del4 (par_of S) : R) <= 0)%R ->
  forall (t s : sid) (time : R) (m m1 : mem RA) (E : R -> R) (H : Z -> R), s <> t -> ready S m ->
  (forall c k, 0 <= c < d_ncells (sdims S) -> 0 <= k < d_nlayers (sdims S) -> (0 <= H k)%R /\ mr m (HCell s) [c; k] = H k) ->
  exec (sdims S) (compute_tendency S t s time Replace) m (OK m1) ->
  (forall eps, exists n, ready S n /\ energy_integral S s n (Some (E eps)) /\
     holds S s n (fmap2 (A:=RA) (fun u w => u + eps * w)%R (fld s m) (fld t m1))) ->
  exists W : R, derivable_pt_lim E 0%R W /\ (W <= 0)%R.
Proof. exact C104_viscosity_dissipates_energy_proof. Qed.
Print Assumptions C104_viscosity_dissipates_energy.

(** With varying thickness it can grow, on every mesh of at least 4 by 2 cells and for every positive viscosity. *)
Theorem C104_viscosity_dissipates_energy_refuted :
  forall (S : setup RA), setup_ok S -> (0 < (dc (mesh_of_setup S) : R))%R ->
  4 <= nx (mesh_of_setup S) -> 2 <= ny (mesh_of_setup S) -> 0 < d_nlayers (sdims S) ->
  disable_h (par_of S) = false -> disable_vn (par_of S) = false -> hook S = None ->
  (0 < (visc_del2 (par_of S) : R))%R -> ((visc_del4 (par_of S) : R) <= 0)%R ->
  exists m : mem RA, ready S m /\ (forall s c k, (1 <= mr m (HCell s) [c; k])%R) /\ (forall s e k, (0 <= mr m (VnEdge s) [e; k] <= 1)%R) /\
  forall (t s : sid) (time : R) (m1 : mem RA) (E : R -> R), s <> t ->
  exec (sdims S) (compute_tendency S t s time Replace) m (OK m1) ->
  (forall eps, exists n, ready S n /\ energy_integral S s n (Some (E eps)) /\
     holds S s n (fmap2 (A:=RA) (fun u w => u + eps * w)%R (fld s m) (fld t m1))) ->
  exists W : R, derivable_pt_lim E 0%R W /\ (0 < W)%R.
Proof. exact C104_viscosity_dissipates_energy_refuted_proof. Qed.
Print Assumptions C104_viscosity_dissipates_energy_refuted.

(** Non-vacuity: for every state of a viscous setup, in any layer count and any thickness, the functions of the theorems exist. *)
Definition P104 : params RA := mkParams (A:=RA) (IZR 1) (IZR 10) (IZR 0) (IZR 2) (IZR 3) (IZR 1) (IZR 1) 1 false false.
Definition S104 : setup RA := mkSetup (mkConfig false false false 8) (mkHex (A:=RA) 4 6 (IZR 1) 3) P104 None.
Example C104_budget_applies (g : rarr -> list Z -> R) : exists m m1 m0 E, ready S104 m /\ (forall ix, mr m (HCell St) ix = g (HCell St) ix /\ mr m (VnEdge St) ix = g (VnEdge St) ix) /\
  exec (sdims S104) (compute_tendency S104 Tend St 0%R Replace) m (OK m1) /\ exec (sdims S104) (compute_tendency (inviscid S104) Tend St 0%R Replace) m (OK m0) /\
  (forall eps, exists n, ready S104 n /\ energy_integral S104 St n (Some (E eps)) /\
     holds S104 St n (fmap2 (A:=RA) (fun u w => u + eps * w)%R (fld St m) (fld Tend m1))).
Proof.
  assert (Ho : setup_ok S104) by ok.
  destruct (ready_any S104 Ho g) as (m & R & Em).
  destruct (tendency_runs S104 Ho Tend St 0%R Replace m ltac:(discriminate) R) as [m1 X1].
  destruct (tendency_runs (inviscid S104) Ho Tend St 0%R Replace m ltac:(discriminate) R) as [m0 X0].
  destruct (energy_value S104 Ho St m (fld Tend m1) R) as [E HE].
  exists m, m1, m0, E. split; [exact R|]. split; [intros; split; now apply Em|]. split; [exact X1|]. split; [exact X0|exact HE].
Qed.
(** The energy does grow in some state of varying thickness. *)
Definition S104r : setup RA := mkSetup (mkConfig false false false 8) (mkHex (A:=RA) 4 6 (IZR 1) 3) (mkParams (A:=RA) (IZR 1) (IZR 10) (IZR 0) (IZR 2) (IZR 0) (IZR 1) (IZR 1) 1 false false) None.
Example C104_grows : exists (m : mem RA) m1 E W, ready S104r m /\ (forall s c k, (1 <= mr m (HCell s) [c; k])%R) /\
  exec (sdims S104r) (compute_tendency S104r Tend St 0%R Replace) m (OK m1) /\
  (forall eps, exists n, ready S104r n /\ energy_integral S104r St n (Some (E eps)) /\
     holds S104r St n (fmap2 (A:=RA) (fun u w => u + eps * w)%R (fld St m) (fld Tend m1))) /\ derivable_pt_lim E 0%R W /\ (0 < W)%R.
Proof.
  assert (Ho : setup_ok S104r) by ok.
  destruct (C104_viscosity_dissipates_energy_refuted S104r Ho) as (m & R & Hq & _ & Q); try reflexivity; try (cbn; lra); try (cbn; lia).
  destruct (tendency_runs S104r Ho Tend St 0%R Replace m ltac:(discriminate) R) as [m1 X1].
  destruct (energy_value S104r Ho St m (fld Tend m1) R) as [E HE].
  destruct (Q Tend St 0%R m1 E ltac:(discriminate) X1 HE) as (W & D & P).
  exists m, m1, E, W. auto 10.
Qed.
