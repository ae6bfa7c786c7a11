(** Of all states with the same mass, flat rest has the least energy (C108). *)
From Coq Require Import ZArith Reals List Bool Lia Lra.
From Verif Require Import Arith Arrays Prog Conc Launch Mesh AuxVars Tend Model RSum Spec MeshProof Ready Relate StepVal StepRun StepThms Diag FieldInv ConsThms SteadyThms PropsCons EnergyBudget PropsBudget LeastEnergy.
Import ListNotations.
Open Scope Z_scope.

(** C108.  [E] and [M] are results of energy_integral and mass_integral for the same state.  [Emin] depends on the state only through [M].  The last clause bounds every deviation of the thickness by the excess of energy. *)
Theorem C108_flat_rest_has_least_energy :
  forall (S : setup RA), setup_ok S -> (0 < (dc (mesh_of_setup S) : R))%R -> (0 < (grav (par_of S) : R))%R -> 0 < d_nlayers (sdims S) ->
  forall (s : sid) (m : mem RA) (E M : R), ready S m ->
  (forall c k, 0 <= c < d_ncells (sdims S) -> 0 <= k < d_nlayers (sdims S) -> (0 < mr m (HCell s) [c; k])%R) ->
  energy_integral S s m (Some E) -> mass_integral S s m (Some M) ->
  let area := rsum (d_ncells (sdims S)) (fun c => mr m AreaCell [c] : R) in
  let mean := (M / (IZR (d_nlayers (sdims S)) * area))%R in
  let Emin := (grav (par_of S) * mean * M / 2)%R in
  (Emin <= E)%R /\
  (E = Emin <-> forall k, 0 <= k < d_nlayers (sdims S) ->
     (forall c, 0 <= c < d_ncells (sdims S) -> mr m (HCell s) [c; k] = mean) /\ (forall e, 0 <= e < d_nedges (sdims S) -> mr m (VnEdge s) [e; k] = 0%R)) /\
  (forall c k, 0 <= c < d_ncells (sdims S) -> 0 <= k < d_nlayers (sdims S) ->
     (grav (par_of S) * mr m AreaCell [c] * (mr m (HCell s) [c; k] - mean) ^ 2 <= 2 * (E - Emin))%R).
Proof. exact C108_flat_rest_has_least_energy_proof. Qed.
Print Assumptions C108_flat_rest_has_least_energy.

(** Non-vacuity: a flat layer at rest with one moving edge has more than the least energy. *)
Example C108_moving_has_more : exists (m : mem RA) (E M : R), ready S104 m /\ (forall c k, mr m (HCell St) [c; k] = 2%R) /\ (forall e k, mr m (VnEdge St) [e; k] = if e =? 0 then 1%R else 0%R) /\
  energy_integral S104 St m (Some E) /\ mass_integral S104 St m (Some M) /\
  (10 * (M / (8 * rsum 24 (fun c => mr m AreaCell [c]))) * M / 2 < E)%R.
Proof.
  assert (Ho : setup_ok S104) by ok.
  destruct (ready_any S104 Ho (fun a ix => match a, ix with HCell _, _ => 2%R | VnEdge _, e :: _ => if e =? 0 then 1%R else 0%R | _, _ => 0%R end)) as (m & R & Em).
  destruct (reduces_ex (sdims S104) m (column_energy S104 St) (zseq (d_ncells (sdims S104)))) as [rE QE]. change (energy_integral S104 St m rE) in QE. pose proof (energy_sum S104 Ho m R St rE QE) as XE. destruct rE as [E|]; [clear XE|discriminate XE].
  destruct (reduces_ex (sdims S104) m (column_mass St) (zseq (d_ncells (sdims S104)))) as [rM QM]. change (mass_integral S104 St m rM) in QM. pose proof (mass_sum S104 Ho m R St rM QM) as XM. destruct rM as [M|]; [clear XM|discriminate XM].
  destruct (C108_flat_rest_has_least_energy S104 Ho ltac:(cbn; lra) ltac:(cbn; lra) ltac:(cbn; lia) St m E M R ltac:(intros; rewrite Em by reflexivity; lra) QE QM) as (L & Q & _).
  exists m, E, M. split; [exact R|]. split; [intros; now rewrite Em|]. split; [intros; now rewrite Em|]. split; [exact QE|]. split; [exact QM|].
  destruct (Rle_lt_or_eq_dec _ _ L) as [P|P]; [exact P|exfalso]. destruct (proj1 Q (eq_sym P) 0 ltac:(cbn; lia)) as [_ Z0]. specialize (Z0 0 ltac:(cbn; lia)). rewrite Em in Z0 by reflexivity. cbn in Z0. lra.
Qed.
