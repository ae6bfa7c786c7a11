(** The steady states of the viscous model in layers of uniform thickness (C107). *)
From Coq Require Import ZArith Reals List Bool Lia Lra.
From Verif Require Import Arith Arrays Prog Conc Launch Mesh AuxVars Tend Model RSum Spec MeshProof Ready Relate StepVal StepRun StepThms FieldInv ConsThms SteadyThms PropsCons EnergyBudget PropsBudget Hex MeshMem ViscSteady.
Import ListNotations.
Open Scope Z_scope.

(** C107.  With positive viscosity or hyperviscosity and a uniform positive thickness in each layer, the tendencies of thickness and velocity vanish if and only if the flow of every layer is uniform and, with rotation, zero. *)
Theorem C107_viscous_steady_states :
  forall (S : setup RA), setup_ok S -> (0 < (dc (mesh_of_setup S) : R))%R ->
  2 <= nx (mesh_of_setup S) -> Z.even (ny (mesh_of_setup S)) = true ->
  disable_h (par_of S) = false -> disable_vn (par_of S) = false -> hook S = None ->
  ksimd (cfg_of S) = false \/ vector_length (cfg_of S) = 1 \/ ((visc_del4 (par_of S) : R) <= 0)%R ->
  (0 < (visc_del2 (par_of S) : R) \/ 0 < (visc_del4 (par_of S) : R))%R ->
  forall (time : R) (H : Z -> R) (m m1 : mem RA), ready S m ->
  (forall c k, 0 <= c < d_ncells (sdims S) -> 0 <= k < d_nlayers (sdims S) -> (0 < H k)%R /\ mr m (HCell St) [c; k] = H k) ->
  exec (sdims S) (compute_tendency S Tend St time Replace) m (OK m1) ->
  ((forall k, 0 <= k < d_nlayers (sdims S) -> (forall c, 0 <= c < d_ncells (sdims S) -> mr m1 (HCell Tend) [c; k] = 0%R) /\ (forall e, 0 <= e < d_nedges (sdims S) -> mr m1 (VnEdge Tend) [e; k] = 0%R)) <->
   (forall k, 0 <= k < d_nlayers (sdims S) -> exists U V : R, (f0 (par_of S) = 0%R \/ U = 0%R /\ V = 0%R) /\
      forall e, 0 <= e < d_nedges (sdims S) -> mr m (VnEdge St) [e; k] = (U * cos (mr m AngleEdge [e]) + V * sin (mr m AngleEdge [e]))%R)).
Proof. exact C107_viscous_steady_states_proof. Qed.
Print Assumptions C107_viscous_steady_states.

(** Non-vacuity: without rotation the uniform flow (3, 0) is steady, and a flow on one edge only is not. *)
Definition S107 : setup RA := mkSetup (mkConfig false false false 8) (mkHex (A:=RA) 4 6 (IZR 1) 3) (mkParams (A:=RA) (IZR 0) (IZR 10) (IZR 0) (IZR 2) (IZR 3) (IZR 1) (IZR 1) 1 false false) None.
Example C107_uniform_is_steady : exists (m : mem RA) m1, ready S107 m /\ (forall c k, mr m (HCell St) [c; k] = 2%R) /\ mr m (VnEdge St) [0; 0] = 3%R /\
  exec (sdims S107) (compute_tendency S107 Tend St 0%R Replace) m (OK m1) /\ (forall e, 0 <= e < d_nedges (sdims S107) -> mr m1 (VnEdge Tend) [e; 0] = 0%R).
Proof.
  assert (Ho : setup_ok S107) by ok.
  destruct (ready_any S107 Ho (fun a ix => match a, ix with HCell _, _ => 2%R | VnEdge _, e :: _ => (3 * cos (hang (A:=RA) e))%R | _, _ => 0%R end)) as (m & R & Em).
  destruct (tendency_runs S107 Ho Tend St 0%R Replace m ltac:(discriminate) R) as [m1 X1].
  exists m, m1. split; [exact R|]. split; [intros; now rewrite Em|]. split; [|split; [exact X1|]].
  - rewrite Em by reflexivity. unfold hang. change (0 mod 3 =? 0) with true. cbn [fofZ RA]. rewrite cos_0. lra.
  - apply (proj2 (C107_viscous_steady_states S107 Ho ltac:(cbn; lra) ltac:(cbn; lia) eq_refl eq_refl eq_refl eq_refl (or_introl eq_refl) ltac:(left; cbn; lra) 0%R (fun _ => 2%R) m m1 R
      ltac:(intros; split; [lra|now rewrite Em]) X1) ltac:(intros k Hk; exists 3%R, 0%R; split; [now left|]; intros e He; rewrite Em by reflexivity; rewrite (hm_ang _ _ _ (ready_hex S107 Ho m R)) by exact He; cbn [F RA]; ring) 0 ltac:(cbn; lia)).
Qed.
Example C107_edge_is_not_steady : exists (m : mem RA) m1, ready S107 m /\ (forall c k, mr m (HCell St) [c; k] = 2%R) /\ (forall e k, mr m (VnEdge St) [e; k] = if e =? 0 then 1%R else 0%R) /\
  exec (sdims S107) (compute_tendency S107 Tend St 0%R Replace) m (OK m1) /\
  ~ (forall k, 0 <= k < d_nlayers (sdims S107) -> (forall c, 0 <= c < d_ncells (sdims S107) -> mr m1 (HCell Tend) [c; k] = 0%R) /\ (forall e, 0 <= e < d_nedges (sdims S107) -> mr m1 (VnEdge Tend) [e; k] = 0%R)).
Proof.
  assert (Ho : setup_ok S107) by ok.
  destruct (ready_any S107 Ho (fun a ix => match a, ix with HCell _, _ => 2%R | VnEdge _, e :: _ => if e =? 0 then 1%R else 0%R | _, _ => 0%R end)) as (m & R & Em).
  destruct (tendency_runs S107 Ho Tend St 0%R Replace m ltac:(discriminate) R) as [m1 X1].
  exists m, m1. split; [exact R|]. split; [intros; now rewrite Em|]. split; [intros; now rewrite Em|]. split; [exact X1|]. intros Z0.
  destruct (proj1 (C107_viscous_steady_states S107 Ho ltac:(cbn; lra) ltac:(cbn; lia) eq_refl eq_refl eq_refl eq_refl (or_introl eq_refl) ltac:(left; cbn; lra) 0%R (fun _ => 2%R) m m1 R
      ltac:(intros; split; [lra|now rewrite Em]) X1) Z0 0 ltac:(cbn; lia)) as (U & V & _ & HU).
  pose proof (HU 0 ltac:(cbn; lia)) as A. pose proof (HU 3 ltac:(cbn; lia)) as B. rewrite !Em in A, B by reflexivity.
  rewrite (hm_ang _ _ _ (ready_hex S107 Ho m R)) in A, B by (cbn; lia). unfold hang in A, B. cbn [Z.eqb Pos.eqb] in A, B. change (3 mod 3 =? 0) with true in B. change (0 mod 3 =? 0) with true in A. cbn [fofZ RA] in A, B. rewrite cos_0, sin_0 in A, B. lra.
Qed.
