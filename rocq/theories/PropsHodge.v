(** The flows that viscosity leaves alone are the uniform ones (C105). *)
From Coq Require Import ZArith Reals List Bool Lia Lra.
From Verif Require Import Arith Arrays Prog Conc Launch Mesh AuxVars Tend Model RSum Spec MeshProof Ready Relate StepVal StepRun StepThms FieldInv ConsThms SteadyThms PropsCons EnergyBudget PropsBudget Hex MeshMem HodgeThms.
Import ListNotations.
Open Scope Z_scope.

(** C105.  The divergence and the vorticity that a computation of the tendency leaves in the auxiliary views are zero throughout a layer if and only if the velocity of the layer is that of a uniform flow [(U, V)]. *)
Theorem C105_irrotational_flow_is_uniform :
  forall (S : setup RA), setup_ok S -> (0 < (dc (mesh_of_setup S) : R))%R ->
  2 <= nx (mesh_of_setup S) -> Z.even (ny (mesh_of_setup S)) = true ->
  forall (t s : sid) (time : R) (md : add_mode) (m m1 : mem RA), s <> t -> ready S m ->
  exec (sdims S) (compute_tendency S t s time md) m (OK m1) ->
  forall k, 0 <= k < d_nlayers (sdims S) ->
  ((forall c, 0 <= c < d_ncells (sdims S) -> mr m1 VelDivCell [c; k] = 0%R) /\ (forall v, 0 <= v < d_nvertices (sdims S) -> mr m1 RvortVertex [v; k] = 0%R) <->
   exists U V : R, forall e, 0 <= e < d_nedges (sdims S) -> mr m (VnEdge s) [e; k] = (U * cos (mr m AngleEdge [e]) + V * sin (mr m AngleEdge [e]))%R).
Proof. exact C105_irrotational_flow_is_uniform_proof. Qed.
Print Assumptions C105_irrotational_flow_is_uniform.

(** [E eps] is the energy of the state y + eps * k, as in C28 and C104. *)
Theorem C105_viscosity_damps_all_other_flow :
  forall (S : setup RA), setup_ok S -> (0 < (dc (mesh_of_setup S) : R))%R ->
  2 <= nx (mesh_of_setup S) -> Z.even (ny (mesh_of_setup S)) = true ->
  disable_h (par_of S) = false -> disable_vn (par_of S) = false -> hook S = None ->
  ksimd (cfg_of S) = false \/ vector_length (cfg_of S) = 1 \/ ((visc_del4 (par_of S) : R) <= 0)%R ->
  (0 < (visc_del2 (par_of S) : R) \/ 0 < (visc_del4 (par_of S) : R))%R ->
  forall (t s : sid) (time : R) (m m1 : mem RA) (E : R -> R) (H : Z -> R), s <> t -> ready S m ->
  (forall c k, 0 <= c < d_ncells (sdims S) -> 0 <= k < d_nlayers (sdims S) -> (0 < H k)%R /\ mr m (HCell s) [c; k] = H k) ->
  exec (sdims S) (compute_tendency S t s time Replace) m (OK m1) ->
  (forall eps, exists n, ready S n /\ energy_integral S s n (Some (E eps)) /\
     holds S s n (fmap2 (A:=RA) (fun u w => u + eps * w)%R (fld s m) (fld t m1))) ->
  exists W : R, derivable_pt_lim E 0%R W /\ (W <= 0)%R /\
  (W = 0%R <-> forall k, 0 <= k < d_nlayers (sdims S) -> exists U V : R, forall e, 0 <= e < d_nedges (sdims S) -> mr m (VnEdge s) [e; k] = (U * cos (mr m AngleEdge [e]) + V * sin (mr m AngleEdge [e]))%R).
Proof. exact C105_viscosity_damps_all_other_flow_proof. Qed.
Print Assumptions C105_viscosity_damps_all_other_flow.

(** Non-vacuity: a flow on one edge only, of thickness 2, in the setup of C104; its energy decreases. *)
Example C105_applies : exists (m : mem RA) m1 E W, ready S104 m /\ (forall c k, mr m (HCell St) [c; k] = 2%R) /\ (forall e k, mr m (VnEdge St) [e; k] = if e =? 0 then 1%R else 0%R) /\
  exec (sdims S104) (compute_tendency S104 Tend St 0%R Replace) m (OK m1) /\
  (forall eps, exists n, ready S104 n /\ energy_integral S104 St n (Some (E eps)) /\
     holds S104 St n (fmap2 (A:=RA) (fun u w => u + eps * w)%R (fld St m) (fld Tend m1))) /\ derivable_pt_lim E 0%R W /\ (W < 0)%R.
Proof.
  assert (Ho : setup_ok S104) by ok.
  destruct (ready_any S104 Ho (fun a ix => match a, ix with HCell _, _ => 2%R | VnEdge _, e :: _ => if e =? 0 then 1%R else 0%R | _, _ => 0%R end)) as (m & R & Em).
  destruct (tendency_runs S104 Ho Tend St 0%R Replace m ltac:(discriminate) R) as [m1 X1].
  destruct (energy_value S104 Ho St m (fld Tend m1) R) as [E HE].
  destruct (C105_viscosity_damps_all_other_flow S104 Ho ltac:(cbn; lra) ltac:(cbn; lia) eq_refl eq_refl eq_refl eq_refl (or_introl eq_refl) ltac:(left; cbn; lra) Tend St 0%R m m1 E (fun _ => 2%R) ltac:(discriminate) R) as (W & D & Le & Z0); [|exact X1|exact HE|].
  { intros c k _ _. split; [lra|]. now rewrite Em. }
  exists m, m1, E, W. split; [exact R|]. split; [intros; now rewrite Em|]. split; [intros; now rewrite Em|]. split; [exact X1|]. split; [exact HE|]. split; [exact D|].
  destruct (Rle_lt_or_eq_dec _ _ Le) as [L|Q]; [exact L|exfalso]. destruct (proj1 Z0 Q 0 ltac:(cbn; lia)) as (U & V & HU).
  pose proof (HU 0 ltac:(cbn; lia)) as A. pose proof (HU 3 ltac:(cbn; lia)) as B. rewrite !Em in A, B by reflexivity.
  rewrite (hm_ang _ _ _ (ready_hex S104 Ho m R)) in A, B by (cbn; lia). unfold hang in A, B. cbn [Z.eqb Pos.eqb] in A, B. change (3 mod 3 =? 0) with true in B. change (0 mod 3 =? 0) with true in A. cbn [fofZ RA] in A, B. rewrite cos_0, sin_0 in A, B. lra.
Qed.
