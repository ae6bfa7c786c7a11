(** Fluid at rest stays at rest only if every layer is flat and every diffusing tracer is uniform (C106). *)
From Coq Require Import ZArith Reals List Bool Lia Lra.
From Verif Require Import Arith Arrays Prog Conc Launch Mesh AuxVars Tend Model RSum Spec MeshProof Ready Relate StepVal StepRun StepThms FieldInv ConsThms SteadyThms PropsCons EnergyBudget PropsBudget RestThms.
Import ListNotations.
Open Scope Z_scope.

(** C106.  For a state without motion and with positive thickness, the tendency of a layer is zero if and only if its thickness is the same in every cell and, when tracers diffuse, so is the content of every tracer.  Any viscosity, rotation, number of layers, and mesh of at least 2 by 2 cells. *)
Theorem C106_states_of_rest :
  forall (S : setup RA), setup_ok S -> (0 < (dc (mesh_of_setup S) : R))%R ->
  2 <= nx (mesh_of_setup S) -> 2 <= ny (mesh_of_setup S) ->
  disable_h (par_of S) = false -> disable_vn (par_of S) = false -> hook S = None -> grav (par_of S) <> 0%R ->
  forall (t s : sid) (time : R) (m m1 : mem RA), s <> t -> ready S m ->
  (forall c k, 0 <= c < d_ncells (sdims S) -> 0 <= k < d_nlayers (sdims S) -> (0 < mr m (HCell s) [c; k])%R) ->
  (forall e k, 0 <= e < d_nedges (sdims S) -> 0 <= k < d_nlayers (sdims S) -> mr m (VnEdge s) [e; k] = 0%R) ->
  exec (sdims S) (compute_tendency S t s time Replace) m (OK m1) ->
  forall k, 0 <= k < d_nlayers (sdims S) ->
  ((forall c, 0 <= c < d_ncells (sdims S) -> mr m1 (HCell t) [c; k] = 0%R) /\
   (forall e, 0 <= e < d_nedges (sdims S) -> mr m1 (VnEdge t) [e; k] = 0%R) /\
   (forall l c, 0 <= l < ntracers (par_of S) -> 0 <= c < d_ncells (sdims S) -> mr m1 (TrCell t) [l; c; k] = 0%R) <->
   exists H : R, (forall c, 0 <= c < d_ncells (sdims S) -> mr m (HCell s) [c; k] = H) /\
   (((eddy_diff2 (par_of S) : R) <= 0)%R /\ ((eddy_diff4 (par_of S) : R) <= 0)%R \/
    forall l, 0 <= l < ntracers (par_of S) -> exists C : R, forall c, 0 <= c < d_ncells (sdims S) -> mr m (TrCell s) [l; c; k] = C)).
Proof. exact C106_states_of_rest_proof. Qed.
Print Assumptions C106_states_of_rest.

(** Non-vacuity: in the setup of C104 a bump in one cell, in fluid at rest, does start to move ... *)
Example C106_bump_moves : exists (m : mem RA) m1, ready S104 m /\ (forall c k, mr m (HCell St) [c; k] = if c =? 5 then 3%R else 2%R) /\ (forall e k, mr m (VnEdge St) [e; k] = 0%R) /\
  exec (sdims S104) (compute_tendency S104 Tend St 0%R Replace) m (OK m1) /\
  ~ ((forall c, 0 <= c < d_ncells (sdims S104) -> mr m1 (HCell Tend) [c; 0] = 0%R) /\ (forall e, 0 <= e < d_nedges (sdims S104) -> mr m1 (VnEdge Tend) [e; 0] = 0%R) /\
     (forall l c, 0 <= l < ntracers (par_of S104) -> 0 <= c < d_ncells (sdims S104) -> mr m1 (TrCell Tend) [l; c; 0] = 0%R)).
Proof.
  assert (Ho : setup_ok S104) by ok.
  destruct (ready_any S104 Ho (fun a ix => match a, ix with HCell _, c :: _ => if c =? 5 then 3%R else 2%R | _, _ => 0%R end)) as (m & R & Em).
  destruct (tendency_runs S104 Ho Tend St 0%R Replace m ltac:(discriminate) R) as [m1 X1].
  exists m, m1. split; [exact R|]. split; [intros; now rewrite Em|]. split; [intros; now rewrite Em|]. split; [exact X1|]. intros Z0.
  destruct (proj1 (C106_states_of_rest S104 Ho ltac:(cbn; lra) ltac:(cbn; lia) ltac:(cbn; lia) eq_refl eq_refl eq_refl ltac:(cbn; lra) Tend St 0%R m m1 ltac:(discriminate) R
    ltac:(intros; rewrite Em by reflexivity; destruct (c =? 5); lra) ltac:(intros; now rewrite Em) X1 0 ltac:(cbn; lia)) Z0) as (H & HH & _).
  pose proof (HH 5 ltac:(cbn; lia)) as A. pose proof (HH 4 ltac:(cbn; lia)) as B. rewrite Em in A, B by reflexivity. cbn in A, B. lra.
Qed.
(** ... and a flat layer with a uniform tracer does not. *)
Example C106_flat_rests : exists (m : mem RA) m1, ready S104 m /\ exec (sdims S104) (compute_tendency S104 Tend St 0%R Replace) m (OK m1) /\
  (forall c k, mr m (HCell St) [c; k] = 2%R) /\ (forall l c k, mr m (TrCell St) [l; c; k] = 7%R) /\
  (forall e, 0 <= e < d_nedges (sdims S104) -> mr m1 (VnEdge Tend) [e; 0] = 0%R) /\ (forall c, 0 <= c < d_ncells (sdims S104) -> mr m1 (TrCell Tend) [0; c; 0] = 0%R).
Proof.
  assert (Ho : setup_ok S104) by ok.
  destruct (ready_any S104 Ho (fun a ix => match a with HCell _ => 2%R | TrCell _ => 7%R | _ => 0%R end)) as (m & R & Em).
  destruct (tendency_runs S104 Ho Tend St 0%R Replace m ltac:(discriminate) R) as [m1 X1].
  exists m, m1. split; [exact R|]. split; [exact X1|]. split; [intros; now rewrite Em|]. split; [intros; now rewrite Em|].
  destruct (proj2 (C106_states_of_rest S104 Ho ltac:(cbn; lra) ltac:(cbn; lia) ltac:(cbn; lia) eq_refl eq_refl eq_refl ltac:(cbn; lra) Tend St 0%R m m1 ltac:(discriminate) R
    ltac:(intros; rewrite Em by reflexivity; lra) ltac:(intros; now rewrite Em) X1 0 ltac:(cbn; lia))) as (_ & Zv & Zt).
  - exists 2%R. split; [intros; now rewrite Em|]. right. intros l Hl. exists 7%R. intros. now rewrite Em.
  - split; [exact Zv|]. intros c Hc. apply Zt; [cbn; lia|exact Hc].
Qed.

(** The tracer alone, for any positive thickness: its tendency vanishes if and only if its concentration, content per thickness, is uniform.  No other equation need be on, and any forcing may be. *)
Theorem C106_only_mixed_tracers_rest :
  forall (S : setup RA), setup_ok S -> (0 < (dc (mesh_of_setup S) : R))%R ->
  2 <= nx (mesh_of_setup S) -> 2 <= ny (mesh_of_setup S) ->
  (0 < (eddy_diff2 (par_of S) : R) \/ 0 < (eddy_diff4 (par_of S) : R))%R ->
  forall (t s : sid) (time : R) (m m1 : mem RA) (l k : Z), s <> t -> ready S m -> 0 <= l < ntracers (par_of S) -> 0 <= k < d_nlayers (sdims S) ->
  (forall c, 0 <= c < d_ncells (sdims S) -> (0 < mr m (HCell s) [c; k])%R) ->
  (forall e, 0 <= e < d_nedges (sdims S) -> mr m (VnEdge s) [e; k] = 0%R) ->
  exec (sdims S) (compute_tendency S t s time Replace) m (OK m1) ->
  ((forall c, 0 <= c < d_ncells (sdims S) -> mr m1 (TrCell t) [l; c; k] = 0%R) <->
   exists C : R, forall c, 0 <= c < d_ncells (sdims S) -> mr m (TrCell s) [l; c; k] = (C * mr m (HCell s) [c; k])%R).
Proof. exact C106_only_mixed_tracers_rest_proof. Qed.
Print Assumptions C106_only_mixed_tracers_rest.

(** Non-vacuity: a uniform content over a bump is not mixed, and its tendency is not zero. *)
Example C106_unmixed : exists (m : mem RA) m1, ready S104 m /\ (forall c k, mr m (HCell St) [c; k] = if c =? 5 then 3%R else 2%R) /\ (forall l c k, mr m (TrCell St) [l; c; k] = 7%R) /\
  exec (sdims S104) (compute_tendency S104 Tend St 0%R Replace) m (OK m1) /\ ~ (forall c, 0 <= c < d_ncells (sdims S104) -> mr m1 (TrCell Tend) [0; c; 0] = 0%R).
Proof.
  assert (Ho : setup_ok S104) by ok.
  destruct (ready_any S104 Ho (fun a ix => match a, ix with HCell _, c :: _ => if c =? 5 then 3%R else 2%R | TrCell _, _ => 7%R | _, _ => 0%R end)) as (m & R & Em).
  destruct (tendency_runs S104 Ho Tend St 0%R Replace m ltac:(discriminate) R) as [m1 X1].
  exists m, m1. split; [exact R|]. split; [intros; now rewrite Em|]. split; [intros; now rewrite Em|]. split; [exact X1|]. intros Z0.
  destruct (proj1 (C106_only_mixed_tracers_rest S104 Ho ltac:(cbn; lra) ltac:(cbn; lia) ltac:(cbn; lia) ltac:(left; cbn; lra) Tend St 0%R m m1 0 0 ltac:(discriminate) R ltac:(cbn; lia) ltac:(cbn; lia)
    ltac:(intros; rewrite Em by reflexivity; destruct (c =? 5); lra) ltac:(intros; now rewrite Em) X1) Z0) as [C HC].
  pose proof (HC 5 ltac:(cbn; lia)) as A. pose proof (HC 4 ltac:(cbn; lia)) as B. rewrite !Em in A, B by reflexivity. cbn in A, B. lra.
Qed.
