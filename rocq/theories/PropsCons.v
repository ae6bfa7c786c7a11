(** Conservation, steady states and dissipation.  Every theorem is about executions of the model of the code over the
    exact reals.  Views of the mesh ([AreaCell], [DcEdge], ...) are read in a memory [m] as the constructor left them;
    [rsum n f] is f 0 + ... + f (n-1).  Quotients by zero are not excluded in the statements where they are irrelevant:
    they then hold for whatever value the quotient is given (see C36 for when no such quotient occurs). *)
From Coq Require Import ZArith Reals List Bool Lia Lra.
From Verif Require Import Arith Arrays Prog Conc Launch Mesh AuxVars Tend Model RSum Spec MeshProof Ready Relate StepVal StepRun StepThms FieldInv ConsThms.
Import ListNotations.
Open Scope Z_scope.

(** The setup used in the examples below: 4 x 6 cells, 3 layers padded to 8, every term enabled, one tracer. *)
Definition P24 : params RA := mkParams (A:=RA) (IZR 1) (IZR 10) (IZR 0) (IZR 1) (IZR 1) (IZR 1) (IZR 1) 1 false false.
Definition S24 : setup RA := mkSetup (mkConfig false false false 8) (mkHex (A:=RA) 4 6 (IZR 1) 3) P24 None.
Ltac ok := repeat split; unfold INT_MAX, zceil, vector_length; cbn; try lia; try discriminate; try lra.
Example ok24 : setup_ok S24 /\ (0 < (dc (mesh_of_setup S24) : R))%R /\ 2 <= nx (mesh_of_setup S24) /\ 2 <= ny (mesh_of_setup S24) /\
  disable_h (par_of S24) = false /\ disable_vn (par_of S24) = false /\ hook S24 = None.
Proof. ok. Qed.
(** Memories with any contents of the prognostic variables exist. *)
Example any24 (g : rarr -> list Z -> R) : exists m, ready S24 m /\
  forall s ix, mr m (HCell s) ix = g (HCell s) ix /\ mr m (VnEdge s) ix = g (VnEdge s) ix /\ mr m (TrCell s) ix = g (TrCell s) ix.
Proof.
  destruct (ready_any S24 (proj1 ok24) g) as (m & R & E). exists m. split; [exact R|]. intros. repeat split; now apply E.
Qed.

(** C24.  Replace mode without forcing: the sum is 0. *)
Theorem C24_tendency_conserves_mass :
  forall (S : setup RA), setup_ok S -> (0 < (dc (mesh_of_setup S) : R))%R ->
  2 <= nx (mesh_of_setup S) -> 2 <= ny (mesh_of_setup S) ->
  disable_h (par_of S) = false ->
  forall (t s : sid) (time : R) (md : add_mode) (m : mem RA), s <> t -> ready S m ->
  always (sdims S) (compute_tendency S t s time md) m (fun m' => forall k, 0 <= k < d_nlayers (sdims S) ->
    let total (f : Z -> R) := rsum (d_ncells (sdims S)) (fun c => (mr m AreaCell [c] : R) * f c)%R in
    total (fun c => mr m' (HCell t) [c; k]) =
     (match md with Replace => 0 | Increment => total (fun c => mr m (HCell t) [c; k]) end +
      match hook S with None => 0 | Some f => total (fun c => force_h f (mr m XCell [c]) (mr m YCell [c]) time) end)%R).
Proof. exact C24_tendency_conserves_mass_proof. Qed.
Print Assumptions C24_tendency_conserves_mass.

(** The hypotheses hold for [S24]; the theorem applies to every contents of the state. *)
Example C24_applies : forall (g : rarr -> list Z -> R), exists m m', ready S24 m /\ (forall ix, mr m (HCell St) ix = g (HCell St) ix /\ mr m (VnEdge St) ix = g (VnEdge St) ix) /\
  exec (sdims S24) (compute_tendency S24 Tend St 0%R Replace) m (OK m') /\
  rsum 24 (fun c => (mr m AreaCell [c] : R) * mr m' (HCell Tend) [c; 0%Z])%R = 0%R.
Proof.
  intros g. destruct ok24 as (Ho & Hd & H1 & H2 & Hh & _). destruct (any24 g) as (m & R & E).
  pose proof (C24_tendency_conserves_mass S24 Ho Hd H1 H2 Hh Tend St 0%R Replace m ltac:(discriminate) R) as [C1 [m' X]].
  exists m, m'. split; [exact R|]. split; [intros ix; split; apply E|]. split; [exact X|].
  destruct (C1 _ X) as (M & EM & Q). injection EM as <-. specialize (Q 0 ltac:(cbn; unfold zceil, vector_length; cbn; lia)). cbv zeta in Q.
  rewrite Rplus_0_r in Q. exact Q.
Qed.

(** C25, over any number of steps of either stepper, for any times and time steps. *)
Theorem C25_mass_conserved :
  forall (S : setup RA), setup_ok S -> (0 < (dc (mesh_of_setup S) : R))%R ->
  2 <= nx (mesh_of_setup S) -> 2 <= ny (mesh_of_setup S) ->
  disable_h (par_of S) = false -> hook S = None ->
  forall (steps : list (R * R)) (m : mem RA), ready S m ->
  let conserved (m' : mem RA) := forall r r', mass_integral S St m r -> mass_integral S St m' r' -> r' = r /\ exists x, r = Some x in
  always (sdims S) (rk4_run S steps) m conserved /\ forall n, always (sdims S) (lsrk_run S n steps) m conserved.
Proof. exact C25_mass_conserved_proof. Qed.
Print Assumptions C25_mass_conserved.

(** [ok24] and [any24] give the hypotheses; the integral always has a value. *)
Example C25_has_value : forall m, exists r, mass_integral S24 St m r.
Proof. intros m. eexists. apply red_leaf. reflexivity. Qed.

(** C26. *)
Theorem C26_tracer_content_conserved :
  forall (S : setup RA), setup_ok S -> (0 < (dc (mesh_of_setup S) : R))%R ->
  2 <= nx (mesh_of_setup S) -> 2 <= ny (mesh_of_setup S) ->
  forall (steps : list (R * R)) (m : mem RA), ready S m ->
  let conserved (m' : mem RA) := forall l k, 0 <= l < ntracers (par_of S) -> 0 <= k < d_nlayers (sdims S) ->
    rsum (d_ncells (sdims S)) (fun c => (mr m AreaCell [c] : R) * mr m' (TrCell St) [l; c; k])%R =
    rsum (d_ncells (sdims S)) (fun c => (mr m AreaCell [c] : R) * mr m (TrCell St) [l; c; k])%R in
  always (sdims S) (rk4_run S steps) m conserved /\ forall n, always (sdims S) (lsrk_run S n steps) m conserved.
Proof. exact C26_tracer_content_conserved_proof. Qed.
Print Assumptions C26_tracer_content_conserved.

Example C26_hyps : setup_ok S24 /\ 0 <= 0 < ntracers (par_of S24) /\ tracer_diff_enabled (par_of S24) = true /\ tracer_hyperdiff_enabled (par_of S24) = true.
Proof.
  split; [apply ok24|]. split; [cbn; lia|]. unfold tracer_diff_enabled, tracer_hyperdiff_enabled. cbn.
  destruct (Rlt_dec 0 1); [auto|lra].
Qed.

(** C27, for every mesh, including those one cell wide.  There is always a result. *)
Theorem C27_circulation_is_constant :
  forall (S : setup RA), setup_ok S -> (0 < (dc (mesh_of_setup S) : R))%R ->
  forall (s : sid) (m : mem RA), ready S m -> (exists r, circulation_integral S s m r) /\
  forall r, circulation_integral S s m r ->
  r = Some (IZR (d_nlayers (sdims S)) * f0 (par_of S) * (period_x (mesh_of_setup S) * period_y (mesh_of_setup S)))%R.
Proof. exact C27_circulation_is_constant_proof. Qed.
Print Assumptions C27_circulation_is_constant.

Example C27_value (g : rarr -> list Z -> R) : exists m, ready S24 m /\ (forall ix, mr m (VnEdge St) ix = g (VnEdge St) ix) /\
  circulation_integral S24 St m (Some (8 * 1 * (4 * 1 * (6 * 1 * sqrt 3 / 2)))%R).
Proof.
  destruct (any24 g) as (m & R & E). exists m. split; [exact R|]. split; [intros; apply E|].
  destruct ok24 as (Ho & Hd & _). destruct (C27_circulation_is_constant S24 Ho Hd St m R) as [[r Q] H]. rewrite (H r Q) in Q. exact Q.
Qed.

(** C28.  E eps is the energy of the state y + eps * k, where k is the tendency computed from y; its derivative at eps = 0 is 0. *)
Theorem C28_inviscid_energy_conservation :
  forall (S : setup RA), setup_ok S -> (0 < (dc (mesh_of_setup S) : R))%R ->
  2 <= nx (mesh_of_setup S) -> 2 <= ny (mesh_of_setup S) ->
  disable_h (par_of S) = false -> disable_vn (par_of S) = false -> hook S = None ->
  ((visc_del2 (par_of S) : R) <= 0)%R -> ((visc_del4 (par_of S) : R) <= 0)%R ->
  forall (t s : sid) (time : R) (m m' : mem RA) (E : R -> R), s <> t -> ready S m ->
  exec (sdims S) (compute_tendency S t s time Replace) m (OK m') ->
  (forall eps, exists n, ready S n /\ energy_integral S s n (Some (E eps)) /\
     holds S s n (fmap2 (A:=RA) (fun u w => u + eps * w)%R (fld s m) (fld t m'))) ->
  derivable_pt_lim E 0%R 0%R.
Proof. exact C28_inviscid_energy_conservation_proof. Qed.
Print Assumptions C28_inviscid_energy_conservation.

Definition P28 : params RA := mkParams (A:=RA) (IZR 1) (IZR 10) (IZR 0) (IZR 0) (IZR 0) (IZR 1) (IZR 1) 1 false false.
Definition S28 : setup RA := mkSetup (mkConfig false false false 8) (mkHex (A:=RA) 4 6 (IZR 1) 3) P28 None.
(** Functions E as in C28 exist for every state. *)
Example C28_applies (g : rarr -> list Z -> R) : exists m m' E, ready S28 m /\ (forall ix, mr m (HCell St) ix = g (HCell St) ix /\ mr m (VnEdge St) ix = g (VnEdge St) ix) /\
  exec (sdims S28) (compute_tendency S28 Tend St 0%R Replace) m (OK m') /\
  (forall eps, exists n, ready S28 n /\ energy_integral S28 St n (Some (E eps)) /\
     holds S28 St n (fmap2 (A:=RA) (fun u w => u + eps * w)%R (fld St m) (fld Tend m'))) /\
  derivable_pt_lim E 0%R 0%R.
Proof.
  assert (Ho : setup_ok S28) by ok.
  destruct (ready_any S28 Ho g) as (m & R & Em).
  destruct (tendency_runs S28 Ho Tend St 0%R Replace m ltac:(discriminate) R) as [m' X].
  destruct (energy_value S28 Ho St m (fld Tend m') R) as [E HE].
  exists m, m', E. split; [exact R|]. split; [intros; split; now apply Em|]. split; [exact X|]. split; [exact HE|].
  apply (C28_inviscid_energy_conservation S28 Ho) with (t := Tend) (s := St) (time := 0%R) (m := m) (m' := m'); auto; try discriminate; cbn; try lia; try lra.
Qed.

(** C29.  The potential vorticity flux is what is left of the velocity tendency of the inviscid model when the gradients of kinetic energy and of g h are taken away; the mean thickness, the kinetic energy and the velocity are read from the views of the code. *)
Theorem C29_pv_flux_does_no_work :
  forall (S : setup RA), setup_ok S -> (0 < (dc (mesh_of_setup S) : R))%R ->
  disable_vn (par_of S) = false -> hook S = None ->
  ((visc_del2 (par_of S) : R) <= 0)%R -> ((visc_del4 (par_of S) : R) <= 0)%R ->
  forall (t s : sid) (time : R) (m : mem RA), s <> t -> ready S m ->
  always (sdims S) (compute_tendency S t s time Replace) m (fun m' => forall k, 0 <= k < d_nlayers (sdims S) ->
    rsum (d_nedges (sdims S)) (fun e =>
      let pv_flux := (mr m' (VnEdge t) [e; k] + grad m (fun c => mr m' KeCell [c; k]) e + grav (par_of S) * grad m (fun c => mr m (HCell s) [c; k]) e)%R in
      (mr m DcEdge [e] : R) * mr m DvEdge [e] * (mr m' FluxHEdge [e; k] * mr m (VnEdge s) [e; k]) * pv_flux)%R = 0%R).
Proof. exact C29_pv_flux_does_no_work_proof. Qed.
Print Assumptions C29_pv_flux_does_no_work.

Example C29_hyps : setup_ok S28 /\ disable_vn (par_of S28) = false /\ hook S28 = None /\
  ((visc_del2 (par_of S28) : R) <= 0)%R /\ ((visc_del4 (par_of S28) : R) <= 0)%R.
Proof. ok. Qed.

