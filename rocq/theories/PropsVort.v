(** Vorticity and potential vorticity (C66). *)
From Coq Require Import ZArith Reals List Bool Lia Lra.
From Verif Require Import Arith Arrays Prog Conc Launch Mesh AuxVars Tend Model Hex RSum Spec MeshProof MeshMem MeshR Ready StepVal FieldInv StepThms ConsBase SteadyThms ConsBase Forced Vort PropsMesh PropsCons VortThms.
Import ListNotations.
Open Scope Z_scope.

(** Only the potential vorticity flux makes vorticity: without viscosity, whatever the state, the curl of the velocity tendency is the curl of the potential vorticity flux (the pressure and kinetic energy gradients contribute nothing). *)
Theorem C66_vorticity_equation :
  forall (S : setup RA), setup_ok S -> (0 < (dc (mesh_of_setup S) : R))%R ->
  2 <= nx (mesh_of_setup S) -> 2 <= ny (mesh_of_setup S) -> Z.even (ny (mesh_of_setup S)) = true -> hook S = None ->
  disable_vn (par_of S) = false -> ((visc_del2 (par_of S) : R) <= 0)%R -> ((visc_del4 (par_of S) : R) <= 0)%R ->
  forall (t s : sid) (time : R) (m : mem RA), s <> t -> ready S m ->
  always (sdims S) (compute_tendency S t s time Replace) m (fun m' =>
    forall k v, 0 <= k < d_nlayers (sdims S) -> 0 <= v < d_nvertices (sdims S) ->
    vort m (fun e => mr m' (VnEdge t) [e; k]) v =
    vort m (pvflux m (f0 (par_of S)) (fun c => mr m (HCell s) [c; k]) (fun e => mr m (VnEdge s) [e; k])) v).
Proof. exact C66_vorticity_equation_proof. Qed.
Print Assumptions C66_vorticity_equation.

(** Where the potential vorticity is uniform it stays uniform to first order: the vorticity tendency is [Q] times the vertex thickness tendency. *)
Theorem C66_uniform_potential_vorticity_tendency :
  forall (S : setup RA), setup_ok S -> (0 < (dc (mesh_of_setup S) : R))%R ->
  2 <= nx (mesh_of_setup S) -> 2 <= ny (mesh_of_setup S) -> Z.even (ny (mesh_of_setup S)) = true -> hook S = None ->
  disable_h (par_of S) = false -> disable_vn (par_of S) = false -> ((visc_del2 (par_of S) : R) <= 0)%R -> ((visc_del4 (par_of S) : R) <= 0)%R ->
  forall (t s : sid) (time : R) (m : mem RA) (Q : R) k, s <> t -> ready S m -> 0 <= k < d_nlayers (sdims S) ->
  (forall v, 0 <= v < d_nvertices (sdims S) ->
     pvort m (f0 (par_of S)) (fun c => mr m (HCell s) [c; k]) (fun e => mr m (VnEdge s) [e; k]) v = Q) ->
  always (sdims S) (compute_tendency S t s time Replace) m (fun m' =>
    forall v, 0 <= v < d_nvertices (sdims S) ->
    vort m (fun e => mr m' (VnEdge t) [e; k]) v = (Q * hvert m (fun c => mr m' (HCell t) [c; k]) v)%R).
Proof. exact C66_uniform_potential_vorticity_tendency_proof. Qed.
Print Assumptions C66_uniform_potential_vorticity_tendency.

(** Non-vacuity: thickness 2 and any gradient flow (so any divergence) on a rotating plane. *)
Definition S66 (f : R) : setup RA := mkSetup (mkConfig false false false 8) (mkHex (A:=RA) 4 6 (IZR 1) 3)
  (mkParams (A:=RA) f (IZR 10) (IZR 0) (IZR 0) (IZR 0) (IZR 0) (IZR 0) 1 false false) None.
Example ok66 f : setup_ok (S66 f) /\ (0 < (dc (mesh_of_setup (S66 f)) : R))%R /\ 2 <= nx (mesh_of_setup (S66 f)) /\ 2 <= ny (mesh_of_setup (S66 f)) /\
  Z.even (ny (mesh_of_setup (S66 f))) = true /\ hook (S66 f) = None /\ disable_h (par_of (S66 f)) = false /\ disable_vn (par_of (S66 f)) = false /\
  ((visc_del2 (par_of (S66 f)) : R) <= 0)%R /\ ((visc_del4 (par_of (S66 f)) : R) <= 0)%R.
Proof. split; [ok|]. split; [cbn; lra|]. split; [cbn; lia|]. split; [cbn; lia|]. repeat (split; [reflexivity|]). split; cbn; lra. Qed.
Example C66_state (f : R) (phi : Z -> R) (H : Z -> Z -> R) : exists m, ready (S66 f) m /\
  (forall k c, mr m (HCell St) [c; k] = H c k) /\ (forall k e, mr m (VnEdge St) [e; k] = grad m phi e) /\
  forall k v, 0 <= k < 8 -> 0 <= v < 48 -> vort m (fun e => mr m (VnEdge St) [e; k]) v = 0%R /\
    ((forall c, 0 <= c < 24 -> H c k = 2%R) -> hvert m (fun c => mr m (HCell St) [c; k]) v = 2%R /\
       pvort m f (fun c => mr m (HCell St) [c; k]) (fun e => mr m (VnEdge St) [e; k]) v = (f / 2)%R).
Proof.
  destruct (ok66 f) as (Ho & Hd & H1 & H2 & Hev & _). destruct (ready_any (S66 f) Ho (fun _ _ => 0%R)) as (m0 & R0 & _).
  exists (Mem (mi m0) (fun a ix => match a, ix with HCell St, [c; k] => H c k | VnEdge St, [e; k] => grad m0 phi e | _, _ => mr m0 a ix end)).
  match goal with |- ready _ ?z /\ _ => set (m := z) end.
  assert (Hr : ready (S66 f) m) by (eapply ready_frame; [|exact R0]; intros [a ix|a ix] Ha; [reflexivity|]; destruct a; try discriminate Ha; reflexivity).
  split; [exact Hr|]. split; [reflexivity|]. split; [reflexivity|]. intros k v Hk Hv.
  assert (V : vort m (fun e => mr m (VnEdge St) [e; k]) v = 0%R) by exact (vort_grad (S66 f) Ho Hd m Hr H1 Hev phi v Hv).
  split; [exact V|]. intros E. assert (T : hvert m (fun c => mr m (HCell St) [c; k]) v = 2%R) by (apply (hvert_flat (S66 f) Ho Hd m Hr); [exact E|exact Hv]).
  split; [exact T|]. unfold pvort. rewrite V, T. rewrite Rplus_0_l. reflexivity.
Qed.

(** Without rotation irrotational flow ([vort u = 0] at every vertex of every layer) stays irrotational through any run of either stepper: with any viscosities, any thickness (zero or negative included), any step sizes and in every build. *)
Theorem C66_irrotational_stays_irrotational :
  forall (S : setup RA), setup_ok S -> (0 < (dc (mesh_of_setup S) : R))%R ->
  2 <= nx (mesh_of_setup S) -> 2 <= ny (mesh_of_setup S) -> Z.even (ny (mesh_of_setup S)) = true -> hook S = None ->
  f0 (par_of S) = 0%R ->
  forall (m : mem RA), ready S m -> disabled_zero S Tend m ->
  let irrotational (m' : mem RA) := forall k v, 0 <= k < d_nlayers (sdims S) -> 0 <= v < d_nvertices (sdims S) ->
    vort m (fun e => mr m' (VnEdge St) [e; k]) v = 0%R in
  irrotational m ->
  forall steps : list (R * R), always (sdims S) (rk4_run S steps) m irrotational /\ forall n, always (sdims S) (lsrk_run S n steps) m irrotational.
Proof. exact C66_irrotational_stays_irrotational_proof. Qed.
Print Assumptions C66_irrotational_stays_irrotational.

(** Non-vacuity: [C66_state] with [f = 0], any thickness and any potential. *)

(** A step of RK4 preserves uniform potential vorticity exactly ([vort u + f0 = Q h] at every vertex, [Q] per layer), provided the vertex thickness is not zero in the four stages: [k1] to [k4] are the tendencies of the stages. *)
Theorem C66_uniform_potential_vorticity_rk4_step :
  forall (S : setup RA), setup_ok S -> (0 < (dc (mesh_of_setup S) : R))%R ->
  2 <= nx (mesh_of_setup S) -> 2 <= ny (mesh_of_setup S) -> Z.even (ny (mesh_of_setup S)) = true -> hook S = None ->
  disable_h (par_of S) = false -> disable_vn (par_of S) = false -> ((visc_del2 (par_of S) : R) <= 0)%R -> ((visc_del4 (par_of S) : R) <= 0)%R ->
  forall (Q : Z -> R) (t dt : R) (m : mem RA) (y k1 k2 k3 k4 : fields RA), ready S m -> holds S St m y ->
  let add (b : R) (x k : fields RA) := fmap2 (A:=RA) (fun u w => u + b * w)%R x k in
  let nonzero (y : fields RA) := forall j v, 0 <= j < d_nlayers (sdims S) -> 0 <= v < d_nvertices (sdims S) -> hvert m (fun c => fh y c j) v <> 0%R in
  tendency_of S t y k1 -> nonzero y ->
  tendency_of S (t + dt / 2)%R (add (dt / 2)%R y k1) k2 -> nonzero (add (dt / 2)%R y k1) ->
  tendency_of S (t + dt / 2)%R (add (dt / 2)%R y k2) k3 -> nonzero (add (dt / 2)%R y k2) ->
  tendency_of S (t + dt)%R (add dt y k3) k4 -> nonzero (add dt y k3) ->
  let uniform (m' : mem RA) := forall k v, 0 <= k < d_nlayers (sdims S) -> 0 <= v < d_nvertices (sdims S) ->
    (vort m (fun e => mr m' (VnEdge St) [e; k]) v + f0 (par_of S) = Q k * hvert m (fun c => mr m' (HCell St) [c; k]) v)%R in
  uniform m -> always (sdims S) (rk4_step S t dt) m uniform.
Proof. exact C66_uniform_potential_vorticity_rk4_step_proof. Qed.
Print Assumptions C66_uniform_potential_vorticity_rk4_step.

(** The hypotheses hold for every step size: for uniform flow of thickness 2, which turns but keeps its thickness in all stages. *)
Example C66_rk4_hyps (t dt : R) : exists (m : mem RA) (y k1 k2 k3 k4 : fields RA), ready (S66 1) m /\ holds (S66 1) St m y /\
  let add (b : R) (x k : fields RA) := fmap2 (A:=RA) (fun u w => u + b * w)%R x k in
  let nonzero (y : fields RA) := forall j v, 0 <= j < d_nlayers (sdims (S66 1)) -> 0 <= v < d_nvertices (sdims (S66 1)) -> hvert m (fun c => fh y c j) v <> 0%R in
  (tendency_of (S66 1) t y k1 /\ nonzero y) /\
  (tendency_of (S66 1) (t + dt / 2)%R (add (dt / 2)%R y k1) k2 /\ nonzero (add (dt / 2)%R y k1)) /\
  (tendency_of (S66 1) (t + dt / 2)%R (add (dt / 2)%R y k2) k3 /\ nonzero (add (dt / 2)%R y k2)) /\
  (tendency_of (S66 1) (t + dt)%R (add dt y k3) k4 /\ nonzero (add dt y k3)) /\
  forall k v, 0 <= k < 8 -> 0 <= v < 48 -> (vort m (fun e => mr m (VnEdge St) [e; k]) v + 1 = 1 / 2 * hvert m (fun c => mr m (HCell St) [c; k]) v)%R.
Proof.
  destruct (ok66 1) as (Ho & Hd & H1 & H2 & Hev & Hf & Dh & Dv & _). destruct (ready_any (S66 1) Ho (fun _ _ => 0%R)) as (m0 & R0 & _).
  pose (m := Mem (A:=RA) (mi m0) (fun a ix => match a, ix with HCell St, [c; k] => 2%R | VnEdge St, [e; k] => uni m0 1 0 e | _, _ => mr m0 a ix end)).
  assert (Hr : ready (S66 1) m) by (eapply ready_frame; [|exact R0]; intros [a ix|a ix] Ha; [reflexivity|]; destruct a; try discriminate Ha; reflexivity).
  assert (Fg : uniform_forcing (S66 1) (fun _ => 0%R) (fun _ => 0%R) (fun _ => 0%R)) by exact (conj (fun _ => eq_refl) (conj (fun _ => eq_refl) (fun _ => eq_refl))) || (unfold uniform_forcing; rewrite Hf; auto).
  assert (U0 : ustate (S66 1) m (fun _ => 2%R) (fun _ => 1%R) (fun _ => 0%R) (fld St m)) by (intros j Hj; split; reflexivity).
  pose proof (ustate_forced (S66 1) Ho Hd H1 H2 Dh Dv m Hr _ _ _ Fg) as UF.
  assert (NZ : forall z H U V, ustate (S66 1) m H U V z -> (forall j, H j = 2%R) -> forall j v, 0 <= j < d_nlayers (sdims (S66 1)) -> 0 <= v < d_nvertices (sdims (S66 1)) -> hvert m (fun c => fh z c j) v <> 0%R).
  { intros z H U V Uz E j v Hj Hv. rewrite (hvert_flat (S66 1) Ho Hd m Hr _ 2 v); [lra| |exact Hv]. intros c Hc. rewrite (proj1 (Uz j Hj)) by exact Hc. apply E. }
  assert (Z2 : forall H : Z -> R, (forall j, H j = 2%R) -> (f0 (par_of (S66 1)) : R) = 0%R \/ forall j, 0 <= j < d_nlayers (sdims (S66 1)) -> H j <> 0%R).
  { intros H E. right. intros j _. rewrite E. lra. }
  destruct (C39_tendency_exists_proof RA (S66 1) Ho t (fld St m)) as (k1 & T1).
  pose proof (UF _ _ _ _ _ k1 U0 (Z2 _ (fun _ => eq_refl)) T1) as U1. pose proof (ustate_add (S66 1) m (dt / 2)%R _ _ _ _ _ _ _ _ U0 U1) as Y1.
  destruct (C39_tendency_exists_proof RA (S66 1) Ho (t + dt / 2)%R (fmap2 (A:=RA) (fun u w => u + dt / 2 * w)%R (fld St m) k1)) as (k2 & T2).
  assert (E0 : forall b : R, (2 + b * 0)%R = 2%R) by (intros; ring).
  pose proof (UF _ _ _ _ _ k2 Y1 (Z2 _ (fun _ => E0 _)) T2) as U2. pose proof (ustate_add (S66 1) m (dt / 2)%R _ _ _ _ _ _ _ _ U0 U2) as Y2.
  destruct (C39_tendency_exists_proof RA (S66 1) Ho (t + dt / 2)%R (fmap2 (A:=RA) (fun u w => u + dt / 2 * w)%R (fld St m) k2)) as (k3 & T3).
  pose proof (UF _ _ _ _ _ k3 Y2 (Z2 _ (fun _ => E0 _)) T3) as U3. pose proof (ustate_add (S66 1) m dt _ _ _ _ _ _ _ _ U0 U3) as Y3.
  destruct (C39_tendency_exists_proof RA (S66 1) Ho (t + dt)%R (fmap2 (A:=RA) (fun u w => u + dt * w)%R (fld St m) k3)) as (k4 & T4).
  exists m, (fld St m), k1, k2, k3, k4. split; [exact Hr|]. split; [apply holds_fld|]. cbv zeta.
  split; [split; [exact T1|eapply NZ; [exact U0|reflexivity]]|]. split; [split; [exact T2|eapply NZ; [exact Y1|intros; apply E0]]|].
  split; [split; [exact T3|eapply NZ; [exact Y2|intros; apply E0]]|]. split; [split; [exact T4|eapply NZ; [exact Y3|intros; apply E0]]|].
  intros k v Hk Hv. rewrite (hvert_flat (S66 1) Ho Hd m Hr _ 2 v) by (reflexivity || exact Hv).
  assert (V : vort m (fun e => mr m (VnEdge St) [e; k]) v = 0%R).
  { unfold vort. replace (circ m (fun e => mr m (VnEdge St) [e; k]) v) with 0%R; [unfold Rdiv; ring|]. symmetry. exact (uni_circ (S66 1) Ho m Hr 1 0 v Hv). }
  rewrite V. lra.
Qed.

(** The same for LSRK with any number of stages: [Y i] and [Q i] are the state and the stored tendency before stage [i], [K i] the tendency of [Y i]. *)
Theorem C66_uniform_potential_vorticity_lsrk_step :
  forall (S : setup RA), setup_ok S -> (0 < (dc (mesh_of_setup S) : R))%R ->
  2 <= nx (mesh_of_setup S) -> 2 <= ny (mesh_of_setup S) -> Z.even (ny (mesh_of_setup S)) = true -> hook S = None ->
  disable_h (par_of S) = false -> disable_vn (par_of S) = false -> ((visc_del2 (par_of S) : R) <= 0)%R -> ((visc_del4 (par_of S) : R) <= 0)%R ->
  forall (q : Z -> R) n (t dt : R) (m : mem RA) (Y Q K : Z -> fields RA), 0 <= n -> ready S m -> holds S St m (Y 0) -> holds S Tend m (Q 0) ->
  (forall i, 0 <= i < n -> tendency_of S (t + lsrk_c (A:=RA) n i * dt)%R (Y i) (K i) /\
     Q (i + 1) = fmap2 (A:=RA) (fun u w => lsrk_a (A:=RA) n i * u + w)%R (Q i) (K i) /\
     Y (i + 1) = fmap2 (A:=RA) (fun u w => u + dt * lsrk_b (A:=RA) n i * w)%R (Y i) (Q (i + 1)) /\
     forall j v, 0 <= j < d_nlayers (sdims S) -> 0 <= v < d_nvertices (sdims S) -> hvert m (fun c => fh (Y i) c j) v <> 0%R) ->
  let uniform (m' : mem RA) := forall k v, 0 <= k < d_nlayers (sdims S) -> 0 <= v < d_nvertices (sdims S) ->
    (vort m (fun e => mr m' (VnEdge St) [e; k]) v + f0 (par_of S) = q k * hvert m (fun c => mr m' (HCell St) [c; k]) v)%R in
  uniform m -> always (sdims S) (lsrk_step S n t dt) m uniform.
Proof. exact C66_uniform_potential_vorticity_lsrk_step_proof. Qed.
Print Assumptions C66_uniform_potential_vorticity_lsrk_step.

(** Non-vacuity: with one stage only the initial thickness has to be nonzero, as in [C66_state]; the stages exist by [C39_tendency_exists]. *)

