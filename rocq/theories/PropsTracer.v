(** Properties of the tracers. *)
From Coq Require Import ZArith Reals List Bool Lia Lra.
From Verif Require Import Arith Arrays Prog Conc Launch Mesh AuxVars Tend Model RSum Spec MeshProof Ready Relate StepVal StepRun StepThms TendVal RealTend FieldInv ConsBase TrSwap TracerThms PropsCons.
Import ListNotations.
Open Scope Z_scope.

(** C32, tendencies, in one layer: where tracer [l] is [q] times a nonzero thickness, its tendency is [q] times the tendency of the thickness, whatever the diffusivities (in increment mode: if that held of the content of the tendency object before).  A velocity hook is allowed. *)
Theorem C32_uniform_concentration_tendency :
  forall (S : setup RA), setup_ok S -> disable_h (par_of S) = false ->
  match hook S with None => True | Some f => forall x y t : R, force_h f x y t = 0%R end ->
  forall (t s : sid) (time : R) (md : add_mode) (m : mem RA) (k l : Z) (q : R), s <> t -> ready S m ->
  0 <= k < d_nlayers (sdims S) -> 0 <= l < ntracers (par_of S) ->
  (forall c, 0 <= c < d_ncells (sdims S) -> (mr m (HCell s) [c; k] : R) <> 0%R /\ mr m (TrCell s) [l; c; k] = (q * mr m (HCell s) [c; k])%R) ->
  (md = Increment -> forall c, 0 <= c < d_ncells (sdims S) -> mr m (TrCell t) [l; c; k] = (q * mr m (HCell t) [c; k])%R) ->
  always (sdims S) (compute_tendency S t s time md) m (fun m' => forall c, 0 <= c < d_ncells (sdims S) ->
    mr m' (TrCell t) [l; c; k] = (q * mr m' (HCell t) [c; k])%R).
Proof. exact C32_uniform_concentration_tendency_proof. Qed.
Print Assumptions C32_uniform_concentration_tendency.

(** Non-vacuity: non-uniform thickness, tracer five times that; [S24] has diffusion and hyperdiffusion on. *)
Example C32_ex : exists m, ready S24 m /\ forall c k, (mr m (HCell St) [c; k] : R) = IZR (1 + Z.abs c) /\
  ((mr m (HCell St) [c; k] : R) <> 0)%R /\ (forall l, mr m (TrCell St) [l; c; k] = (5 * mr m (HCell St) [c; k])%R).
Proof.
  destruct (any24 (fun a ix => match a, ix with HCell _, [c; k] => IZR (1 + Z.abs c) | TrCell _, [l; c; k] => (5 * IZR (1 + Z.abs c))%R | _, _ => 0%R end)) as (m & R & E).
  exists m. split; [exact R|]. intros c k. destruct (E St [c; k]) as (E1 & _ & _). rewrite E1. split; [reflexivity|]. split.
  - apply not_0_IZR. lia.
  - intros l. destruct (E St [l; c; k]) as (_ & _ & E3). now rewrite E3.
Qed.

(** C32, any number of RK4 steps.  [k1], [k2], [k3] are the stage tendencies (see C39); the last hypothesis says that in each step the thickness is nonzero in the four states whose tendency is computed, [y] being the state before that step. *)
Theorem C32_uniform_concentration_rk4 :
  forall (S : setup RA), setup_ok S -> disable_h (par_of S) = false ->
  match hook S with None => True | Some f => forall x y t : R, force_h f x y t = 0%R end ->
  (disable_vn (par_of S) = true -> hook S = None) ->
  forall (q : Z -> Z -> R) (steps : list (R * R)) (m m' : mem RA), ready S m -> disabled_zero S Tend m ->
  let uniform (m : mem RA) := forall l c k, 0 <= l < ntracers (par_of S) -> 0 <= c < d_ncells (sdims S) -> 0 <= k < d_nlayers (sdims S) ->
    mr m (TrCell St) [l; c; k] = (q l k * mr m (HCell St) [c; k])%R in
  let nonzero (y : fields RA) := forall c k, 0 <= c < d_ncells (sdims S) -> 0 <= k < d_nlayers (sdims S) -> (fh y c k : R) <> 0%R in
  let add (b : R) (x k : fields RA) := fmap2 (A:=RA) (fun u w => u + b * w)%R x k in
  uniform m ->
  (forall done t dt rest n y k1 k2 k3, steps = done ++ (t, dt) :: rest ->
     exec (sdims S) (rk4_run S done) m (OK n) -> holds S St n y ->
     tendency_of S t y k1 -> tendency_of S (t + dt / 2)%R (add (dt / 2)%R y k1) k2 -> tendency_of S (t + dt / 2)%R (add (dt / 2)%R y k2) k3 ->
     nonzero y /\ nonzero (add (dt / 2)%R y k1) /\ nonzero (add (dt / 2)%R y k2) /\ nonzero (add dt y k3)) ->
  exec (sdims S) (rk4_run S steps) m (OK m') -> uniform m' .
Proof. exact C32_uniform_concentration_rk4_proof. Qed.
Print Assumptions C32_uniform_concentration_rk4.

(** Non-vacuity: velocity zero and its tendency disabled, non-uniform thickness; then the thickness stays what it is. *)
Definition S32 : setup RA := mkSetup (mkConfig false false false 8) (mkHex (A:=RA) 4 6 (IZR 1) 3)
  (mkParams (A:=RA) (IZR 1) (IZR 10) (IZR 0) (IZR 0) (IZR 0) (IZR 1) (IZR 1) 1 false true) None.
Example C32_rk4_ex : exists m, ready S32 m /\ (forall ix, ix <> [] -> mr m (HCell St) ix <> mr m (HCell St) []) /\
  forall m', exec (sdims S32) (rk4_run S32 [(0%R, 1%R)]) m (OK m') ->
  forall l c k, 0 <= l < 1 -> 0 <= c < 24 -> 0 <= k < 8 -> mr m' (TrCell St) [l; c; k] = (5 * mr m' (HCell St) [c; k])%R.
Proof.
  assert (Hok : setup_ok S32) by ok.
  pose (hh := fun ix : list Z => match ix with c :: _ => IZR (2 + Z.abs c) | _ => IZR 1 end).
  destruct (ready_any S32 Hok (fun a ix => match a, ix with HCell _, _ => hh ix | TrCell _, _ :: ix => (5 * hh ix)%R | _, _ => 0%R end)) as (m & Rm & E).
  assert (Hp : forall ix, (hh ix <> 0)%R) by (intros [|c ?]; apply not_0_IZR; lia).
  exists m. split; [exact Rm|]. split.
  { intros ix Hix. rewrite !E by reflexivity. destruct ix as [|c ix]; [congruence|]. unfold hh. intros Q. apply eq_IZR in Q. lia. }
  assert (Dv : disabled_zero S32 Tend m) by (intros k Hk; split; intros; [discriminate|now rewrite E]).
  intros m' X l c k Hl Hc Hk.
  refine (C32_uniform_concentration_rk4 S32 Hok eq_refl I (fun _ => eq_refl) (fun _ _ => 5%R) [(0%R, 1%R)] m m' Rm Dv _ _ X l c k Hl Hc Hk).
  { intros l' c' k' _ _ _. now rewrite !E by reflexivity. }
  intros done t dt rest n y k1 k2 k3 El Xd Hy T1 T2 T3.
  destruct done as [|? [|? ?]]; [|discriminate..]. inversion Xd; subst n.
  assert (Y0 : forall c k, 0 <= c < 24 -> 0 <= k < 8 -> fh y c k = hh [c; k]).
  { intros c' k' H1 H2. destruct (Hy k' H2) as (Y1 & _). rewrite <- Y1 by exact H1. now rewrite E. }
  assert (V0 : forall e k, 0 <= e < 72 -> 0 <= k < 8 -> fv y e k = 0%R).
  { intros e' k' H1 H2. destruct (Hy k' H2) as (_ & Y1 & _). rewrite <- Y1 by exact H1. now rewrite E. }
  assert (T0 : forall (time : R) z kk, tendency_of S32 time z kk -> (forall e k, 0 <= e < 72 -> 0 <= k < 8 -> fv z e k = 0%R) ->
     (forall c k, 0 <= c < 24 -> 0 <= k < 8 -> fh kk c k = 0%R) /\ (forall e k, 0 <= e < 72 -> 0 <= k < 8 -> fv kk e k = 0%R)).
  { intros time z kk T Hv. assert (Hdc : (0 < (dc (mesh_of_setup S32) : R))%R) by (cbn; lra). split; intros i j H1 H2.
    - rewrite (proj1 (tend_of S32 Hok Hdc m Rm time z kk T j H2) i H1). cbn [hk_h hook S32 disable_h par_of].
      rewrite (outflow_zero S32 Hok m Rm _ i H1); [lra|]. intros e He. rewrite Hv by assumption. ring.
    - now rewrite (proj1 (proj2 (tend_of S32 Hok Hdc m Rm time z kk T j H2)) i H1). }
  destruct (T0 _ _ _ T1 V0) as [H1 V1].
  assert (V1' : forall b e k, 0 <= e < 72 -> 0 <= k < 8 -> fv (fmap2 (A:=RA) (fun u w => u + b * w)%R y k1) e k = 0%R).
  { intros. cbn [fmap2 fv]. rewrite V0, V1 by assumption. cbn [F RA]. ring. }
  destruct (T0 _ _ _ T2 (V1' _)) as [H2 V2].
  assert (V2' : forall b e k, 0 <= e < 72 -> 0 <= k < 8 -> fv (fmap2 (A:=RA) (fun u w => u + b * w)%R y k2) e k = 0%R).
  { intros. cbn [fmap2 fv]. rewrite V0, V2 by assumption. cbn [F RA]. ring. }
  destruct (T0 _ _ _ T3 (V2' _)) as [H3 V3].
  repeat split; intros c' k' C1 C2; cbn [fmap2 fh]; rewrite Y0, ?H1, ?H2, ?H3 by assumption; cbn [F RA];
    rewrite ?Rmult_0_r, ?Rplus_0_r; apply Hp.
Qed.

(** C32, any number of low storage steps with any number of stages; [Y i] are the states whose tendency is computed (see C40). *)
Theorem C32_uniform_concentration_lsrk :
  forall (S : setup RA), setup_ok S -> disable_h (par_of S) = false ->
  match hook S with None => True | Some f => forall x y t : R, force_h f x y t = 0%R end ->
  forall (q : Z -> Z -> R) (ns : Z) (steps : list (R * R)) (m m' : mem RA), ready S m ->
  let uniform (m : mem RA) := forall l c k, 0 <= l < ntracers (par_of S) -> 0 <= c < d_ncells (sdims S) -> 0 <= k < d_nlayers (sdims S) ->
    mr m (TrCell St) [l; c; k] = (q l k * mr m (HCell St) [c; k])%R in
  let nonzero (y : fields RA) := forall c k, 0 <= c < d_ncells (sdims S) -> 0 <= k < d_nlayers (sdims S) -> (fh y c k : R) <> 0%R in
  uniform m ->
  (forall done t dt rest n (Y Q K : Z -> fields RA), steps = done ++ (t, dt) :: rest ->
     exec (sdims S) (lsrk_run S ns done) m (OK n) -> holds S St n (Y 0) -> holds S Tend n (Q 0) ->
     (forall i, 0 <= i < ns -> tendency_of S (t + lsrk_c (A:=RA) ns i * dt)%R (Y i) (K i) /\
       Q (i + 1) = fmap2 (A:=RA) (fun u w => lsrk_a (A:=RA) ns i * u + w)%R (Q i) (K i) /\
       Y (i + 1) = fmap2 (A:=RA) (fun u w => u + dt * lsrk_b (A:=RA) ns i * w)%R (Y i) (Q (i + 1))) ->
     forall i, 0 <= i < ns -> nonzero (Y i)) ->
  exec (sdims S) (lsrk_run S ns steps) m (OK m') -> uniform m' .
Proof. exact C32_uniform_concentration_lsrk_proof. Qed.
Print Assumptions C32_uniform_concentration_lsrk.

Example C32_lsrk_ex (dt : R) : exists m, ready S24 m /\ (forall ix, ix <> [] -> mr m (HCell St) ix <> mr m (HCell St) []) /\
  forall m', exec (sdims S24) (lsrk_run S24 1 [(0%R, dt)]) m (OK m') ->
  forall l c k, 0 <= l < 1 -> 0 <= c < 24 -> 0 <= k < 8 -> mr m' (TrCell St) [l; c; k] = (5 * mr m' (HCell St) [c; k])%R.
Proof.
  assert (Hok : setup_ok S24) by ok.
  pose (hh := fun ix : list Z => match ix with c :: _ => IZR (2 + Z.abs c) | _ => IZR 1 end).
  destruct (ready_any S24 Hok (fun a ix => match a, ix with HCell _, _ => hh ix | TrCell _, _ :: ix => (5 * hh ix)%R | VnEdge _, e :: _ => IZR e | _, _ => 0%R end)) as (m & R & E).
  assert (Hp : forall ix, (hh ix <> 0)%R) by (intros [|c ?]; apply not_0_IZR; lia).
  exists m. split; [exact R|]. split.
  { intros ix Hix. rewrite !E by reflexivity. destruct ix as [|c ix]; [congruence|]. unfold hh. intros Q. apply eq_IZR in Q. lia. }
  intros m' X l c k Hl Hc Hk.
  refine (C32_uniform_concentration_lsrk S24 Hok eq_refl I (fun _ _ => 5%R) 1 [(0%R, dt)] m m' R _ _ X l c k Hl Hc Hk).
  { intros l' c' k' _ _ _. now rewrite !E by reflexivity. }
  intros done t dt' rest n Y Q K El Xd Hy _ _ i Hi c' k' C1 C2.
  destruct done as [|? [|? ?]]; [|discriminate..]. inversion Xd; subst n. replace i with 0 by lia.
  destruct (Hy k' C2) as (Y1 & _). rewrite <- Y1 by exact C1. rewrite E by reflexivity. apply Hp.
Qed.

(** C38, first half: whatever the arithmetic, the two edge thicknesses hold the same values after compute_tendency. *)
Theorem C38_mean_and_flux_thickness_identical :
  forall (A : Arith) (S : setup A), setup_ok S -> forall (t s : sid) (time : F A) (md : add_mode) (m : mem A), s <> t -> ready S m ->
  always (sdims S) (compute_tendency S t s time md) m (fun m' => forall e k, 0 <= e < d_nedges (sdims S) -> 0 <= k < d_nlayers (sdims S) ->
    mr m' MeanHEdge [e; k] = mr m' FluxHEdge [e; k]).
Proof. exact C38_mean_and_flux_thickness_identical_proof. Qed.
Print Assumptions C38_mean_and_flux_thickness_identical.

(** Non-vacuity: see [any24] in PropsCons.v. *)

(** C38, second half: compute_tendency is the version of it in which the tracer tendency uses the mean thickness as flux thickness and conversely; the version with the names straightened out also never faults, and leaves the same memory. *)
Theorem C38_exchanged_names_harmless :
  forall (A : Arith) (S : setup A), setup_ok S -> forall (t s : sid) (time : F A) (md : add_mode) (m : mem A), s <> t -> ready S m ->
  compute_tendency S t s time md = tendency_with S MeanHEdge FluxHEdge t s time md /\
  always (sdims S) (tendency_with S FluxHEdge MeanHEdge t s time md) m (fun m2 =>
    forall m1, exec (sdims S) (compute_tendency S t s time md) m (OK m1) -> meq m1 m2).
Proof. exact C38_exchanged_names_harmless_proof. Qed.
Print Assumptions C38_exchanged_names_harmless.

(** Non-vacuity: see [any24] in PropsCons.v; there the tracer tendency has all its terms. *)
Example C38_ex : 0 < ntracers (par_of S24) /\ tracer_diff_enabled (par_of S24) = true /\ tracer_hyperdiff_enabled (par_of S24) = true.
Proof. unfold tracer_diff_enabled, tracer_hyperdiff_enabled. cbn. split; [lia|]. destruct (Rlt_dec 0 1); split; reflexivity || lra. Qed.

