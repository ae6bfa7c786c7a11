(** Forced and rotating uniform flow. *)
From Coq Require Import ZArith Reals List Bool Lia Lra.
From Verif Require Import Arith Arrays Prog Conc Launch Mesh AuxVars Tend Model Ready Relate StepVal StepThms FieldInv ForcedThms PropsCons.
Import ListNotations.
Open Scope Z_scope.

(** C44 (second half): a thickness forcing which is, at each position, a polynomial of degree at most three in time is integrated exactly.  For the forcing to be all there is, gravity and the velocity are zero and the velocity is not forced; everything else is arbitrary. *)
Theorem C44_rk4_exact_for_cubic_thickness_forcing :
  forall (S : setup RA) (g : forcing RA), setup_ok S -> (0 < (dc (mesh_of_setup S) : R))%R ->
  disable_h (par_of S) = false -> disable_vn (par_of S) = false -> grav (par_of S) = 0%R -> hook S = Some g ->
  (forall x y t : R, force_vx g x y t = 0%R /\ force_vy g x y t = 0%R) ->
  forall a0 a1 a2 a3 : R -> R -> R,
  (forall x y t : R, force_h g x y t = (a0 x y + a1 x y * t + a2 x y * t ^ 2 + a3 x y * t ^ 3)%R) ->
  let integral (x y t : R) := (a0 x y * t + a1 x y * t ^ 2 / 2 + a2 x y * t ^ 3 / 3 + a3 x y * t ^ 4 / 4)%R in
  forall (t dt : R) (m : mem RA), ready S m ->
  (forall e k, 0 <= e < d_nedges (sdims S) -> 0 <= k < d_nlayers (sdims S) -> mr m (VnEdge St) [e; k] = 0%R) ->
  always (sdims S) (rk4_step S t dt) m (fun m' => forall k, 0 <= k < d_nlayers (sdims S) ->
    (forall c, 0 <= c < d_ncells (sdims S) -> mr m' (HCell St) [c; k] =
       (mr m (HCell St) [c; k] + (integral (mr m XCell [c]) (mr m YCell [c]) (t + dt) - integral (mr m XCell [c]) (mr m YCell [c]) t))%R) /\
    (forall e, 0 <= e < d_nedges (sdims S) -> mr m' (VnEdge St) [e; k] = 0%R)).
Proof. exact C44_rk4_exact_for_cubic_thickness_forcing_proof. Qed.
Print Assumptions C44_rk4_exact_for_cubic_thickness_forcing.

(** Non-vacuity: no gravity, rotation and viscosity on, forcing x + y t - t^3. *)
Definition g44 : forcing RA := mkForcing RA (fun x y t => x + y * t - t ^ 3)%R (fun _ _ _ => 0%R) (fun _ _ _ => 0%R).
Definition S44 : setup RA := mkSetup (mkConfig false false false 8) (mkHex (A:=RA) 4 6 (IZR 1) 3)
  (mkParams (A:=RA) (IZR 1) (IZR 0) (IZR 0) (IZR 1) (IZR 1) (IZR 1) (IZR 1) 1 false false) (Some g44).
Example C44_ex : exists m, setup_ok S44 /\ ready S44 m /\ (forall ix, mr m (VnEdge St) ix = 0%R) /\ (forall c k, mr m (HCell St) [c; k] = IZR c) /\
  hook S44 = Some g44 /\ forall x y t : R, force_h g44 x y t = (x + y * t + 0 * t ^ 2 + (-1) * t ^ 3)%R.
Proof.
  assert (Hok : setup_ok S44) by ok.
  destruct (ready_any S44 Hok (fun a ix => match a, ix with HCell _, c :: _ => IZR c | _, _ => 0%R end)) as (m & Rm & E).
  exists m. split; [exact Hok|]. split; [exact Rm|]. split; [intros; now rewrite E|]. split; [intros; now rewrite E|]. split; [reflexivity|].
  intros. cbn. ring.
Qed.

(** C44 (second half): forcing of the thickness and of both velocity components, uniform in space and a polynomial of degree at most three in time, is integrated exactly for uniform flow of uniform thickness without rotation; gravity, viscosity and hyperviscosity are arbitrary. *)
Theorem C44_rk4_exact_for_uniform_cubic_forcing :
  forall (S : setup RA) (g : forcing RA), setup_ok S -> (0 < (dc (mesh_of_setup S) : R))%R ->
  2 <= nx (mesh_of_setup S) -> 2 <= ny (mesh_of_setup S) ->
  disable_h (par_of S) = false -> disable_vn (par_of S) = false -> f0 (par_of S) = 0%R -> hook S = Some g ->
  forall a b c : Z -> R,
  let cubic (a : Z -> R) (t : R) := (a 0%Z + a 1%Z * t + a 2%Z * t ^ 2 + a 3%Z * t ^ 3)%R in
  let integral (a : Z -> R) (t : R) := (a 0%Z * t + a 1%Z * t ^ 2 / 2 + a 2%Z * t ^ 3 / 3 + a 3%Z * t ^ 4 / 4)%R in
  (forall x y t : R, force_h g x y t = cubic a t /\ force_vx g x y t = cubic b t /\ force_vy g x y t = cubic c t) ->
  forall (t dt : R) (H U V : Z -> R) (m : mem RA), ready S m ->
  let uniform (m : mem RA) (H U V : Z -> R) := forall k, 0 <= k < d_nlayers (sdims S) ->
    (forall c, 0 <= c < d_ncells (sdims S) -> mr m (HCell St) [c; k] = H k) /\
    (forall e, 0 <= e < d_nedges (sdims S) -> mr m (VnEdge St) [e; k] = (U k * cos (mr m AngleEdge [e]) + V k * sin (mr m AngleEdge [e]))%R) in
  uniform m H U V ->
  always (sdims S) (rk4_step S t dt) m (fun m' => uniform m'
    (fun k => H k + (integral a (t + dt) - integral a t))%R
    (fun k => U k + (integral b (t + dt) - integral b t))%R
    (fun k => V k + (integral c (t + dt) - integral c t))%R).
Proof. exact C44_rk4_exact_for_uniform_cubic_forcing_proof. Qed.
Print Assumptions C44_rk4_exact_for_uniform_cubic_forcing.

(** Non-vacuity. *)
Definition g44u : forcing RA := mkForcing RA (fun _ _ t => t ^ 3)%R (fun _ _ t => 1 + t)%R (fun _ _ t => t ^ 2)%R.
Definition S44u : setup RA := mkSetup (mkConfig false false false 8) (mkHex (A:=RA) 4 6 (IZR 1) 3)
  (mkParams (A:=RA) (IZR 0) (IZR 10) (IZR 0) (IZR 1) (IZR 1) (IZR 1) (IZR 1) 1 false false) (Some g44u).
Example C44u_ex : exists m, setup_ok S44u /\ ready S44u m /\ f0 (par_of S44u) = 0%R /\ forall c k, mr m (HCell St) [c; k] = IZR (1 + Z.abs k) /\
  mr m (VnEdge St) [c; k] = (IZR k * cos (mr m AngleEdge [c]) + 2 * sin (mr m AngleEdge [c]))%R.
Proof.
  assert (Hok : setup_ok S44u) by ok.
  destruct (ready_any S44u Hok (fun _ _ => 0%R)) as (m0 & R0 & _).
  exists (Mem (mi m0) (fun a ix => match a, ix with HCell St, [_; k] => IZR (1 + Z.abs k)
    | VnEdge St, [e; k] => (IZR k * cos (mr m0 AngleEdge [e]) + 2 * sin (mr m0 AngleEdge [e]))%R | _, _ => mr m0 a ix end)).
  split; [exact Hok|]. split; [|split; [reflexivity|split; reflexivity]].
  eapply ready_frame; [|exact R0]. intros [a ix|a ix] Ha; [reflexivity|]. destruct a; try discriminate Ha; reflexivity.
Qed.

(** C51, tendency: uniform flow (U, V) of uniform nonzero thickness on a rotating plane accelerates by (f0 V, - f0 U), exactly, and its thickness does not change; viscosity and hyperviscosity do not act. *)
Theorem C51_uniform_flow_rotates :
  forall (S : setup RA), setup_ok S -> (0 < (dc (mesh_of_setup S) : R))%R ->
  2 <= nx (mesh_of_setup S) -> 2 <= ny (mesh_of_setup S) ->
  disable_h (par_of S) = false -> disable_vn (par_of S) = false -> hook S = None ->
  forall (time : R) (H U V : Z -> R) (m : mem RA), ready S m ->
  (forall k, 0 <= k < d_nlayers (sdims S) -> H k <> 0%R /\
    (forall c, 0 <= c < d_ncells (sdims S) -> mr m (HCell St) [c; k] = H k) /\
    (forall e, 0 <= e < d_nedges (sdims S) -> mr m (VnEdge St) [e; k] = (U k * cos (mr m AngleEdge [e]) + V k * sin (mr m AngleEdge [e]))%R)) ->
  let f := f0 (par_of S) : R in
  always (sdims S) (compute_tendency S Tend St time Replace) m (fun m' => forall k, 0 <= k < d_nlayers (sdims S) ->
    (forall c, 0 <= c < d_ncells (sdims S) -> mr m' (HCell Tend) [c; k] = 0%R) /\
    (forall e, 0 <= e < d_nedges (sdims S) -> mr m' (VnEdge Tend) [e; k] = (f * V k * cos (mr m AngleEdge [e]) - f * U k * sin (mr m AngleEdge [e]))%R)).
Proof. exact C51_uniform_flow_rotates_proof. Qed.
Print Assumptions C51_uniform_flow_rotates.

(** Non-vacuity: [S24] has f0 = 1 and all terms on. *)
Example C51_ex : exists m, ready S24 m /\ forall k, 1 + Z.abs k <> 0 /\ forall c, mr m (HCell St) [c; k] = IZR (1 + Z.abs k) /\
  mr m (VnEdge St) [c; k] = (IZR k * cos (mr m AngleEdge [c]) + 2 * sin (mr m AngleEdge [c]))%R.
Proof.
  destruct (any24 (fun _ _ => 0%R)) as (m0 & R0 & _).
  exists (Mem (mi m0) (fun a ix => match a, ix with HCell St, [_; k] => IZR (1 + Z.abs k)
    | VnEdge St, [e; k] => (IZR k * cos (mr m0 AngleEdge [e]) + 2 * sin (mr m0 AngleEdge [e]))%R | _, _ => mr m0 a ix end)).
  split; [|intros k; split; [lia|split; reflexivity]].
  eapply ready_frame; [|exact R0]. intros [a ix|a ix] Ha; [reflexivity|]. destruct a; try discriminate Ha; reflexivity.
Qed.

(** C51, RK4: a step of size dt turns uniform flow into uniform flow of the same thickness, whose velocity is multiplied by the Taylor polynomial of degree four of the rotation by the angle z = f0 dt; the square of the speed is multiplied by 1 - z^6/72 + z^8/576. *)
Theorem C51_rk4_inertial_oscillation :
  forall (S : setup RA), setup_ok S -> (0 < (dc (mesh_of_setup S) : R))%R ->
  2 <= nx (mesh_of_setup S) -> 2 <= ny (mesh_of_setup S) ->
  disable_h (par_of S) = false -> disable_vn (par_of S) = false -> hook S = None ->
  forall (t dt : R) (H U V : Z -> R) (m : mem RA), ready S m ->
  let uniform (m : mem RA) (U V : Z -> R) := forall k, 0 <= k < d_nlayers (sdims S) ->
    (forall c, 0 <= c < d_ncells (sdims S) -> mr m (HCell St) [c; k] = H k) /\
    (forall e, 0 <= e < d_nedges (sdims S) -> mr m (VnEdge St) [e; k] = (U k * cos (mr m AngleEdge [e]) + V k * sin (mr m AngleEdge [e]))%R) in
  (forall k, 0 <= k < d_nlayers (sdims S) -> H k <> 0%R) -> uniform m U V ->
  let z := (f0 (par_of S) * dt)%R in
  let co := (1 - z ^ 2 / 2 + z ^ 4 / 24)%R in
  let si := (z - z ^ 3 / 6)%R in
  let U' k := (co * U k + si * V k)%R in
  let V' k := (co * V k - si * U k)%R in
  always (sdims S) (rk4_step S t dt) m (fun m' => uniform m' U' V') /\
  forall k, (U' k ^ 2 + V' k ^ 2 = (1 - z ^ 6 / 72 + z ^ 8 / 576) * (U k ^ 2 + V k ^ 2))%R.
Proof. exact C51_rk4_inertial_oscillation_proof. Qed.
Print Assumptions C51_rk4_inertial_oscillation.

(** Non-vacuity: [C51_ex]. *)

(** C51, stability limit: repeated RK4 steps with |f0 dt| at most the square root of 8 never increase the speed of uniform flow; a step with |f0 dt| beyond that increases it. *)
Theorem C51_rk4_stability_limit :
  (forall (S : setup RA), setup_ok S -> (0 < (dc (mesh_of_setup S) : R))%R ->
   2 <= nx (mesh_of_setup S) -> 2 <= ny (mesh_of_setup S) ->
   disable_h (par_of S) = false -> disable_vn (par_of S) = false -> hook S = None ->
   forall (steps : list (R * R)) (H U V : Z -> R) (m : mem RA), ready S m ->
   let uniform (m : mem RA) (U V : Z -> R) := forall k, 0 <= k < d_nlayers (sdims S) ->
     (forall c, 0 <= c < d_ncells (sdims S) -> mr m (HCell St) [c; k] = H k) /\
     (forall e, 0 <= e < d_nedges (sdims S) -> mr m (VnEdge St) [e; k] = (U k * cos (mr m AngleEdge [e]) + V k * sin (mr m AngleEdge [e]))%R) in
   (forall k, 0 <= k < d_nlayers (sdims S) -> H k <> 0%R) -> uniform m U V ->
   (forall t dt, In (t, dt) steps -> (Rabs (f0 (par_of S) * dt) <= sqrt 8)%R) ->
   always (sdims S) (rk4_run S steps) m (fun m' => exists U' V' : Z -> R, uniform m' U' V' /\
     forall k, (U' k ^ 2 + V' k ^ 2 <= U k ^ 2 + V k ^ 2)%R)) /\
  (forall (z U V : R), (sqrt 8 < Rabs z)%R -> (0 < U ^ 2 + V ^ 2)%R ->
     (U ^ 2 + V ^ 2 < (1 - z ^ 6 / 72 + z ^ 8 / 576) * (U ^ 2 + V ^ 2))%R).
Proof. exact C51_rk4_stability_limit_proof. Qed.
Print Assumptions C51_rk4_stability_limit.

(** Non-vacuity: [C51_ex], with [S24] having f0 = 1 and, say, steps of size 1 and 2. *)
Example C51_steps_ex : forall t dt, In (t, dt) [(0, 1); (1, 2)]%R -> (Rabs (f0 (par_of S24) * dt) <= sqrt 8)%R.
Proof.
  intros t dt H. assert (E : (2 <= sqrt 8)%R) by (rewrite <- (sqrt_square 2) by lra; apply sqrt_le_1; lra).
  destruct H as [H|[H|[]]]; injection H as <- <-; cbn; rewrite Rabs_pos_eq by lra; lra.
Qed.

