(** Tracer diffusion in a fluid at rest: maximum principle (C68). *)
From Coq Require Import ZArith Reals List Bool Lia Lra.
From Verif Require Import Arith Arrays Prog Conc Launch Mesh AuxVars Tend Model Hex RSum Spec MeshProof MeshMem MeshR Ready StepVal PropsMesh PropsCons DiffuseThms.
Import ListNotations.
Open Scope Z_scope.

(** In a fluid at rest with uniform thickness (any nonzero value per layer) diffusion never leaves the range of the initial tracer values, with RK4 and with LSRK of any stage count, for any run whose step sizes satisfy 0 <= 4 kappa dt <= dc^2 (the choice of tracer_diffusion_convergence). Hyperdiffusion is off; tendencies may be disabled or not. *)
Theorem C68_maximum_principle :
  forall (S : setup RA), setup_ok S -> (0 < (dc (mesh_of_setup S) : R))%R -> 2 <= nx (mesh_of_setup S) -> 2 <= ny (mesh_of_setup S) ->
  hook S = None -> ((eddy_diff4 (par_of S) : R) <= 0)%R ->
  forall (H : Z -> R) (m : mem RA), ready S m -> disabled_zero S Tend m ->
  (forall k, 0 <= k < d_nlayers (sdims S) -> H k <> 0%R) ->
  (forall k c, 0 <= k < d_nlayers (sdims S) -> 0 <= c < d_ncells (sdims S) -> mr m (HCell St) [c; k] = H k) ->
  (forall k e, 0 <= k < d_nlayers (sdims S) -> 0 <= e < d_nedges (sdims S) -> mr m (VnEdge St) [e; k] = 0%R) ->
  forall steps : list (R * R),
  (forall t dt, In (t, dt) steps -> (0 <= dt /\ 4 * (eddy_diff2 (par_of S) : R) * dt <= (dc (mesh_of_setup S) : R) * dc (mesh_of_setup S))%R) ->
  forall (l k : Z) (lo hi : R), 0 <= l < ntracers (par_of S) -> 0 <= k < d_nlayers (sdims S) ->
  let within (m' : mem RA) := forall c, 0 <= c < d_ncells (sdims S) -> (lo <= mr m' (TrCell St) [l; c; k] <= hi)%R in
  within m -> always (sdims S) (rk4_run S steps) m within /\ forall n, always (sdims S) (lsrk_run S n steps) m within.
Proof. exact C68_maximum_principle_proof. Qed.
Print Assumptions C68_maximum_principle.

(** Non-vacuity: arbitrary tracer values, thickness 2 and 3 in the layers, kappa = 1, dc = 2, dt = 1 (the largest step allowed). *)
Definition S68 (k2 : R) : setup RA := mkSetup (mkConfig false true false 8) (mkHex (A:=RA) 4 6 (IZR 2) 3)
  (mkParams (A:=RA) (IZR 1) (IZR 10) (IZR 0) (IZR 1) (IZR 1) k2 (IZR 0) 2 true false) None.
Example ok68 k2 : setup_ok (S68 k2). Proof. ok. Qed.
Example C68_state k2 (g : Z -> R) : exists m, ready (S68 k2) m /\ disabled_zero (S68 k2) Tend m /\
  (forall k c, mr m (HCell St) [c; k] = IZR (2 + k mod 2)) /\ (forall k e, mr m (VnEdge St) [e; k] = 0%R) /\
  (forall l k c, mr m (TrCell St) [l; c; k] = g c) /\ forall k, 0 <= k < d_nlayers (sdims (S68 k2)) -> (IZR (2 + k mod 2) <> 0)%R.
Proof.
  destruct (ready_any (S68 k2) (ok68 k2) (fun a ix => match a, ix with HCell St, [c; k] => IZR (2 + k mod 2) | TrCell St, [l; c; k] => g c | _, _ => 0%R end)) as (m & Hr & E).
  exists m. split; [exact Hr|]. split; [intros k Hk; split; intros; now rewrite E|]. split; [intros; now rewrite E|]. split; [intros; now rewrite E|].
  split; [intros; now rewrite E|]. intros k _. apply not_0_IZR. pose proof (Z.mod_pos_bound k 2). lia.
Qed.
Example C68_step : (0 <= 1 /\ 4 * (eddy_diff2 (par_of (S68 1)) : R) * 1 <= (dc (mesh_of_setup (S68 1)) : R) * dc (mesh_of_setup (S68 1)))%R.
Proof. cbn. lra. Qed.

(** The step size limit cannot be raised for the forward Euler scheme (LSRK with one stage): for every setup with diffusion on and every dt with 4 kappa dt > dc^2 some nonnegative tracer becomes negative in one step, whatever the thickness. *)
Theorem C68_larger_step_refuted :
  forall (S : setup RA), setup_ok S -> (0 < (dc (mesh_of_setup S) : R))%R -> 2 <= nx (mesh_of_setup S) -> 2 <= ny (mesh_of_setup S) ->
  hook S = None -> ((eddy_diff4 (par_of S) : R) <= 0)%R -> (0 < (eddy_diff2 (par_of S) : R))%R ->
  forall (H : Z -> R), (forall k, 0 <= k < d_nlayers (sdims S) -> H k <> 0%R) ->
  forall t dt : R, ((dc (mesh_of_setup S) : R) * dc (mesh_of_setup S) < 4 * (eddy_diff2 (par_of S) : R) * dt)%R ->
  exists m, ready S m /\ disabled_zero S Tend m /\ (forall k c, mr m (HCell St) [c; k] = H k) /\ (forall k e, mr m (VnEdge St) [e; k] = 0%R) /\
  (forall l c k, (0 <= mr m (TrCell St) [l; c; k])%R) /\
  always (sdims S) (lsrk_run S 1 [(t, dt)]) m (fun m' => forall l k, 0 <= l < ntracers (par_of S) -> 0 <= k < d_nlayers (sdims S) -> (mr m' (TrCell St) [l; 0%Z; k] < 0)%R).
Proof. exact C68_larger_step_refuted_proof. Qed.
Print Assumptions C68_larger_step_refuted.

(** Non-vacuity: kappa = 2 and dt = 1 on the mesh above. *)
Example C68_large : (0 < (eddy_diff2 (par_of (S68 2)) : R))%R /\ ((dc (mesh_of_setup (S68 2)) : R) * dc (mesh_of_setup (S68 2)) < 4 * (eddy_diff2 (par_of (S68 2)) : R) * 1)%R.
Proof. cbn. lra. Qed.

(** Advection does not preserve nonnegative tracers: for every setup and every step size dt > 0 there is a state with thickness 1 and a nonnegative tracer that one forward Euler step makes negative. *)
Theorem C68_with_advection_refuted :
  forall (S : setup RA), setup_ok S -> (0 < (dc (mesh_of_setup S) : R))%R -> 2 <= nx (mesh_of_setup S) -> 2 <= ny (mesh_of_setup S) ->
  hook S = None -> ((eddy_diff2 (par_of S) : R) <= 0)%R -> ((eddy_diff4 (par_of S) : R) <= 0)%R ->
  forall t dt : R, (0 < dt)%R ->
  exists m, ready S m /\ (forall k c, mr m (HCell St) [c; k] = 1%R) /\ (forall l c k, (0 <= mr m (TrCell St) [l; c; k])%R) /\
  always (sdims S) (lsrk_run S 1 [(t, dt)]) m (fun m' => forall l k, 0 <= l < ntracers (par_of S) -> 0 <= k < d_nlayers (sdims S) -> (mr m' (TrCell St) [l; 0%Z; k] < 0)%R).
Proof. exact C68_with_advection_refuted_proof. Qed.
Print Assumptions C68_with_advection_refuted.

(** Non-vacuity: the mesh above without diffusion. *)
Example C68_adv : setup_ok (S68 0) /\ ((eddy_diff2 (par_of (S68 0)) : R) <= 0)%R /\ 0 < ntracers (par_of (S68 0)).
Proof. split; [apply ok68|]. cbn. split; [lra|lia]. Qed.

