(** Energy of runs. *)
From Coq Require Import ZArith Reals List Bool Lia Lra.
From Verif Require Import Arith Arrays Prog Conc Launch Mesh AuxVars Tend Model RSum Spec MeshProof MeshMem Sample Ready Driver DriverFn PropsCons ForcedThms TimeThms PropsTime Order4Thms PropsOrder ExistThms EnergyThms.
Import ListNotations.
Open Scope Z_scope.
(** Without viscosity and forcing the energy that [energy_integral] returns is the same at all times along every solution of the discrete equations. *)
Theorem C93_solutions_conserve_energy :
forall (S : setup RA) (w T : R) (H V : R -> Z -> Z -> R) (Q : R -> Z -> Z -> Z -> R), setup_ok S -> (0 < (dc (mesh_of_setup S) : R))%R -> 2 <= nx (mesh_of_setup S) -> 2 <= ny (mesh_of_setup S) ->
  disable_h (par_of S) = false -> disable_vn (par_of S) = false -> hook S = None -> ((visc_del2 (par_of S) : R) <= 0)%R -> ((visc_del4 (par_of S) : R) <= 0)%R -> solution S w T H V Q ->
  forall (t : R) (m m' : mem RA) (r r' : option R), (0 <= t <= T)%R -> fresh S RK4 m -> fresh S RK4 m' -> state_is S m (H 0%R) (V 0%R) (Q 0%R) -> state_is S m' (H t) (V t) (Q t) ->
  energy_integral S St m r -> energy_integral S St m' r' -> exists E : R, r = Some E /\ r' = Some E.
Proof. exact C93_solutions_conserve_energy_proof. Qed.
Print Assumptions C93_solutions_conserve_energy.

(** The energy change of a run is an error of the time stepping only, and decreases with its order: if a solution exists on [0, T] then N steps of size T/N change the energy by at most C/N^4 with RK4, and by at most C/N with the LSRK steppers, for some C and all N at least C. *)
Theorem C93_energy_error_of_runs :
forall st, st = RK4 \/ st = LSRK 1 \/ st = LSRK 5 ->
  exists w : R, (st <> LSRK 5 -> w = 1%R) /\ (Rabs (w - 1) <= 1 / 10 ^ 25)%R /\
  forall (S : setup RA) (T : R) (H V : R -> Z -> Z -> R) (Q : R -> Z -> Z -> Z -> R), setup_ok S -> (0 < (dc (mesh_of_setup S) : R))%R -> 2 <= nx (mesh_of_setup S) -> 2 <= ny (mesh_of_setup S) ->
  disable_h (par_of S) = false -> disable_vn (par_of S) = false -> hook S = None -> ((visc_del2 (par_of S) : R) <= 0)%R -> ((visc_del4 (par_of S) : R) <= 0)%R -> (0 < T)%R -> solution S w T H V Q -> (forall t, (0 <= t <= T)%R -> positive_thickness S (H t)) ->
  exists C : R, forall N, 1 <= N -> (C <= IZR N)%R -> forall m : mem RA, fresh S st m -> state_is S m (H 0%R) (V 0%R) (Q 0%R) ->
  always (sdims S) (stepper_run S st (loop_steps (A:=RA) N (T / IZR N)%R)) m (fun m' => forall r r', energy_integral S St m r -> energy_integral S St m' r' ->
    exists E E' : R, r = Some E /\ r' = Some E' /\ (Rabs (E' - E) <= C / IZR N ^ (match st with RK4 => 4 | LSRK _ => 1 end))%R).
Proof. exact C93_energy_error_of_runs_proof. Qed.
Print Assumptions C93_energy_error_of_runs.

(** For every state with positive thickness, with no hypothesis about solutions, there is a time T such that RK4 runs to time T with N steps change the energy by at most C/N^4. *)
Theorem C93_energy_of_rk4_runs :
forall (S : setup RA) (h v : Z -> Z -> R) (q : Z -> Z -> Z -> R), setup_ok S -> (0 < (dc (mesh_of_setup S) : R))%R -> 2 <= nx (mesh_of_setup S) -> 2 <= ny (mesh_of_setup S) ->
  disable_h (par_of S) = false -> disable_vn (par_of S) = false -> hook S = None -> ((visc_del2 (par_of S) : R) <= 0)%R -> ((visc_del4 (par_of S) : R) <= 0)%R -> positive_thickness S h ->
  exists T C : R, (0 < T)%R /\ forall N, 1 <= N -> (C <= IZR N)%R -> forall m : mem RA, fresh S RK4 m -> state_is S m h v q ->
  always (sdims S) (stepper_run S RK4 (loop_steps (A:=RA) N (T / IZR N)%R)) m (fun m' => forall r r', energy_integral S St m r -> energy_integral S St m' r' ->
    exists E E' : R, r = Some E /\ r' = Some E' /\ (Rabs (E' - E) <= C / IZR N ^ 4)%R).
Proof. exact C93_energy_of_rk4_runs_proof. Qed.
Print Assumptions C93_energy_of_rk4_runs.

(** Non-vacuity: the setup of C28 (gravity, rotation, advection, a tracer), with varying thickness and any velocity; [energy_integral] has a value for every state (C49). *)
Example C93_hyps : setup_ok S28 /\ (0 < (dc (mesh_of_setup S28) : R))%R /\ 2 <= nx (mesh_of_setup S28) /\ 2 <= ny (mesh_of_setup S28) /\ hook S28 = None /\ ((visc_del2 (par_of S28) : R) <= 0)%R /\ ((visc_del4 (par_of S28) : R) <= 0)%R /\
  positive_thickness S28 (fun c k => 3 + sin (IZR c))%R.
Proof. split; [ok|]. cbn. repeat split; try lia; try lra. intros c k _ _. pose proof (SIN_bound (IZR c)). lra. Qed.

