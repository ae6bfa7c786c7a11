(** The order of convergence in time. *)
From Coq Require Import ZArith Reals List Bool Lia Lra.
From Verif Require Import Arith Arrays Prog Conc Launch Mesh AuxVars Tend Model RSum Spec MeshProof MeshMem Sample Ready Driver DriverFn PropsCons ForcedThms TimeThms PropsTime Order4Thms.
Import ListNotations.
Open Scope Z_scope.
(** The RK4 stepper is of order four on the full discrete equations, every term, both integration paths, tracers, viscosity and forcing included.  Take the functions of C90 (with weight 1), and a forcing that has four derivatives in time, the fourth bounded.  Then, for some constant C and every N at least C, every execution of a run of N steps of size T/N from their values at time 0 ends in a state all of whose values differ by at most C/N^4 from the functions at time T.  Nothing is assumed about the smoothness of the functions themselves: it follows, since the tendencies are rational functions of the state with positive denominators. *)
Theorem C91_rk4_is_of_order_four :
forall (S : setup RA) (T : R) (H V : R -> Z -> Z -> R) (Q : R -> Z -> Z -> Z -> R),
  setup_ok S -> (0 < (dc (mesh_of_setup S) : R))%R -> (0 < T)%R ->
  (disable_h (par_of S) = true \/ disable_vn (par_of S) = true -> hook S = None) -> smooth_forcing S T ->
  solution S 1 T H V Q ->
  (forall t c k, (0 <= t <= T)%R -> 0 <= c < d_ncells (sdims S) -> 0 <= k < d_nlayers (sdims S) -> (0 < H t c k)%R) ->
  exists C : R, forall N, 1 <= N -> (C <= IZR N)%R ->
  forall m : mem RA, fresh S RK4 m -> state_is S m (H 0%R) (V 0%R) (Q 0%R) ->
  always (sdims S) (stepper_run S RK4 (loop_steps (A:=RA) N (T / IZR N)%R)) m (fun m' => state_near S (C / IZR N ^ 4) m' (H T) (V T) (Q T)).
Proof. exact C91_rk4_is_of_order_four_proof. Qed.
Print Assumptions C91_rk4_is_of_order_four.

(** Non-vacuity: the rotating uniform flow of C90, and a setup with forcing that varies in time. *)
Example C91_hyps : setup_ok S90 /\ smooth_forcing S90 10 /\ solution S90 1 10 (fun _ _ _ => 3%R) (V90 1) (fun _ _ _ _ => 0%R).
Proof. destruct (C90_solution 1) as (A & _ & B). split; [exact A|]. split; [intros g; discriminate|exact B]. Qed.
Example C91_forcing : four_derivatives (fun x y t => x * y * exp t)%R 10.
Proof.
  exists (fun _ x y t => x * y * exp t)%R. intros x y. split; [reflexivity|]. split.
  - intros i t _ _. apply derivable_pt_lim_scal, derivable_pt_lim_exp.
  - exists (Rabs (x * y) * exp 10)%R. intros t Ht. rewrite Rabs_mult, (Rabs_pos_eq (exp t)) by (left; apply exp_pos). apply Rmult_le_compat_l; [apply Rabs_pos|]. destruct (Req_dec t 10) as [-> | Hn]; [lra|]. left. apply exp_increasing. lra.
Qed.

(** Runs of the RK4 stepper that do not start exactly at the initial values stay near the solution, with a bound that does not depend on the number of steps: if all values of the initial state differ by at most e from the functions at time 0, where e is at most 1/C, every execution of N steps of size T/N ends within C (e + 1/N^4) of the functions at time T. *)
Theorem C94_rk4_runs_from_nearby_states :
forall (S : setup RA) (T : R) (H V : R -> Z -> Z -> R) (Q : R -> Z -> Z -> Z -> R),
  setup_ok S -> (0 < (dc (mesh_of_setup S) : R))%R -> (0 < T)%R ->
  (disable_h (par_of S) = true \/ disable_vn (par_of S) = true -> hook S = None) -> smooth_forcing S T ->
  solution S 1 T H V Q ->
  (forall t c k, (0 <= t <= T)%R -> 0 <= c < d_ncells (sdims S) -> 0 <= k < d_nlayers (sdims S) -> (0 < H t c k)%R) ->
  exists C : R, forall N (e : R), 1 <= N -> (C <= IZR N)%R -> (0 <= e)%R -> (C * e <= 1)%R ->
  forall m : mem RA, fresh S RK4 m -> state_near S e m (H 0%R) (V 0%R) (Q 0%R) ->
  always (sdims S) (stepper_run S RK4 (loop_steps (A:=RA) N (T / IZR N)%R)) m (fun m' => state_near S (C * (e + / IZR N ^ 4)) m' (H T) (V T) (Q T)).
Proof. exact C94_rk4_runs_from_nearby_states_proof. Qed.
Print Assumptions C94_rk4_runs_from_nearby_states.

(** The stepper is stable: two runs of N steps of size T/N from states that differ by at most d (both within e of the functions at time 0) end in states that differ by at most C d, whatever N and d are. *)
Theorem C94_rk4_runs_are_stable :
forall (S : setup RA) (T : R) (H V : R -> Z -> Z -> R) (Q : R -> Z -> Z -> Z -> R),
  setup_ok S -> (0 < (dc (mesh_of_setup S) : R))%R -> (0 < T)%R ->
  (disable_h (par_of S) = true \/ disable_vn (par_of S) = true -> hook S = None) -> smooth_forcing S T ->
  solution S 1 T H V Q ->
  (forall t c k, (0 <= t <= T)%R -> 0 <= c < d_ncells (sdims S) -> 0 <= k < d_nlayers (sdims S) -> (0 < H t c k)%R) ->
  exists C : R, forall N (e : R), 1 <= N -> (C <= IZR N)%R -> (0 <= e)%R -> (C * e <= 1)%R ->
  forall (m1 m2 : mem RA) (d : R), fresh S RK4 m1 -> state_near S e m1 (H 0%R) (V 0%R) (Q 0%R) -> fresh S RK4 m2 -> state_near S e m2 (H 0%R) (V 0%R) (Q 0%R) ->
  (0 <= d)%R -> states_near S d m1 m2 ->
  always (sdims S) (stepper_run S RK4 (loop_steps (A:=RA) N (T / IZR N)%R)) m1 (fun m1' => always (sdims S) (stepper_run S RK4 (loop_steps (A:=RA) N (T / IZR N)%R)) m2 (fun m2' => states_near S (C * d) m1' m2')).
Proof. exact C94_rk4_runs_are_stable_proof. Qed.
Print Assumptions C94_rk4_runs_are_stable.

(** Non-vacuity: the rotating uniform flow of C90, and, for every e, states within e of its initial values that are not equal to them. *)
Example C94_states : forall e : R, (0 <= e)%R -> exists m : mem RA, fresh S90 RK4 m /\ state_near S90 e m (fun _ _ => 3%R) (V90 1 0%R) (fun _ _ _ => 0%R) /\ mr m (HCell St) [0; 0] = (3 + e)%R.
Proof.
  intros e He. destruct (C90_solution 1) as (A & _). destruct (fresh_any S90 A RK4 (fun a ix => match a, ix with HCell St, [c; k] => (3 + e)%R | VnEdge St, [j; k] => V90 1 0%R j k | _, _ => 0%R end)) as (m & Fm & E).
  exists m. split; [exact Fm|]. split; [|exact (proj1 (E [0; 0]))]. intros k _. split; [|split]; intros.
  - rewrite (proj1 (E [c; k])). replace (3 + e - 3)%R with e by ring. rewrite Rabs_pos_eq; lra.
  - rewrite (proj1 (proj2 (E [e0; k]))), Rminus_diag_eq, Rabs_R0 by reflexivity. exact He.
  - rewrite (proj2 (proj2 (E [l; c; k]))), Rminus_diag_eq, Rabs_R0 by reflexivity. exact He.
Qed.
