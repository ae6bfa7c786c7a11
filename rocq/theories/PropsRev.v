(** Running backwards. *)
From Coq Require Import ZArith Reals List Bool Lia Lra.
From Verif Require Import Arith Arrays Prog Conc Launch Mesh AuxVars Tend Model RSum Spec MeshProof MeshMem Sample Ready Driver DriverFn PropsCons ForcedThms SimThms TimeThms PropsTime Order4Thms ExistThms RevThms.
Import ListNotations.
Open Scope Z_scope.
(** Without viscosity, diffusion and forcing a run can be undone by the program itself, up to the error of the stepper: S' is S with the rotation reversed (change_of_units with time factor -1; another build with the same number of layers is allowed).  Along a solution of the discrete equations with positive thickness on [0, T], N RK4 steps of size T/N with S, then reversal of all velocities, then N RK4 steps of the same positive size with S', then reversal again, give back the initial state with an error of at most C/N^4 in every value, thickness, velocity and tracers, for some C and all N at least C, for every schedule. *)
Theorem C95_there_and_back :
forall (S S' : setup RA) (T : R) (H V : R -> Z -> Z -> R) (Q : R -> Z -> Z -> Z -> R),
  setup_ok S -> setup_ok S' -> (0 < (dc (mesh_of_setup S) : R))%R -> (0 < T)%R -> change_of_units S S' 1 (-1) 1 -> d_nlayers (sdims S') = d_nlayers (sdims S) -> hook S = None ->
  solution S 1 T H V Q -> (forall t, (0 <= t <= T)%R -> positive_thickness S (H t)) ->
  exists C : R, forall N, 1 <= N -> (C <= IZR N)%R -> forall m : mem RA, fresh S RK4 m -> state_is S m (H 0%R) (V 0%R) (Q 0%R) ->
  always (sdims S) (stepper_run S RK4 (loop_steps (A:=RA) N (T / IZR N)%R)) m (fun m1 => forall m2, fresh S' RK4 m2 -> reversed S m1 m2 ->
  always (sdims S') (stepper_run S' RK4 (loop_steps (A:=RA) N (T / IZR N)%R)) m2 (fun m3 => forall m4, reversed S m3 m4 -> state_near S (C / IZR N ^ 4) m4 (H 0%R) (V 0%R) (Q 0%R))).
Proof. exact C95_there_and_back_proof. Qed.
Print Assumptions C95_there_and_back.

(** The same with no assumption on solutions: for every initial state with positive thickness there is a time T > 0 for which it holds. *)
Theorem C95_runs_can_be_reversed :
forall (S S' : setup RA) (h v : Z -> Z -> R) (q : Z -> Z -> Z -> R),
  setup_ok S -> setup_ok S' -> (0 < (dc (mesh_of_setup S) : R))%R -> change_of_units S S' 1 (-1) 1 -> d_nlayers (sdims S') = d_nlayers (sdims S) -> hook S = None ->
  positive_thickness S h ->
  exists T C : R, (0 < T)%R /\ forall N, 1 <= N -> (C <= IZR N)%R -> forall m : mem RA, fresh S RK4 m -> state_is S m h v q ->
  always (sdims S) (stepper_run S RK4 (loop_steps (A:=RA) N (T / IZR N)%R)) m (fun m1 => forall m2, fresh S' RK4 m2 -> reversed S m1 m2 ->
  always (sdims S') (stepper_run S' RK4 (loop_steps (A:=RA) N (T / IZR N)%R)) m2 (fun m3 => forall m4, reversed S m3 m4 -> state_near S (C / IZR N ^ 4) m4 h v q)).
Proof. exact C95_runs_can_be_reversed_proof. Qed.
Print Assumptions C95_runs_can_be_reversed.

(** Non-vacuity: the rotating uniform flow of C90 and its reversed setup; a nonuniform state; and the reversed state of any state can be started from. *)
Definition S95 : setup RA := mkSetup (mkConfig true false true 4) (mkHex (A:=RA) 4 6 (IZR 2) 3) (mkParams (A:=RA) (- IZR 1)%R (IZR 10) (IZR 0) (IZR 0) (IZR 0) (IZR 0) (IZR 0) 2 false false) None.
Definition S95' : setup RA := mkSetup (mkConfig false true false 8) (mkHex (A:=RA) 4 6 (IZR 2) 3) (mkParams (A:=RA) (IZR 1)%R (IZR 10) (IZR 0) (IZR 0) (IZR 0) (IZR 0) (IZR 0) 2 false false) None.
Example C95_hyps : setup_ok S95 /\ setup_ok S95' /\ change_of_units S95 S95' 1 (-1) 1 /\ hook S95 = None /\ positive_thickness S95 (fun c k => (IZR c ^ 2 + IZR k ^ 2 + 1)%R).
Proof.
  split; [ok|]. split; [ok|]. split; [unfold change_of_units; cbn; rewrite Rmax_left by lra; repeat split; try ring|]. split; [reflexivity|].
  intros c k _ _. pose proof (pow2_ge_0 (IZR c)). pose proof (pow2_ge_0 (IZR k)). lra.
Qed.
Example C95_reversed_exists : forall m1 : mem RA, exists m2, fresh S95' RK4 m2 /\ reversed S95 m1 m2.
Proof.
  intros m1. destruct (fresh_any S95' ltac:(ok) RK4 (fun a ix => match a with HCell St => mr m1 (HCell St) ix | VnEdge St => (- mr m1 (VnEdge St) ix)%R | TrCell St => mr m1 (TrCell St) ix | _ => 0%R end)) as (m & Fm & E).
  exists m. split; [exact Fm|]. intros k _. split; [|split]; intros; [apply (proj1 (E [c; k]))|apply (proj1 (proj2 (E [e; k])))|apply (proj2 (proj2 (E [l; c; k])))].
Qed.
