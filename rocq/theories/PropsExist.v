(** Existence and uniqueness of solutions of the discrete equations. *)
From Coq Require Import ZArith Reals List Bool Lia Lra.
From Verif Require Import Arith Arrays Prog Conc Launch Mesh AuxVars Tend Model RSum Spec MeshProof MeshMem Sample Ready Driver DriverFn PropsCons ForcedThms TimeThms PropsTime Order4Thms PropsOrder ExistThms.
Import ListNotations.
Open Scope Z_scope.
(** From all fields with positive thickness the discrete equations have a solution for some time: there are functions of time with those values at time 0, with positive thickness, whose derivatives are w times what [compute_tendency] computes from them.  So the hypothesis of C90 and C91 can be met from every admissible state, with every parameter and forcing. *)
Theorem C92_solutions_exist :
forall (S : setup RA) (w T0 : R) (h v : Z -> Z -> R) (q : Z -> Z -> Z -> R),
  setup_ok S -> (0 < (dc (mesh_of_setup S) : R))%R -> (0 < T0)%R -> lipschitz_forcing S T0 -> positive_thickness S h ->
  exists (T : R) (H V : R -> Z -> Z -> R) (Q : R -> Z -> Z -> Z -> R), (0 < T <= T0)%R /\ solution S w T H V Q /\
  same_fields S (H 0%R) (V 0%R) (Q 0%R) h v q /\ forall t, (0 <= t <= T)%R -> positive_thickness S (H t).
Proof. exact C92_solutions_exist_proof. Qed.
Print Assumptions C92_solutions_exist.

(** There is only one: two solutions on [0, T] with positive thickness that agree at time 0 agree at all times in [0, T]. *)
Theorem C92_solutions_are_unique :
forall (S : setup RA) (T : R) (H V H' V' : R -> Z -> Z -> R) (Q Q' : R -> Z -> Z -> Z -> R),
  setup_ok S -> (0 < (dc (mesh_of_setup S) : R))%R -> lipschitz_forcing S T ->
  solution S 1 T H V Q -> solution S 1 T H' V' Q' -> (forall t, (0 <= t <= T)%R -> positive_thickness S (H t)) -> (forall t, (0 <= t <= T)%R -> positive_thickness S (H' t)) ->
  same_fields S (H 0%R) (V 0%R) (Q 0%R) (H' 0%R) (V' 0%R) (Q' 0%R) ->
  forall t, (0 <= t <= T)%R -> same_fields S (H t) (V t) (Q t) (H' t) (V' t) (Q' t).
Proof. exact C92_solutions_are_unique_proof. Qed.
Print Assumptions C92_solutions_are_unique.

(** A statement about runs alone, with no hypothesis but positive thickness: for every such state there are a time T and fields, depending on nothing but the state, such that all RK4 runs to time T with N steps, N at least some C, from every memory with that state, end within C/N^4 of those fields. *)
Theorem C92_runs_with_small_steps_agree :
forall (S : setup RA) (T0 : R) (h v : Z -> Z -> R) (q : Z -> Z -> Z -> R),
  setup_ok S -> (0 < (dc (mesh_of_setup S) : R))%R -> (0 < T0)%R -> (disable_h (par_of S) = true \/ disable_vn (par_of S) = true -> hook S = None) -> smooth_forcing S T0 -> positive_thickness S h ->
  exists (T C : R) (h' v' : Z -> Z -> R) (q' : Z -> Z -> Z -> R), (0 < T <= T0)%R /\ positive_thickness S h' /\ forall N, 1 <= N -> (C <= IZR N)%R ->
  forall m : mem RA, fresh S RK4 m -> state_is S m h v q ->
  always (sdims S) (stepper_run S RK4 (loop_steps (A:=RA) N (T / IZR N)%R)) m (fun m' => state_near S (C / IZR N ^ 4) m' h' v' q').
Proof. exact C92_runs_with_small_steps_agree_proof. Qed.
Print Assumptions C92_runs_with_small_steps_agree.

(** Non-vacuity: a setup with all terms, two tracers and a forcing that grows with time, and a state with varying thickness. *)
Definition S92 : setup RA := mkSetup (mkConfig true false false 8) (mkHex (A:=RA) 4 6 (IZR 1) 3)
  (mkParams (A:=RA) (IZR 2) (IZR 10) (IZR 1) (IZR 1) (IZR 1) (IZR 1) (IZR 1) 2 false false) (Some (mkForcing RA (fun x y t => x * exp t)%R (fun x y t => y * exp t)%R (fun x y t => 3 * exp t)%R)).
Example C92_hyps : setup_ok S92 /\ smooth_forcing S92 10 /\ positive_thickness S92 (fun c k => 3 + sin (IZR c))%R.
Proof.
  split; [ok|]. split.
  - assert (W : forall a : R -> R -> R, four_derivatives (fun x y t => a x y * exp t)%R 10).
    { intros a. exists (fun _ x y t => a x y * exp t)%R. intros x y. split; [reflexivity|]. split.
      - intros i t _ _. apply derivable_pt_lim_scal, derivable_pt_lim_exp.
      - exists (Rabs (a x y) * exp 10)%R. intros t Ht. rewrite Rabs_mult, (Rabs_pos_eq (exp t)) by (left; apply exp_pos). apply Rmult_le_compat_l; [apply Rabs_pos|]. destruct (Req_dec t 10) as [-> | Hn]; [lra|]. left. apply exp_increasing. lra. }
    intros g Eg. injection Eg as <-. cbn [force_h force_vx force_vy]. split; [|split]; [apply (W (fun x _ => x))|apply (W (fun _ y => y))|apply (W (fun _ _ => 3%R))].
  - intros c k _ _. pose proof (SIN_bound (IZR c)). lra.
Qed.

