(** Whole programs: constructors, initial condition and time loop. *)
From Coq Require Import ZArith Reals List Bool Lia Lra SpecFloat.
From Verif Require Import Arith Arrays Prog Conc Launch Mesh AuxVars Tend Model RSum Ready Relate StepVal Driver DriverFn DriverThms PropsCons PropsSteady PropsStep.
Import ListNotations.
Open Scope Z_scope.

(** C52, in any arithmetic: a program never has undefined behaviour, it always can run to the end, and all its executions end with the same contents of every view.  The initial condition and the times and time steps are arbitrary. *)
Theorem C52_programs_are_safe_and_deterministic :
  forall (A : Arith) (S : setup A), setup_ok S ->
  forall (st : stepper) (I : initial A) (steps : list (F A * F A)),
  exists m', exec (sdims S) (program S st I steps) (mzero A) (OK m') /\
    forall o, exec (sdims S) (program S st I steps) (mzero A) o -> exists m, o = OK m /\ meq m m' .
Proof. exact C52_programs_are_safe_and_deterministic_proof. Qed.
Print Assumptions C52_programs_are_safe_and_deterministic.

(** Non-vacuity: the benchmark program on a 5 x 5 mesh in binary64, with 3 tracers. *)
Definition S52 (c s : spec_float -> spec_float) (p dx : spec_float) : setup (SFA c s p) :=
  mkSetup (mkConfig false false false 8) (mkHex (A:=SFA c s p) 5 5 dx 10)
    (mkParams (A:=SFA c s p) dx dx dx dx dx dx dx 3 false false) None.
Example C52_applies c s p dx (I : initial (SFA c s p)) dt : setup_ok (S52 c s p dx) /\
  exists m', exec (sdims (S52 c s p dx)) (program (S52 c s p dx) (LSRK 5) I (benchmark_steps 10 dt)) (mzero _) (OK m').
Proof.
  assert (H : setup_ok (S52 c s p dx)) by ok. split; [exact H|].
  destruct (C52_programs_are_safe_and_deterministic _ _ H (LSRK 5) I (benchmark_steps 10 dt)) as (m' & X & _). eauto.
Qed.

(** C52, what the time loop starts from, in any arithmetic: the state is the initial condition evaluated at the centres of the cells and, as normal component, at the points of the edges; the stepper's tendency is zero. *)
Theorem C52_initial_state :
  forall (A : Arith) (S : setup A), setup_ok S ->
  forall (st : stepper) (I : initial A) (m : mem A), exec (sdims S) (prologue S st I) (mzero A) (OK m) ->
  ready S m /\ forall k, 0 <= k < d_nlayers (sdims S) ->
  (forall c, 0 <= c < d_ncells (sdims S) ->
    mr m (HCell St) [c; k] = ini_h I (mr m XCell [c]) (mr m YCell [c]) /\ mr m (HCell Tend) [c; k] = (#0)%fp /\
    forall l, 0 <= l < ntracers (par_of S) ->
      mr m (TrCell St) [l; c; k] = ini_tr I l (mr m XCell [c]) (mr m YCell [c]) /\ mr m (TrCell Tend) [l; c; k] = (#0)%fp) /\
  (forall e, 0 <= e < d_nedges (sdims S) ->
    mr m (VnEdge St) [e; k] = (fcos (mr m AngleEdge [e]) * ini_vx I (mr m XEdge [e]) (mr m YEdge [e]) +
                               fsin (mr m AngleEdge [e]) * ini_vy I (mr m XEdge [e]) (mr m YEdge [e]))%fp /\
    mr m (VnEdge Tend) [e; k] = (#0)%fp).
Proof. exact C52_initial_state_proof. Qed.
Print Assumptions C52_initial_state.

(** The prologue has an execution. *)
Example C52_prologue_runs c s p dx (I : initial (SFA c s p)) : exists m, exec (sdims (S52 c s p dx)) (prologue (S52 c s p dx) RK4 I) (mzero _) (OK m).
Proof.
  destruct (hs_prologue (S52 c s p dx) ltac:(ok) RK4 I) as (m0 & _ & H). apply (hsafe_always _ _ _ _ H).
Qed.

(** C47 for steppers as constructed: after the constructors, and whatever the user then puts in the state, the variables with disabled tendencies keep their values. *)
Theorem C47_fresh_stepper :
  forall (S : setup RA), setup_ok S -> hook S = None ->
  forall (st : stepper) (steps : list (R * R)) (m : mem RA), fresh S st m ->
  always (sdims S) (stepper_run S st steps) m (fun m' => forall k, 0 <= k < d_nlayers (sdims S) ->
    (disable_h (par_of S) = true -> forall c, 0 <= c < d_ncells (sdims S) -> mr m' (HCell St) [c; k] = mr m (HCell St) [c; k]) /\
    (disable_vn (par_of S) = true -> forall e, 0 <= e < d_nedges (sdims S) -> mr m' (VnEdge St) [e; k] = mr m (VnEdge St) [e; k])).
Proof. exact C47_fresh_stepper_proof. Qed.
Print Assumptions C47_fresh_stepper.

(** Non-vacuity: fresh memories with any contents of the state exist. *)
Example C47_fresh_ex st (g : rarr -> list Z -> R) : setup_ok S47 /\ hook S47 = None /\ disable_h (par_of S47) = true /\
  exists m, fresh S47 st m /\ forall ix, mr m (HCell St) ix = g (HCell St) ix /\ mr m (VnEdge St) ix = g (VnEdge St) ix.
Proof.
  assert (H : setup_ok S47) by ok. split; [exact H|]. split; [reflexivity|]. split; [reflexivity|].
  destruct (fresh_any S47 H st g) as (m & F & E). exists m. split; [exact F|]. intros ix. split; apply E.
Qed.

(** C47, the constructor of LSRKStepper: it clears the work arrays whatever they hold, so a new stepper can be created at any time. *)
Theorem C47_lsrk_constructor_clears :
  forall (S : setup RA), setup_ok S -> hook S = None ->
  forall (n : Z) (steps : list (R * R)) (m : mem RA), ready S m ->
  always (sdims S) (lsrk_ctor S) m (fun m' => forall k, 0 <= k < d_nlayers (sdims S) ->
    (forall c, 0 <= c < d_ncells (sdims S) -> mr m' (HCell Tend) [c; k] = 0%R) /\
    (forall e, 0 <= e < d_nedges (sdims S) -> mr m' (VnEdge Tend) [e; k] = 0%R) /\
    (forall l c, 0 <= l < ntracers (par_of S) -> 0 <= c < d_ncells (sdims S) -> mr m' (TrCell Tend) [l; c; k] = 0%R)) /\
  always (sdims S) (lsrk_ctor S ++ lsrk_run S n steps) m (fun m' => forall k, 0 <= k < d_nlayers (sdims S) ->
    (disable_h (par_of S) = true -> forall c, 0 <= c < d_ncells (sdims S) -> mr m' (HCell St) [c; k] = mr m (HCell St) [c; k]) /\
    (disable_vn (par_of S) = true -> forall e, 0 <= e < d_nedges (sdims S) -> mr m' (VnEdge St) [e; k] = mr m (VnEdge St) [e; k])).
Proof. exact C47_lsrk_constructor_clears_proof. Qed.
Print Assumptions C47_lsrk_constructor_clears.

(** Non-vacuity: stale contents of the work arrays. *)
Example C47_stale : exists m, ready S47 m /\ mr m (HCell Tend) [3; 1] = 5%R.
Proof. destruct (ready_any S47 ltac:(ok) (fun _ _ => 5%R)) as (m & R & E). exists m. split; [exact R|]. now apply E. Qed.

(** C30 for whole programs: with constant initial thickness, zero initial velocity and constant initial tracers the program ends with the values it started from. *)
Theorem C30_program_at_rest :
  forall (S : setup RA), setup_ok S -> (0 < (dc (mesh_of_setup S) : R))%R -> hook S = None ->
  forall (H : R) (T : Z -> R) (st : stepper) (steps : list (R * R)),
  always (sdims S) (program S st (mkInitial (A:=RA) (fun _ _ => H) (fun _ _ => 0%R) (fun _ _ => 0%R) (fun l _ _ => T l)) steps) (mzero RA)
    (fun m' => forall k, 0 <= k < d_nlayers (sdims S) ->
      (forall c, 0 <= c < d_ncells (sdims S) -> mr m' (HCell St) [c; k] = H) /\
      (forall e, 0 <= e < d_nedges (sdims S) -> mr m' (VnEdge St) [e; k] = 0%R) /\
      (forall l c, 0 <= l < ntracers (par_of S) -> 0 <= c < d_ncells (sdims S) -> mr m' (TrCell St) [l; c; k] = T l)).
Proof. exact C30_program_at_rest_proof. Qed.
Print Assumptions C30_program_at_rest.

(** The hypotheses hold for [S24] (all terms enabled, one tracer). *)
Example C30_program_hyps : setup_ok S24 /\ (0 < (dc (mesh_of_setup S24) : R))%R /\ hook S24 = None.
Proof. destruct ok24 as (H & H' & _). auto. Qed.

(** C31 for whole programs: with constant initial thickness and velocity and no rotation the program ends with the thickness and the velocity it started from. *)
Theorem C31_program_uniform_flow :
  forall (S : setup RA), setup_ok S -> (0 < (dc (mesh_of_setup S) : R))%R ->
  2 <= nx (mesh_of_setup S) -> 2 <= ny (mesh_of_setup S) -> hook S = None -> f0 (par_of S) = 0%R ->
  forall (H U V : R) (T : Z -> R -> R -> R) (st : stepper) (steps : list (R * R)),
  always (sdims S) (program S st (mkInitial (A:=RA) (fun _ _ => H) (fun _ _ => U) (fun _ _ => V) T) steps) (mzero RA)
    (fun m' => forall k, 0 <= k < d_nlayers (sdims S) ->
      (forall c, 0 <= c < d_ncells (sdims S) -> mr m' (HCell St) [c; k] = H) /\
      (forall e, 0 <= e < d_nedges (sdims S) ->
         mr m' (VnEdge St) [e; k] = (cos (mr m' AngleEdge [e]) * U + sin (mr m' AngleEdge [e]) * V)%R)).
Proof. exact C31_program_uniform_flow_proof. Qed.
Print Assumptions C31_program_uniform_flow.

Example C31_program_hyps : setup_ok S31 /\ (0 < (dc (mesh_of_setup S31) : R))%R /\ 2 <= nx (mesh_of_setup S31) /\ 2 <= ny (mesh_of_setup S31) /\
  hook S31 = None /\ f0 (par_of S31) = 0%R.
Proof. split; [ok|]. cbn. repeat split; try lia; try reflexivity. lra. Qed.

(** C53, over the reals: [n] is the result of [std::ceil(timeend / dt)] and [dt'] the adjusted time step. *)
Theorem C53_time_loop_reaches_the_end :
  forall (timeend dt : R) (n : Z), (0 < timeend)%R -> (0 < dt)%R -> (IZR n - 1 < timeend / dt <= IZR n)%R ->
  let dt' := (timeend / IZR n)%R in let steps := loop_steps (A:=RA) n dt' in
  (0 < dt' <= dt)%R /\ Z.of_nat (length steps) = n /\
  (forall i, nth_error steps i = if Z.of_nat i <? n then Some ((IZR (Z.of_nat i) * dt')%R, dt') else None) /\
  (exists t, hd_error steps = Some (t, dt') /\ t = 0%R) /\
  (forall i t u, nth_error steps i = Some (t, dt') -> nth_error steps (Datatypes.S i) = Some (u, dt') -> u = (t + dt')%R) /\
  (exists t, nth_error steps (Z.to_nat (n - 1)) = Some (t, dt') /\ (t + dt' = timeend)%R).
Proof. exact C53_time_loop_reaches_the_end_proof. Qed.
Print Assumptions C53_time_loop_reaches_the_end.

(** E.g. timeend 2 and dt 3/4: three steps of length 2/3. *)
Example C53_ex : (IZR 3 - 1 < 2 / (3 / 4) <= IZR 3)%R.
Proof. split; lra. Qed.

