(** Model of the programs that use the library: construction of states and steppers, initialisation
    of the state and the time loop (/repo/test/*.cpp, /repo/benchmark/benchmark.cpp). *)
From Coq Require Import ZArith List Bool.
From Verif Require Import Arith Arrays Prog Conc Mesh AuxVars Tend Model Ready.
Import ListNotations.
Open Scope Z_scope.

(** [ShallowWaterState(mesh, params)], /repo/src/model/shallow_water_state.cpp l.7-14: the constructor
    of a labelled Kokkos::View sets every element to zero. *)
Definition state_ctor {A} (S : setup A) (s : sid) : list (launch A) :=
  let D := sdims S in
  [deep_copy_r D (HCell s) (#0)%fp; deep_copy_r D (VnEdge s) (#0)%fp; deep_copy_r D (TrCell s) (#0)%fp].

(** [RK4Stepper(shallow_water)], /repo/src/time_integration/rk4.cpp l.8-26: the views of [m_tend],
    [m_provis_state] and [m_old_state].  (The coefficients are [rk4_a] etc. of Model.v.) *)
Definition rk4_ctor {A} (S : setup A) : list (launch A) :=
  state_ctor S Tend ++ state_ctor S Provis ++ state_ctor S Old.

(** The stepper a program uses: [RK4Stepper(model)] or [LSRKStepper(model, n)]. *)
Inductive stepper : Set := RK4 | LSRK (n : Z).

(** The constructor of the stepper; for LSRKStepper the views of [m_tend] and the explicit zeroing,
    /repo/src/time_integration/lsrk.cpp l.5-14. *)
Definition stepper_ctor {A} (S : setup A) (st : stepper) : list (launch A) :=
  match st with RK4 => rk4_ctor S | LSRK n => state_ctor S Tend ++ lsrk_ctor S end.

(** The calls [stepper.do_step(t, dt, state)]. *)
Definition stepper_run {A} (S : setup A) (st : stepper) (steps : list (F A * F A)) : list (launch A) :=
  match st with RK4 => rk4_run S steps | LSRK n => lsrk_run S n steps end.

(** An initial condition: functions of the position, as the member functions [h], [vx], [vy], [tr] of
    the structs [DoubleVortex], [ManufacturedSolution], [TracerAdvectionTest] etc. *)
Record initial (A : Arith) : Type := mkInitial {
  ini_h : F A -> F A -> F A; ini_vx : F A -> F A -> F A; ini_vy : F A -> F A -> F A;
  ini_tr : Z -> F A -> F A -> F A
}.
Arguments mkInitial {_} _ _ _ _.
Arguments ini_h {_} _ _ _.
Arguments ini_vx {_} _ _ _.
Arguments ini_vy {_} _ _ _.
Arguments ini_tr {_} _ _ _ _.

(** The kernels "init_h" (or "init_h_and_tr"), "init_tr" and "init_vn": test/double_vortex.cpp l.101-126,
    test/nonlinear_swe_convergence.cpp l.134-161, test/tracer_*_convergence.cpp l.53-84,
    benchmark/benchmark.cpp l.110-146.  Simplifications: the tracers are initialised in a launch of
    their own also in the programs where one kernel initialises thickness and tracers, and the views
    that hold the exact solution are not modelled. *)
Definition init_state {A} (S : setup A) (I : initial A) : list (launch A) :=
  let D := sdims S in
  [par2 (d_ncells D) (d_nlayers D) (fun icell k =>
     x <- rdr XCell [icell] ;; y <- rdr YCell [icell] ;;
     str (HCell St) [icell; k] (ini_h I x y))] ++
  whenL (0 <? ntracers (par_of S))
    [par3 (ntracers (par_of S)) (d_ncells D) (d_nlayers D) (fun l icell k =>
       x <- rdr XCell [icell] ;; y <- rdr YCell [icell] ;;
       str (TrCell St) [l; icell; k] (ini_tr I l x y))] ++
  [par2 (d_nedges D) (d_nlayers D) (fun iedge k =>
     x <- rdr XEdge [iedge] ;; y <- rdr YEdge [iedge] ;; a <- rdr AngleEdge [iedge] ;;
     str (VnEdge St) [iedge; k] (fcos a * ini_vx I x y + fsin a * ini_vy I x y)%fp)].

(** The constructors of mesh, model, state and stepper, in the order of the programs. *)
Definition constructors {A} (S : setup A) (st : stepper) : list (launch A) :=
  (mesh_ctor (cfg_of S) (mesh_of_setup S) ++ model_ctor S) ++ state_ctor S St ++ stepper_ctor S st.

(** The function [run] up to the time loop, and with it: test/double_vortex.cpp l.79-140,
    test/nonlinear_swe_convergence.cpp l.115-166, test/tracer_*_convergence.cpp l.30-89,
    benchmark/benchmark.cpp l.83-161. *)
Definition prologue {A} (S : setup A) (st : stepper) (I : initial A) : list (launch A) :=
  constructors S st ++ init_state S I.
Definition program {A} (S : setup A) (st : stepper) (I : initial A) (steps : list (F A * F A)) : list (launch A) :=
  prologue S st I ++ stepper_run S st steps.

(** A memory in which the constructors have run and nothing has changed since, except that the user has
    put something in the state. *)
Definition fresh {A} (S : setup A) (st : stepper) (m : mem A) : Prop :=
  exists m1, exec (sdims S) (constructors S st) (mzero A) (OK m1) /\
    forall l, (forall ix, l <> LR (HCell St) ix /\ l <> LR (VnEdge St) ix /\ l <> LR (TrCell St) ix) -> mget m l = mget m1 l.

(** [for (Int step = 0; step < numberofsteps; ++step) { Real t = step * dt; stepper.do_step(t, dt, state); }],
    test/*.cpp. *)
Definition loop_steps {A} (numberofsteps : Z) (dt : F A) : list (F A * F A) :=
  map (fun step => ((fofZ step * dt)%fp, dt)) (zseq numberofsteps).
(** benchmark.cpp l.148 and l.158-161: one step at time 0, then steps at [(step + 1) * dt]. *)
Definition benchmark_steps {A} (numberofsteps : Z) (dt : F A) : list (F A * F A) :=
  ((#0)%fp, dt) :: map (fun step => ((fofZ (step + 1) * dt)%fp, dt)) (zseq numberofsteps).
