(** Model of the function [run] of test/nonlinear_swe_convergence.cpp, and of the functions [main] of this program
    and of test/tracer_advection_convergence.cpp up to the verdict. *)
From Coq Require Import ZArith Reals List Bool.
From Verif Require Import Arith Arrays Prog Conc Mesh Model Driver TestFns TestRun TestAdv.
Import ListNotations.
Open Scope Z_scope.

(** The kernel "compute_error", nonlinear_swe_convergence.cpp l.168-176.  The iterations [(icell, k)] of the
    MDRangePolicy are numbered [icell * nlayers + k].  Simplification: the view [hexact_cell], filled with
    [h(x_cell(icell), y_cell(icell), timeend)] before the time loop (l.144), is not modelled; the value is computed
    where it is used. *)
Definition nl_compute_error {A} (S : setup A) (exact : F A -> F A -> F A) (i : Z) (accum : F A) : prog A (F A) :=
  let icell := i / d_nlayers (sdims S) in let k := i mod d_nlayers (sdims S) in
  (x <- rdr XCell [icell] ;; y <- rdr YCell [icell] ;; h <- rdr (HCell St) [icell; k] ;;
   let err := exact x y - h in Ret (accum + err * err))%fp.
(** l.178 [sqrt(errf / (nx * ny))]. *)
Definition nl_error_norm {A} (S : setup A) (exact : F A -> F A -> F A) (m : mem A) (r : option (F A)) : Prop :=
  exists errf, reduces (sdims S) m (nl_compute_error S exact) (zseq (d_ncells (sdims S) * d_nlayers (sdims S))) errf /\
    r = option_map (fun e => fsqrt (e / fofZ (nx (mesh_of_setup S) * ny (mesh_of_setup S))))%fp errf.
(** The initial state, l.134-161 (the model has no tracers); l.128-130: final time and step size before it is adjusted. *)
Definition nl_init : initial RA :=
  mkInitial (A:=RA) (fun x y => MS.h x y 0) (fun x y => MS.vx x y 0) (fun x y => MS.vy x y 0) (fun _ _ _ => 0%R).
Definition nl_timeend : R := (10 * 60 * 60)%R.
Definition nl_dt (n : Z) : R := (3 * (MS.lx / IZR n) / 1000)%R.
(** [run(n)], l.115-179, returns [r]: the number of steps is the ceiling of [timeend / dt], and [timeend] is divided by
    it (l.131-132); any schedule of the kernels and any order of the reduction. *)
Definition nl_run (cf : config) (n : Z) (r : R) : Prop :=
  exists N m', (IZR N - 1 < nl_timeend / nl_dt n <= IZR N)%R /\
    exec (sdims (MS.setup cf n)) (program (MS.setup cf n) RK4 nl_init (loop_steps (A:=RA) N (nl_timeend / IZR N)%R)) (mzero RA) (OK m') /\
    nl_error_norm (MS.setup cf n) (fun x y => MS.h x y nl_timeend) m' (Some r).
(** The same for test/tracer_advection_convergence.cpp, l.30-102. *)
Definition ta_run (cf : config) (f0 : R) (n : Z) (r : R) : Prop :=
  exists N m', (IZR N - 1 < ta_timeend / ta_dt n <= IZR N)%R /\
    exec (sdims (ta_setup cf f0 n)) (program (ta_setup cf f0 n) (LSRK 5) ta_init (loop_steps (A:=RA) N (ta_timeend / IZR N)%R)) (mzero RA) (OK m') /\
    error_norm (ta_setup cf f0 n) (fun x y => TA.tr x y ta_timeend) m' (Some r).
(** [main], l.181-212 of nonlinear_swe_convergence.cpp and l.104-135 of tracer_advection_convergence.cpp: the errors for 50
    and 100 cells, the rate [log2(err[0] / err[1])], and the verdict [check_rate(rate, 2, 0.05)]. *)
Definition main_rate (run : Z -> R -> Prop) (rate : R) : Prop := exists e1 e2, run 50 e1 /\ run 100 e2 /\ rate = log2 (e1 / e2).
Definition main_passes (rate : R) : Prop := check_rate rate 2 (5 / 100).
