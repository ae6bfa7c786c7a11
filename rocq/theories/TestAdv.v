(** Model of the function [run] of test/tracer_advection_convergence.cpp: mesh, parameters, initial state, step
    size and error.  The error norm and the verdict are those of [TestRun.v]. *)
From Coq Require Import ZArith Reals List Bool.
From Verif Require Import Arith Arrays Prog Conc Mesh Model Driver TestFns TestRun.
Import ListNotations.
Open Scope Z_scope.

(** l.33-41: mesh and parameters; l.45: the stepper is [LSRK 5].  The Coriolis parameter is not set: [f0] is any number.
    The flags of the tendencies are set in l.37-38, the viscosities and diffusivities are the defaults of
    shallow_water_params.hpp. *)
Definition ta_setup (cf : config) (f0 : R) (n : Z) : setup RA :=
  mkSetup cf (mkHex (A:=RA) n n (TA.lx / IZR n)%R 1)
    (mkParams (A:=RA) f0 (981 / 100)%R 0%R 0%R 0%R 0%R 0%R 1 true true) None.
(** l.59-84: the initial state.  Simplification: the kernel of l.59-68 fills thickness and tracer in one launch, the
    model in two; the exact solution is not stored but computed where it is used (see [compute_error]). *)
Definition ta_init : initial RA :=
  mkInitial (A:=RA) (fun x y => TA.h x y 0) (fun x y => TA.vx x y 0) (fun x y => TA.vy x y 0) (fun _ x y => TA.tr x y 0).
(** l.47-49: final time and step size before it is adjusted; l.50-51: the number of steps is the ceiling of
    [timeend / dt], and [timeend] is divided by it. *)
Definition ta_timeend : R := 1%R.
Definition ta_dt (n : Z) : R := (1 / 2 * (TA.lx / IZR n))%R.
