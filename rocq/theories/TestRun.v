(** Model of the programs test/tracer_diffusion_convergence.cpp and test/tracer_hyperdiffusion_convergence.cpp:
    parameters, time step, error norm and verdict. *)
From Coq Require Import ZArith Reals List Bool.
From Verif Require Import Arith Arrays Prog Conc Mesh Model Driver TestFns.
Import ListNotations.
Open Scope Z_scope.

(** The kernel "compute_error", tracer_diffusion_convergence.cpp l.91-99, and
    tracer_hyperdiffusion_convergence.cpp, same lines.  The iterations [(icell, k)] of the MDRangePolicy are
    numbered [icell * nlayers + k].  Simplification: the view [tr_exact_cell], filled with
    [tr(x_cell(icell), y_cell(icell), timeend)] before the time loop (l.67), is not modelled; the value is
    computed where it is used. *)
Definition compute_error {A} (S : setup A) (exact : F A -> F A -> F A) (i : Z) (accum : F A) : prog A (F A) :=
  let icell := i / d_nlayers (sdims S) in let k := i mod d_nlayers (sdims S) in
  (x <- rdr XCell [icell] ;; y <- rdr YCell [icell] ;; tr <- rdr (TrCell St) [0; icell; k] ;;
   let err := exact x y - tr in Ret (accum + err * err))%fp.
(** The possible results of [run] in memory [m]: the reduction, and l.101 [sqrt(errf / (nx * ny))]
    in both files. *)
Definition error_norm {A} (S : setup A) (exact : F A -> F A -> F A) (m : mem A) (r : option (F A)) : Prop :=
  exists errf, reduces (sdims S) m (compute_error S exact) (zseq (d_ncells (sdims S) * d_nlayers (sdims S))) errf /\
    r = option_map (fun e => fsqrt (e / fofZ (nx (mesh_of_setup S) * ny (mesh_of_setup S))))%fp errf.

(** [std::log2], l.122, and [check_rate], l.8-10.  (A real number is not NaN.) *)
Definition log2 (x : R) : R := (ln x / ln 2)%R.
Definition check_rate (rate expected_rate atol : R) : Prop := (Rabs (rate - expected_rate) < atol)%R.

(** The function [run] of tracer_diffusion_convergence.cpp, l.30-89: mesh and parameters (the Coriolis
    parameter is not set: [f0] is any number), initial state, and the step size before it is adjusted,
    l.49; [timeend], l.48. *)
Definition td_setup (cf : config) (f0 : R) (n : Z) : setup RA :=
  mkSetup cf (mkHex (A:=RA) n n (TD.lx / IZR n)%R 1)
    (mkParams (A:=RA) f0 (981 / 100)%R 0%R 0%R 0%R TD.diff2 0%R 1 true true) None.
Definition td_init : initial RA :=
  mkInitial (A:=RA) (fun x y => TD.h x y 0) (fun _ _ => 0%R) (fun _ _ => 0%R) (fun _ x y => TD.tr x y 0).
Definition td_timeend : R := 2%R.
Definition td_dt (n : Z) : R := (TD.lx / IZR n * (TD.lx / IZR n) / (4 * TD.diff2))%R.

(** The same for tracer_hyperdiffusion_convergence.cpp, same lines. *)
Definition th_setup (cf : config) (f0 : R) (n : Z) : setup RA :=
  mkSetup cf (mkHex (A:=RA) n n (TH.lx / IZR n)%R 1)
    (mkParams (A:=RA) f0 (981 / 100)%R 0%R 0%R 0%R 0%R TH.diff4 1 true true) None.
Definition th_init : initial RA :=
  mkInitial (A:=RA) (fun x y => TH.h x y 0) (fun _ _ => 0%R) (fun _ _ => 0%R) (fun _ x y => TH.tr x y 0).
Definition th_timeend : R := 2%R.
Definition th_dt (n : Z) : R := ((TH.lx / IZR n) ^ 4 / (8 * TH.diff4))%R.
