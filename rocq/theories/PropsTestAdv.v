(** The error of test/tracer_advection_convergence.cpp. *)
From Coq Require Import ZArith Reals List Bool Lia Lra.
From Verif Require Import Arith Arrays Prog Conc Launch Mesh AuxVars Tend Model RSum Spec MeshProof Ready Deriv Stencil Taylor Driver TestFns TestRun ConvSpec TestAdv PropsMesh PropsCons TestAdvThms.
Import ListNotations.
Open Scope Z_scope.

(** C85: the program of tracer_advection_convergence on an n by n mesh, for every even n >= 8, build configuration and schedule (and whatever the uninitialised Coriolis parameter is): it ends, the root mean square error of every layer is at most C / n^2, and the error it reports has one possible value e for all orders of the reduction, at most sqrt(nlayers) C / n^2 (nlayers is rounded up to the vector length).  C = 3 [error_const] for any bounds on the data of the test that hold at all spacings; such bounds exist.  The verdict of the test (the rate from n = 50 to n = 100 is within 0.05 of 2) needs the leading term of the error and is not proved. *)
Theorem C85_advection_test_error :
  exists us FX FY : nat -> R -> fn2, (forall t x y, us 0%nat t x y = TA.tr x y t) /\
  let U := fun x y => TA.vx x y 0 in let V := fun x y => TA.vy x y 0 in let h := fun x y => TA.h x y 0 in
  transported U V us FX FY ta_timeend /\ (forall x y, 1 / 3 <= h x y <= 3)%R /\
  (exists Cf Cr M : R, forall d : R, d <> 0%R -> transport_bounds d h U V us ta_timeend Cf Cr M) /\
  forall Cf Cr M : R, (forall d : R, d <> 0%R -> transport_bounds d h U V us ta_timeend Cf Cr M) ->
  let C := (3 * error_const (1 / 3) 3 ta_timeend Cf Cr M)%R in
  forall (cf : config) (f0 : R) (n N : Z), let S := ta_setup cf f0 n in setup_ok S -> 8 <= n -> Z.even n = true ->
  (IZR N - 1 < ta_timeend / ta_dt n <= IZR N)%R ->
  always (sdims S) (program S (LSRK 5) ta_init (loop_steps (A:=RA) N (ta_timeend / IZR N)%R)) (mzero RA) (fun m' =>
    (forall k, 0 <= k < d_nlayers (sdims S) ->
      let err c := (mr m' (TrCell St) [0%Z; c; k] - TA.tr (mr m' XCell [c]) (mr m' YCell [c]) ta_timeend)%R in
      (sqrt (rsum (d_ncells (sdims S)) (fun c => err c * err c) / IZR (d_ncells (sdims S))) <= C / (IZR n * IZR n))%R) /\
    exists e : R, (0 <= e <= sqrt (IZR (d_nlayers (sdims S))) * C / (IZR n * IZR n))%R /\
      forall r, error_norm S (fun x y => TA.tr x y ta_timeend) m' r <-> r = Some e).
Proof. exact C85_advection_test_error_proof. Qed.
Print Assumptions C85_advection_test_error.

(** Non-vacuity: the meshes of the test, 50 and 100, with 100 and 200 steps, with and without SIMD. *)
Example C85_hyps f0 : setup_ok (ta_setup (mkConfig false true false 8) f0 50) /\ setup_ok (ta_setup (mkConfig false true false 8) f0 100) /\ setup_ok (ta_setup (mkConfig true false false 1) f0 100) /\
  (IZR 100 - 1 < ta_timeend / ta_dt 50 <= IZR 100)%R /\ (IZR 200 - 1 < ta_timeend / ta_dt 100 <= IZR 200)%R.
Proof. split; [ok|]. split; [ok|]. split; [ok|]. unfold ta_timeend, ta_dt, TA.lx. repeat split; lra. Qed.

