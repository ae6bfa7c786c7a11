(** What the nonlinear and the advection convergence test report. *)
From Coq Require Import ZArith Reals List Bool Lia Lra.
From Verif Require Import Arith Arrays Prog Conc Launch Mesh AuxVars Tend Model RSum Spec MeshProof Ready Driver TestFns TestRun TestAdv TestNl PropsCons TestNlThms.
Import ListNotations.
Open Scope Z_scope.

(** C88: test/nonlinear_swe_convergence.cpp on an n by n mesh, any n: for each n there is one number e such that in every build configuration and every schedule the program ends without undefined behaviour, the root mean square error of the thickness is e in every layer, and the error that the function run returns is sqrt(nlayers) e for every order of the reduction.  (nlayers is 1 rounded up to the vector length: the number that is printed does depend on the vector length.) *)
Theorem C88_nonlinear_test_error :
  forall (n N : Z), 1 <= n -> (IZR N - 1 < nl_timeend / nl_dt n <= IZR N)%R -> exists e : R, forall (cf : config), let S := MS.setup cf n in setup_ok S ->
  always (sdims S) (program S RK4 nl_init (loop_steps (A:=RA) N (nl_timeend / IZR N)%R)) (mzero RA) (fun m' =>
    (forall k, 0 <= k < d_nlayers (sdims S) ->
      let err c := (mr m' (HCell St) [c; k] - MS.h (mr m' XCell [c]) (mr m' YCell [c]) nl_timeend)%R in
      sqrt (rsum (d_ncells (sdims S)) (fun c => err c * err c)%R / IZR (d_ncells (sdims S)))%R = e) /\
    forall r, nl_error_norm S (fun x y => MS.h x y nl_timeend) m' r <-> r = Some (sqrt (IZR (d_nlayers (sdims S))) * e)%R).
Proof. exact C88_nonlinear_test_error_proof. Qed.
Print Assumptions C88_nonlinear_test_error.

(** Non-vacuity: the meshes of the test, with 60 and 120 steps. *)
Example C88_nl_hyps : setup_ok (MS.setup (mkConfig false true false 8) 50) /\ setup_ok (MS.setup (mkConfig false true false 8) 100) /\ setup_ok (MS.setup (mkConfig true false true 1) 100) /\
  (IZR 60 - 1 < nl_timeend / nl_dt 50 <= IZR 60 /\ IZR 120 - 1 < nl_timeend / nl_dt 100 <= IZR 120)%R.
Proof. split; [ok|]. split; [ok|]. split; [ok|]. unfold nl_timeend, nl_dt, MS.lx. lra. Qed.

(** The same for test/tracer_advection_convergence.cpp; e does not depend on the value of the Coriolis parameter either, which this program leaves uninitialised.  (C85 bounds e.) *)
Theorem C88_advection_test_error :
  forall (n N : Z), 1 <= n -> (IZR N - 1 < ta_timeend / ta_dt n <= IZR N)%R -> exists e : R, forall (f0 : R) (cf : config), let S := ta_setup cf f0 n in setup_ok S ->
  always (sdims S) (program S (LSRK 5) ta_init (loop_steps (A:=RA) N (ta_timeend / IZR N)%R)) (mzero RA) (fun m' =>
    (forall k, 0 <= k < d_nlayers (sdims S) ->
      let err c := (mr m' (TrCell St) [0%Z; c; k] - TA.tr (mr m' XCell [c]) (mr m' YCell [c]) ta_timeend)%R in
      sqrt (rsum (d_ncells (sdims S)) (fun c => err c * err c)%R / IZR (d_ncells (sdims S)))%R = e) /\
    forall r, error_norm S (fun x y => TA.tr x y ta_timeend) m' r <-> r = Some (sqrt (IZR (d_nlayers (sdims S))) * e)%R).
Proof. exact C88_advection_test_error_proof. Qed.
Print Assumptions C88_advection_test_error.

(** Non-vacuity: the meshes of the test. *)
Example C88_ta_hyps (f0 : R) : setup_ok (ta_setup (mkConfig false true false 8) f0 50) /\ setup_ok (ta_setup (mkConfig false true false 8) f0 100) /\ setup_ok (ta_setup (mkConfig true false true 1) f0 100) /\
  (IZR 100 - 1 < ta_timeend / ta_dt 50 <= IZR 100 /\ IZR 200 - 1 < ta_timeend / ta_dt 100 <= IZR 200)%R.
Proof. split; [ok|]. split; [ok|]. split; [ok|]. unfold ta_timeend, ta_dt, TA.lx. lra. Qed.

(** Each of the two programs compares one and the same rate with 2 in all builds, schedules and reduction orders (and for all values of the uninitialised Coriolis parameter): the verdict main_passes does not depend on them.  Which verdict it is, is not proved. *)
Theorem C88_one_verdict :
  (exists rate : R, forall cf : config, setup_ok (MS.setup cf 50) -> setup_ok (MS.setup cf 100) -> forall r, main_rate (nl_run cf) r <-> r = rate) /\
  (exists rate : R, forall (cf : config) (f0 : R), setup_ok (ta_setup cf f0 50) -> setup_ok (ta_setup cf f0 100) -> forall r, main_rate (ta_run cf f0) r <-> r = rate).
Proof. exact C88_one_verdict_proof. Qed.
Print Assumptions C88_one_verdict.

(** Non-vacuity: the rates are attained, so the verdicts are those of actual runs. *)
Example C88_verdict_ex : exists rate, main_rate (nl_run (mkConfig false true false 8)) rate.
Proof. destruct C88_one_verdict as [[rate H] _]. exists rate. apply H; [ok|ok|reflexivity]. Qed.

