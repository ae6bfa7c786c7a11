(** Properties of the program test/operator_convergence.cpp (C76). *)
From Coq Require Import ZArith Reals List Bool Lia Lra.
From Verif Require Import Arith Arrays Prog Conc Launch Mesh Model Hex RSum Spec MeshProof MeshMem MeshR OpTest TestRun OpThms.
Import ListNotations.
Open Scope Z_scope.

(** One level of the operator test, in every arithmetic, for every mesh whose sizes fit in an Int and every build configuration: no schedule of its kernels has a data race or reads outside a view, all schedules end in the same memory, and each of the four maximum reductions over that memory, however its iterations are grouped, ordered and joined, reads only inside its view and returns a number. *)
Theorem C76_operator_test_is_safe :
  forall (A : Arith) (cf : config) (h : hexargs A), mesh_ok cf h ->
  always (dims_of cf h 0) (op_level cf h) (mzero A) (fun m' =>
    forall err, In err [error_gradient cf h; error_divergence cf h; error_curl cf h; error_reconstruction cf h] ->
    (exists r, err m' r) /\ forall r, err m' r -> exists e, r = Some e) /\
  deterministic (dims_of cf h 0) (op_level cf h) (mzero A).
Proof. exact C76_operator_test_is_safe_proof. Qed.
Print Assumptions C76_operator_test_is_safe.

(** Non-vacuity: the five meshes of the test, and a mesh with an odd number of rows. *)
Example C76_meshes_ok {A} : Forall (fun n => mesh_ok (A:=A) (mkConfig false true false 8) (op_mesh n)) [6; 12; 24; 48; 96; 7].
Proof. repeat constructor; cbn; try lia; vm_compute; discriminate. Qed.

(** The four numbers the operator test computes on an n by n mesh in exact arithmetic, for every even n >= 48, build configuration, schedule and order of the reductions: each has exactly one possible value; the errors of the gradient, the divergence and the tangential reconstruction are between 97 and 100 per cent of 7/12 pi^3 / n^2, (21 + 14 sqrt 3)/36 pi^3 / n^2 and (69 + 4 sqrt 3)/72 pi^2 / n^2, and the error of the curl is within 98 and 101 per cent of (12 + sqrt 3)/18 pi^2 / n: the curl is only first order accurate. *)
Theorem C76_operator_errors :
  forall (cf : config) (n : Z), mesh_ok cf (op_mesh (A:=RA) n) -> 48 <= n -> Z.even n = true ->
  let h := op_mesh (A:=RA) n in
  let value (err : mem RA -> option R -> Prop) m' (lo hi c : R) := exists e : R, (lo * c <= e <= hi * c)%R /\ forall r, err m' r <-> r = Some e in
  always (dims_of cf h 0) (op_level cf h) (mzero RA) (fun m' =>
    value (error_gradient cf h) m' (97 / 100)%R 1%R (7 / 12 * PI ^ 3 / (IZR n * IZR n))%R /\
    value (error_divergence cf h) m' (97 / 100)%R 1%R ((21 + 14 * sqrt 3) / 36 * PI ^ 3 / (IZR n * IZR n))%R /\
    value (error_curl cf h) m' (98 / 100)%R (101 / 100)%R ((12 + sqrt 3) / 18 * PI ^ 2 / IZR n)%R /\
    value (error_reconstruction cf h) m' (97 / 100)%R 1%R ((69 + 4 * sqrt 3) / 72 * PI ^ 2 / (IZR n * IZR n))%R).
Proof. exact C76_operator_errors_proof. Qed.
Print Assumptions C76_operator_errors.

(** Non-vacuity: the finest mesh of the test. *)
Example C76_hyps : mesh_ok (mkConfig false true false 8) (op_mesh (A:=RA) 96) /\ 48 <= 96 /\ Z.even 96 = true.
Proof. repeat split; cbn; try lia; vm_compute; discriminate. Qed.

(** The verdict of the operator test: for every even n >= 48 (its last rate uses n = 48) the rates computed from the errors on the n by n and the 2n by 2n mesh are within 0.05 of 2 for the gradient, the divergence and the reconstruction and within 0.05 of 1 for the curl, for all schedules and all orders of the reductions, so in exact arithmetic the test never throws. *)
Theorem C76_operator_test_passes :
  forall (cf : config) (n : Z), let h := op_mesh (A:=RA) n in let h' := op_mesh (A:=RA) (2 * n) in mesh_ok cf h -> mesh_ok cf h' -> 48 <= n -> Z.even n = true ->
  forall m m', exec (dims_of cf h 0) (op_level cf h) (mzero RA) (OK m) -> exec (dims_of cf h' 0) (op_level cf h') (mzero RA) (OK m') ->
  let passes (err err' : mem RA -> option R -> Prop) (expected : R) := forall r r', err m r -> err' m' r' ->
    exists e e' : R, r = Some e /\ r' = Some e' /\ (0 < e)%R /\ (0 < e')%R /\ check_rate (log2 (e / e')) expected (5 / 100) in
  passes (error_gradient cf h) (error_gradient cf h') 2%R /\
  passes (error_divergence cf h) (error_divergence cf h') 2%R /\
  passes (error_curl cf h) (error_curl cf h') 1%R /\
  passes (error_reconstruction cf h) (error_reconstruction cf h') 2%R.
Proof. exact C76_operator_test_passes_proof. Qed.
Print Assumptions C76_operator_test_passes.

(** Non-vacuity: the last two meshes of the test; both levels run to their end by [C76_operator_test_is_safe]. *)
Example C76_last_rate : mesh_ok (mkConfig false true false 8) (op_mesh (A:=RA) 48) /\ mesh_ok (mkConfig false true false 8) (op_mesh (A:=RA) (2 * 48)) /\ 48 <= 48 /\ Z.even 48 = true /\
  6 * 2 ^ (5 - 2) = 48.
Proof. repeat split; cbn; try lia; vm_compute; discriminate. Qed.

