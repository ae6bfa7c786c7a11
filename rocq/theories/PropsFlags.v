(** The build with both OMEGA_NO_SIMD and OMEGA_KOKKOS_SIMD. *)
From Coq Require Import ZArith Reals List Bool Lia Relation_Operators.
From Verif Require Import Arith Arrays Prog Conc Mesh AuxVars Tend Model FlagsThms.
Import ListNotations.
Open Scope Z_scope.

(** C17: with both flags, compute_tendency has undefined behaviour in every schedule from every memory, and running the thread of the last vertex and layer of its first kernel alone reaches an access outside the extents of a view. *)
Theorem C17_both_flags_out_of_bounds :
  forall (A : Arith) (S : setup A), no_simd (cfg_of S) = true -> ksimd (cfg_of S) = true -> 1 < lanes (cfg_of S) ->
  1 <= nx (mesh_of_setup S) -> 1 <= ny (mesh_of_setup S) -> 1 <= nlayers (mesh_of_setup S) <= INT_MAX ->
  forall (t s : sid) (time : F A) (md : add_mode) (m : mem A),
  let prog := compute_tendency S t s time md in
  (forall o, exec (sdims S) prog m o -> o = UB) /\ exec (sdims S) prog m UB /\
  exists first rest threads m' i p w l, prog = first :: rest /\
    clos_refl_trans_1n _ (pstep (sdims S)) (first, m) (threads, m') /\ In (i, p) threads /\
    nacc p = Some (w, l) /\ validb (sdims S) l = false.
Proof. exact C17_both_flags_out_of_bounds_proof. Qed.
Print Assumptions C17_both_flags_out_of_bounds.

(** Non-vacuity: 8 lanes, 4 x 6 cells, 3 layers, all terms on. *)
Example C17_ex : let S := mkSetup (mkConfig true true false 8) (mkHex (A:=RA) 4 6 (IZR 1) 3)
    (mkParams (A:=RA) (IZR 1) (IZR 10) (IZR 0) (IZR 1) (IZR 1) (IZR 1) (IZR 1) 1 false false) None in
  no_simd (cfg_of S) = true /\ ksimd (cfg_of S) = true /\ 1 < lanes (cfg_of S) /\ 1 <= nlayers (mesh_of_setup S) <= INT_MAX.
Proof. cbn. unfold INT_MAX. repeat split; lia. Qed.

(** C17 for whole steps: with both flags every step of either stepper with at least one stage has undefined behaviour in every schedule. *)
Theorem C17_both_flags_steppers :
  forall (A : Arith) (S : setup A), no_simd (cfg_of S) = true -> ksimd (cfg_of S) = true -> 1 < lanes (cfg_of S) ->
  1 <= nx (mesh_of_setup S) -> 1 <= ny (mesh_of_setup S) -> 1 <= nlayers (mesh_of_setup S) <= INT_MAX ->
  forall (t dt : F A) (m : mem A),
  ((forall o, exec (sdims S) (rk4_step S t dt) m o -> o = UB) /\ exec (sdims S) (rk4_step S t dt) m UB) /\
  (forall n, 1 <= n -> (forall o, exec (sdims S) (lsrk_step S n t dt) m o -> o = UB) /\ exec (sdims S) (lsrk_step S n t dt) m UB).
Proof. exact C17_both_flags_steppers_proof. Qed.
Print Assumptions C17_both_flags_steppers.

(** Non-vacuity: [C17_ex]. *)

