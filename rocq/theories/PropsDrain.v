(** C101: when the thickness of a layer stays positive.  Real arithmetic; any number of layers and tracers, rotation, viscosity, drag.  [lsrk_run S 1]: the one stage low storage method, forward Euler; [rk4_run]: the classical method. *)
From Coq Require Import ZArith Reals List Bool Lia Lra.
From Verif Require Import Arith Arrays Prog Conc Launch Mesh AuxVars Tend Model MeshProof Ready Relate TendVal StepVal DrainThms.
Import ListNotations.
Open Scope Z_scope.

(** A forward Euler step keeps every thickness of a layer positive if they lie between [a > 0] and [b], the speeds are at most [V], and [4 V b dt < dc a]: the admissible step shrinks with the ratio of the smallest to the largest thickness. *)
Theorem C101_euler_stays_positive :
  forall (S : setup RA), setup_ok S -> (0 < (dc (mesh_of_setup S) : R))%R -> 2 <= nx (mesh_of_setup S) -> 2 <= ny (mesh_of_setup S) ->
  hook S = None -> disable_h (par_of S) = false ->
  forall (t dt V a b : R) k, (0 <= dt)%R -> (0 <= V)%R -> (0 < a)%R -> (4 * V * b * dt < (dc (mesh_of_setup S) : R) * a)%R -> 0 <= k < d_nlayers (sdims S) ->
  forall m, ready S m -> (forall c, 0 <= c < d_ncells (sdims S) -> (a <= mr m (HCell St) [c; k] <= b)%R) -> (forall e, 0 <= e < d_nedges (sdims S) -> (Rabs (mr m (VnEdge St) [e; k]) <= V)%R) ->
  always (sdims S) (lsrk_run S 1 [(t, dt)]) m (fun m' => forall c, 0 <= c < d_ncells (sdims S) -> (0 < mr m' (HCell St) [c; k])%R).
Proof. exact C101_euler_stays_positive_proof. Qed.
Print Assumptions C101_euler_stays_positive.

(** No condition on the Courant number [V dt / dc] alone is enough: for every setup, every step size and every speed [V], however small, there is a state with positive thickness everywhere and speeds at most [V] from which one Euler step makes the thickness of cell 0 negative, in every layer. *)
Theorem C101_euler_positive_thickness_refuted :
  forall (S : setup RA), setup_ok S -> (0 < (dc (mesh_of_setup S) : R))%R -> 2 <= nx (mesh_of_setup S) -> 2 <= ny (mesh_of_setup S) ->
  hook S = None -> disable_h (par_of S) = false ->
  forall t dt V : R, (0 < dt)%R -> (0 < V)%R ->
  exists m, ready S m /\ (forall c k, (0 < mr m (HCell St) [c; k])%R) /\ (forall e k, (Rabs (mr m (VnEdge St) [e; k]) <= V)%R) /\
  always (sdims S) (lsrk_run S 1 [(t, dt)]) m (fun m' => forall k, 0 <= k < d_nlayers (sdims S) -> (mr m' (HCell St) [0%Z; k] < 0)%R).
Proof. exact C101_euler_positive_thickness_refuted_proof. Qed.
Print Assumptions C101_euler_positive_thickness_refuted.

(** The same for one step of the classical method, in the advection problem (velocity not advanced). *)
Theorem C101_rk4_positive_thickness_refuted :
  forall (S : setup RA), setup_ok S -> (0 < (dc (mesh_of_setup S) : R))%R -> 2 <= nx (mesh_of_setup S) -> 2 <= ny (mesh_of_setup S) ->
  hook S = None -> disable_h (par_of S) = false -> disable_vn (par_of S) = true ->
  forall t dt V : R, (0 < dt)%R -> (0 < V)%R ->
  exists m, ready S m /\ disabled_zero S Tend m /\ (forall c k, (0 < mr m (HCell St) [c; k])%R) /\ (forall e k, (Rabs (mr m (VnEdge St) [e; k]) <= V)%R) /\
  always (sdims S) (rk4_run S [(t, dt)]) m (fun m' => forall k, 0 <= k < d_nlayers (sdims S) -> (mr m' (HCell St) [0%Z; k] < 0)%R).
Proof. exact C101_rk4_positive_thickness_refuted_proof. Qed.
Print Assumptions C101_rk4_positive_thickness_refuted.

(** Non-vacuity: a 4 by 6 mesh of cells of width 10; thickness 2 in one cell and 1 elsewhere, velocities 1 and -1, step 1. *)
Definition S101 : setup RA := mkSetup (mkConfig false true false 8) (mkHex (A:=RA) 4 6 (IZR 10) 3)
  (mkParams (A:=RA) (IZR 1) (IZR 10) (IZR 0) (IZR 0) (IZR 0) (IZR 0) (IZR 0) 0 false true) None.
Example C101_setup : setup_ok S101 /\ (0 < (dc (mesh_of_setup S101) : R))%R /\ hook S101 = None /\ disable_h (par_of S101) = false /\ disable_vn (par_of S101) = true /\ 0 < d_nlayers (sdims S101).
Proof. repeat split; unfold INT_MAX, zceil, vector_length; cbn; try lia; try discriminate; lra. Qed.
Example C101_applies : exists m, ready S101 m /\ mr m (HCell St) [5; 1] <> mr m (HCell St) [6; 1] /\
  always (sdims S101) (lsrk_run S101 1 [(0%R : F RA, 1%R : F RA)]) m (fun m' => forall c, 0 <= c < 24 -> (0 < mr m' (HCell St) [c; 1%Z])%R).
Proof.
  destruct C101_setup as (Hok & Hd & Ek & Ed & _).
  destruct (ready_any S101 Hok (fun a ix => match a, ix with HCell St, [c; k] => if c =? 5 then 2%R else 1%R | VnEdge St, [e; k] => if Z.even e then 1%R else (-1)%R | _, _ => 0%R end)) as (m & Hr & E).
  exists m. split; [exact Hr|]. split; [rewrite !E by reflexivity; cbn; lra|].
  apply (C101_euler_stays_positive S101 Hok Hd ltac:(cbn; lia) ltac:(cbn; lia) Ek Ed 0%R 1%R 1%R 1%R 2%R 1); try lra; try (cbn; lia || lra); [exact Hr| |].
  - intros c Hc. rewrite E by reflexivity. destruct (c =? 5); lra.
  - intros e He. rewrite E by reflexivity. destruct (Z.even e); [rewrite Rabs_right|rewrite Rabs_left]; lra.
Qed.
