(** Small time steps. *)
From Coq Require Import ZArith Reals List Bool Lia Lra.
From Verif Require Import Arith Arrays Prog Conc Launch Mesh AuxVars Tend Model RSum Spec MeshProof MeshMem Sample Ready Driver DriverFn PropsCons ForcedThms TimeThms.
Import ListNotations.
Open Scope Z_scope.
(** Take any functions of time - thickness, velocity and tracers, on all cells, edges and layers - whose time derivatives on [0, T] are w times what [compute_tendency] computes from them at that time, all terms and the forcing included, with positive thickness.  Start a run of N steps of size T/N from their values at time 0.  Then, for some constant C and every N at least C, every execution of the run ends in a state all of whose values differ by at most C/N from the functions at time T: the runs converge to the solution of the equations that the tendencies define.  Here w, the sum of the weights of the stepper, is 1 for RK4 and for the one-stage LSRK stepper; for the five-stage one it differs from 1 by less than 10^-25, because its coefficients are quotients of integers that satisfy the order conditions only approximately. *)
Theorem C90_runs_converge_in_time :
forall st, st = RK4 \/ st = LSRK 1 \/ st = LSRK 5 ->
  exists w : R, (st <> LSRK 5 -> w = 1%R) /\ (Rabs (w - 1) <= 1 / 10 ^ 25)%R /\
  forall (S : setup RA) (T : R) (H V : R -> Z -> Z -> R) (Q : R -> Z -> Z -> Z -> R),
  setup_ok S -> (0 < (dc (mesh_of_setup S) : R))%R -> (0 < T)%R ->
  (disable_h (par_of S) = true \/ disable_vn (par_of S) = true -> hook S = None) -> lipschitz_forcing S T ->
  solution S w T H V Q ->
  (forall t c k, (0 <= t <= T)%R -> 0 <= c < d_ncells (sdims S) -> 0 <= k < d_nlayers (sdims S) -> (0 < H t c k)%R) ->
  exists C : R, forall N, 1 <= N -> (C <= IZR N)%R ->
  forall m : mem RA, fresh S st m -> state_is S m (H 0%R) (V 0%R) (Q 0%R) ->
  always (sdims S) (stepper_run S st (loop_steps (A:=RA) N (T / IZR N)%R)) m (fun m' => state_near S (C / IZR N) m' (H T) (V T) (Q T)).
Proof. exact C90_runs_converge_in_time_proof. Qed.
Print Assumptions C90_runs_converge_in_time.

(** Non-vacuity: uniform flow on a rotating plane, with gravity, viscosity and hyperviscosity, turns at the rate f0 (C51). *)
Definition S90 : setup RA := mkSetup (mkConfig true false false 8) (mkHex (A:=RA) 4 6 (IZR 1) 3)
  (mkParams (A:=RA) (IZR 2) (IZR 10) (IZR 0) (IZR 1) (IZR 1) (IZR 1) (IZR 1) 0 false false) None.
Definition V90 (w t : R) (e k : Z) : R := (cos (w * (2 * t)) * cos (hang (A:=RA) e) - sin (w * (2 * t)) * sin (hang (A:=RA) e))%R.
Example C90_solution : forall w : R, setup_ok S90 /\ lipschitz_forcing S90 10 /\ solution S90 w 10 (fun _ _ _ => 3%R) (V90 w) (fun _ _ _ _ => 0%R).
Proof.
  intros w. assert (Hok : setup_ok S90) by ok. split; [exact Hok|]. split; [intros g; discriminate|].
  intros t m Ht Fm Sm. destruct (fresh_spec S90 Hok RK4 m Fm) as [Rm _]. pose proof (ready_hex S90 Hok m Rm) as Hh.
  assert (An : forall e, 0 <= e < d_nedges (sdims S90) -> mr m AngleEdge [e] = hang e) by (intros e He; apply (hm_ang _ _ _ Hh); exact He).
  destruct (C51_uniform_flow_rotates_proof S90 Hok) with (time := t) (H := fun _ : Z => 3%R) (U := fun _ : Z => cos (w * (2 * t))) (V := fun _ : Z => (- sin (w * (2 * t)))%R) (m := m) as [A1 A2]; try reflexivity; auto.
  { cbn; lra. } { cbn; lia. } { cbn; lia. }
  { intros k Hk. destruct (Sm k Hk) as (B1 & B2 & _). split; [lra|]. split; [intros c Hc; now rewrite B1|]. intros e He. rewrite B2, An by exact He. unfold V90. cbn [Arith.F RA]. ring. }
  split; [|exact A2]. intros o Ho. destruct (A1 o Ho) as (m' & -> & D). exists m'. split; [reflexivity|]. intros k Hk. destruct (D k Hk) as (D1 & D2). split; [|split].
  - intros c Hc. rewrite D1, Rmult_0_r by exact Hc. apply derivable_pt_lim_const.
  - intros e He. rewrite D2 by exact He. rewrite !An by exact He. change (f0 (par_of S90) : R) with 2%R. unfold V90. set (a := cos (hang (A:=RA) e)). set (b := sin (hang (A:=RA) e)).
    assert (I : derivable_pt_lim (fun s => w * (2 * s))%R t (w * 2)%R).
    { replace (w * 2)%R with (w * (2 * 1))%R by ring. apply derivable_pt_lim_scal, derivable_pt_lim_scal, derivable_pt_lim_id. }
    replace (w * (2 * - sin (w * (2 * t)) * a - 2 * cos (w * (2 * t)) * b))%R with ((- sin (w * (2 * t)) * (w * 2)) * a + cos (w * (2 * t)) * 0 - ((cos (w * (2 * t)) * (w * 2)) * b + sin (w * (2 * t)) * 0))%R by ring.
    apply (derivable_pt_lim_minus (fun s => cos (w * (2 * s)) * a)%R (fun s => sin (w * (2 * s)) * b)%R).
    + apply (derivable_pt_lim_mult (fun s => cos (w * (2 * s)))%R (fun _ => a)); [|apply derivable_pt_lim_const]. apply (derivable_pt_lim_comp (fun s => w * (2 * s))%R cos); [exact I|apply derivable_pt_lim_cos].
    + apply (derivable_pt_lim_mult (fun s => sin (w * (2 * s)))%R (fun _ => b)); [|apply derivable_pt_lim_const]. apply (derivable_pt_lim_comp (fun s => w * (2 * s))%R sin); [exact I|apply derivable_pt_lim_sin].
  - intros l c Hl. cbn in Hl. lia.
Qed.

