(** The variance of tracers. *)
From Coq Require Import ZArith Reals List Bool Lia Lra.
From Verif Require Import Arith Arrays Prog Conc Launch Mesh AuxVars Tend Model RSum Spec MeshProof MeshMem Sample Ready Driver DriverFn PropsCons ForcedThms TracerThms TimeThms PropsTime Order4Thms ExistThms PropsExist VarThms.
Import ListNotations.
Open Scope Z_scope.
(** Advection by the flow that also moves the fluid neither creates nor destroys variance of the concentration, and diffusion destroys exactly the squared gradients.  With r = q/h the concentration, the rate of change of the integral of r^2 h that the tendencies of the thickness and of the tracer imply is minus twice the diffusivity times the sum over the edges of (dc dv) h (grad r)^2, for every state and every velocity.  (Without hyperdiffusion, with the thickness tendency enabled and without a source of mass.) *)
Theorem C96_variance_rate :
forall (S : setup RA), setup_ok S -> (0 < (dc (mesh_of_setup S) : R))%R -> 2 <= nx (mesh_of_setup S) -> 2 <= ny (mesh_of_setup S) ->
  disable_h (par_of S) = false -> hook_h_zero S -> ((eddy_diff4 (par_of S) : R) <= 0)%R ->
  forall (t s : sid) (time : R) (m m' : mem RA), s <> t -> ready S m -> exec (sdims S) (compute_tendency S t s time Replace) m (OK m') ->
  forall l k, 0 <= l < ntracers (par_of S) -> 0 <= k < d_nlayers (sdims S) ->
  let h c := mr m (HCell s) [c; k] : R in let r c := (mr m (TrCell s) [l; c; k] / h c)%R in
  let left e := mi m CellsOnEdge [e; 0%Z] in let right e := mi m CellsOnEdge [e; 1%Z] in
  rsum (d_ncells (sdims S)) (fun c => mr m AreaCell [c] * (2 * r c * mr m' (TrCell t) [l; c; k] - r c * r c * mr m' (HCell t) [c; k]))%R =
  (- (2 * Rmax 0 (eddy_diff2 (par_of S)) * rsum (d_nedges (sdims S)) (fun e => mr m DcEdge [e] * mr m DvEdge [e] * ((h (left e) + h (right e)) / 2) * ((r (right e) - r (left e)) / mr m DcEdge [e]) ^ 2)))%R.
Proof. exact C96_variance_rate_proof. Qed.
Print Assumptions C96_variance_rate.

(** Along every solution of the discrete equations with positive thickness the variance of every tracer in every layer never increases, and is constant without diffusion. *)
Theorem C96_variance_along_solutions :
forall (S : setup RA) (w T : R) (H V : R -> Z -> Z -> R) (Q : R -> Z -> Z -> Z -> R), setup_ok S -> (0 < (dc (mesh_of_setup S) : R))%R -> 2 <= nx (mesh_of_setup S) -> 2 <= ny (mesh_of_setup S) ->
  disable_h (par_of S) = false -> hook_h_zero S -> ((eddy_diff4 (par_of S) : R) <= 0)%R ->
  (0 <= w)%R -> solution S w T H V Q -> (forall t, (0 <= t <= T)%R -> positive_thickness S (H t)) ->
  forall (a b : R) (m m' : mem RA) l k, (0 <= a <= b)%R -> (b <= T)%R -> fresh S RK4 m -> fresh S RK4 m' -> state_is S m (H a) (V a) (Q a) -> state_is S m' (H b) (V b) (Q b) ->
  0 <= l < ntracers (par_of S) -> 0 <= k < d_nlayers (sdims S) ->
  (tracer_variance S m' l k <= tracer_variance S m l k)%R /\ (((eddy_diff2 (par_of S) : R) <= 0)%R -> tracer_variance S m' l k = tracer_variance S m l k).
Proof. exact C96_variance_along_solutions_proof. Qed.
Print Assumptions C96_variance_along_solutions.

(** The variance that a run creates is an error of the time stepping only, and decreases with its order: N steps of size T/N increase it by at most C/N^4 with RK4, and by at most C/N with the LSRK steppers, for some C and all N at least C; without diffusion they also decrease it by at most that much. *)
Theorem C96_variance_of_runs :
forall st, st = RK4 \/ st = LSRK 1 \/ st = LSRK 5 ->
  exists w : R, (st <> LSRK 5 -> w = 1%R) /\ (Rabs (w - 1) <= 1 / 10 ^ 25)%R /\
  forall (S : setup RA) (T : R) (H V : R -> Z -> Z -> R) (Q : R -> Z -> Z -> Z -> R) l k, setup_ok S -> (0 < (dc (mesh_of_setup S) : R))%R -> 2 <= nx (mesh_of_setup S) -> 2 <= ny (mesh_of_setup S) ->
  disable_h (par_of S) = false -> hook_h_zero S -> ((eddy_diff4 (par_of S) : R) <= 0)%R ->
  (disable_vn (par_of S) = true -> hook S = None) -> smooth_forcing S T -> (0 < T)%R -> solution S w T H V Q -> (forall t, (0 <= t <= T)%R -> positive_thickness S (H t)) ->
  0 <= l < ntracers (par_of S) -> 0 <= k < d_nlayers (sdims S) ->
  exists C : R, forall N, 1 <= N -> (C <= IZR N)%R -> forall m : mem RA, fresh S st m -> state_is S m (H 0%R) (V 0%R) (Q 0%R) ->
  always (sdims S) (stepper_run S st (loop_steps (A:=RA) N (T / IZR N)%R)) m (fun m' => let b := (C / IZR N ^ (match st with RK4 => 4 | LSRK _ => 1 end))%R in
    (tracer_variance S m' l k <= tracer_variance S m l k + b)%R /\ (((eddy_diff2 (par_of S) : R) <= 0)%R -> (tracer_variance S m l k - b <= tracer_variance S m' l k)%R)).
Proof. exact C96_variance_of_runs_proof. Qed.
Print Assumptions C96_variance_of_runs.

(** Non-vacuity: a setup with gravity, rotation, a tracer and diffusion; a state with varying thickness and concentration, whose variance is not zero. *)
Definition S96 (kap : R) : setup RA := mkSetup (mkConfig false true false 8) (mkHex (A:=RA) 4 6 (IZR 2) 3) (mkParams (A:=RA) (IZR 1) (IZR 10) (IZR 0) (IZR 3) (IZR 4) kap (IZR 0) 2 false false) None.
Example C96_hyps kap : setup_ok (S96 kap) /\ 2 <= nx (mesh_of_setup (S96 kap)) /\ 2 <= ny (mesh_of_setup (S96 kap)) /\ hook_h_zero (S96 kap) /\ ((eddy_diff4 (par_of (S96 kap)) : R) <= 0)%R /\ smooth_forcing (S96 kap) 1 /\
  positive_thickness (S96 kap) (fun c k => 3 + sin (IZR c))%R /\ exists T H V Q, (0 < T)%R /\ solution (S96 kap) 1 T H V Q /\ (forall t, (0 <= t <= T)%R -> positive_thickness (S96 kap) (H t)) /\
  same_fields (S96 kap) (H 0%R) (V 0%R) (Q 0%R) (fun c k => 3 + sin (IZR c))%R (fun e k => cos (IZR e)) (fun l c k => exp (IZR c)).
Proof.
  assert (Ok : setup_ok (S96 kap)) by ok. assert (P : positive_thickness (S96 kap) (fun c k => 3 + sin (IZR c))%R) by (intros c k _ _; pose proof (SIN_bound (IZR c)); lra).
  split; [exact Ok|]. split; [cbn; lia|]. split; [cbn; lia|]. split; [exact I|]. split; [cbn; lra|]. split; [intros g; discriminate|]. split; [exact P|].
  destruct (C92_solutions_exist (S96 kap) 1 1 (fun c k => 3 + sin (IZR c))%R (fun e k => cos (IZR e)) (fun l c k => exp (IZR c)) Ok ltac:(cbn; lra) ltac:(lra) ltac:(intros g; discriminate) P) as (T & H & V & Q & HT & HS & E0 & PP).
  exists T, H, V, Q. tauto.
Qed.

