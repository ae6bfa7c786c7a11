(** Small disturbances of the fluid at rest (C77), their energy (C78), balanced flows and potential vorticity (C79),
    gravity waves (C80), and the reconstruction weights (C81). *)
From Coq Require Import ZArith Reals List Bool Lia Lra.
From Verif Require Import Arith Arrays Prog Conc Launch Mesh AuxVars Tend Model Hex RSum Spec MeshProof MeshMem MeshR Ready StepVal Driver Cplx LinStep LinSpec PropsMesh PropsCons LinThms.
Import ListNotations.
Open Scope Z_scope.

(** The setup of the examples: rotation, gravity, three layers, no viscosity. *)
Definition S77 (f v2 v4 : R) : setup RA := mkSetup (mkConfig false true false 8) (mkHex (A:=RA) 4 6 (IZR 2) 3)
  (mkParams (A:=RA) f (IZR 10) (IZR 0) v2 v4 (IZR 0) (IZR 0) 1 false false) None.
Example ok77 f v2 v4 : setup_ok (S77 f v2 v4). Proof. ok. Qed.
(** Families with any disturbance of any state of rest exist, and can be run. *)
Example C77_family st f v2 v4 H w steps : exists m m', disturbed (S77 f v2 v4) H m w /\ forall x, exec (sdims (S77 f v2 v4)) (stepper_run (S77 f v2 v4) st steps) (m x) (OK (m' x)).
Proof.
  destruct (dist_ex (S77 f v2 v4) (ok77 f v2 v4) H w) as (m & Hd). destruct (runs_ex (S77 f v2 v4) (ok77 f v2 v4) st steps m (proj1 Hd)) as (m' & Hx). eauto.
Qed.
(** Any family of runs that starts at the fluid at rest (thickness H k in layer k, nonzero) for x = 0 and has the derivative w with respect to x there: every step count, step sizes and stepper.  The fluid at rest stays at rest exactly (in real arithmetic), and the derivative of the result is obtained from w by applying in every step P(dt L), with P the stability polynomial of the stepper and L the linear shallow water equations (rotation, gravity, both viscosities). *)
Theorem C77_small_disturbances :
  forall st : stepper, exists g : list R, stability_polynomial st g /\
  forall (S : setup RA), setup_ok S -> (0 < (dc (mesh_of_setup S) : R))%R -> hook S = None -> disable_h (par_of S) = false -> disable_vn (par_of S) = false ->
  forall (H : Z -> R) (m m' : R -> mem RA) (w : place -> R) (steps : list (R * R)), (forall k, 0 <= k < d_nlayers (sdims S) -> H k <> 0%R) -> disturbed S H m w ->
  (forall x, exec (sdims S) (stepper_run S st steps) (m x) (OK (m' x))) ->
  disturbed S H m' (linear_run S (m 0%R) H g steps w) /\ forall l, const_loc l = true -> mget (m' 0%R) l = mget (m 0%R) l.
Proof. exact C77_small_disturbances_proof. Qed.
Print Assumptions C77_small_disturbances.

(** Non-vacuity: [C77_family], with rotation and both viscosities. *)
Example C77_hyps : setup_ok (S77 1 1 1) /\ hook (S77 1 1 1) = None /\ disable_h (par_of (S77 1 1 1)) = false /\ disable_vn (par_of (S77 1 1 1)) = false.
Proof. split; [apply ok77|]. repeat split. Qed.

(** The tendency itself: zero for the fluid at rest, and its derivative is L w. *)
Theorem C77_linear_tendency :
  forall (S : setup RA), setup_ok S -> (0 < (dc (mesh_of_setup S) : R))%R -> hook S = None -> disable_h (par_of S) = false -> disable_vn (par_of S) = false ->
  forall (H : Z -> R) (m m' : R -> mem RA) (w : place -> R) (time : R), (forall k, 0 <= k < d_nlayers (sdims S) -> H k <> 0%R) -> disturbed S H m w ->
  (forall x, exec (sdims S) (compute_tendency S Tend St time Replace) (m x) (OK (m' x))) ->
  forall p, valid_place S p -> value_at Tend (m' 0%R) p = 0%R /\ derivable_pt_lim (fun x => value_at Tend (m' x) p) 0 (linear_swe S (m 0%R) H w p).
Proof. exact C77_linear_tendency_proof. Qed.
Print Assumptions C77_linear_tendency.

Example C77_tend_runs : exists m m', disturbed (S77 1 1 1) (fun _ => 5%R) m (fun _ => 1%R) /\ forall x, exec (sdims (S77 1 1 1)) (compute_tendency (S77 1 1 1) Tend St 0%R Replace) (m x) (OK (m' x)).
Proof.
  destruct (dist_ex (S77 1 1 1) (ok77 1 1 1) (fun _ => 5%R) (fun _ => 1%R)) as (m & Hd). destruct (tends_ex (S77 1 1 1) (ok77 1 1 1) 0%R m (proj1 Hd)) as (m' & Hx). eauto.
Qed.

(** The same for whole programs, constructors and initial state included: thickness H + x eta, velocity x (vx, vy), any tracers. *)
Theorem C77_disturbed_programs :
  forall st : stepper, exists g : list R, stability_polynomial st g /\
  forall (S : setup RA), setup_ok S -> (0 < (dc (mesh_of_setup S) : R))%R -> hook S = None -> disable_h (par_of S) = false -> disable_vn (par_of S) = false ->
  forall (H : R) (eta vx vy : R -> R -> R) (tr : Z -> R -> R -> R) (m' : R -> mem RA) (steps : list (R * R)), H <> 0%R ->
  (forall x, exec (sdims S) (program S st (mkInitial (A:=RA) (fun X Y => H + x * eta X Y)%R (fun X Y => x * vx X Y)%R (fun X Y => x * vy X Y)%R tr) steps) (mzero RA) (OK (m' x))) ->
  let n := m' 0%R in
  let w p := match p with
    | AtCell c k => eta (mr n XCell [c]) (mr n YCell [c])
    | AtEdge e k => (cos (mr n AngleEdge [e]) * vx (mr n XEdge [e]) (mr n YEdge [e]) + sin (mr n AngleEdge [e]) * vy (mr n XEdge [e]) (mr n YEdge [e]))%R end in
  disturbed S (fun _ => H) m' (linear_run S n (fun _ => H) g steps w).
Proof. exact C77_disturbed_programs_proof. Qed.
Print Assumptions C77_disturbed_programs.

Example C77_programs_run : exists m', forall x, exec (sdims (S77 1 1 1)) (program (S77 1 1 1) RK4 (mkInitial (A:=RA) (fun X Y => 5 + x * cos X)%R (fun X Y => x * 1)%R (fun X Y => x * 0)%R (fun _ _ _ => 1%R)) [(0%R, 1%R)]) (mzero RA) (OK (m' x)).
Proof. exact (programs_ex (S77 1 1 1) (ok77 1 1 1) RK4 (fun x => mkInitial (A:=RA) (fun X Y => 5 + x * cos X)%R (fun X Y => x * 1)%R (fun X Y => x * 0)%R (fun _ _ _ => 1%R)) [(0%R, 1%R)]). Qed.

(** Without viscosity, with gravity and layers of thickness between 0 and Hmax, as long as every |dt| (sqrt (6 g Hmax) / dc + |f|) <= sqrt 8, the energy of a disturbance never grows with RK4, and at most by the factor 1 + 1e-22 per step with five stage LSRK, for every disturbance, mesh, number of layers and number of steps. *)
Theorem C78_disturbances_do_not_grow :
  forall (st : stepper) (growth : R), (st = RK4 /\ growth = 1 \/ st = LSRK 5 /\ growth = 1 + 1 / 10 ^ 22)%R ->
  forall (S : setup RA), setup_ok S -> (0 < (dc (mesh_of_setup S) : R))%R -> hook S = None -> disable_h (par_of S) = false -> disable_vn (par_of S) = false ->
  (visc_del2 (par_of S) <= 0)%R -> (visc_del4 (par_of S) <= 0)%R -> 2 <= nx (mesh_of_setup S) -> Z.even (ny (mesh_of_setup S)) = true -> (0 < grav (par_of S))%R ->
  forall (H : Z -> R) (Hmax : R) (m m' : R -> mem RA) (w w' : place -> R) (steps : list (R * R)), (forall k, 0 <= k < d_nlayers (sdims S) -> (0 < H k)%R) ->
  (forall k, 0 <= k < d_nlayers (sdims S) -> (H k <= Hmax)%R) -> (0 < Hmax)%R ->
  (forall t dt, In (t, dt) steps -> (Rabs dt * (sqrt (6 * grav (par_of S) * Hmax) / dc (mesh_of_setup S) + Rabs (f0 (par_of S))) <= sqrt 8)%R) ->
  disturbed S H m w -> (forall x, exec (sdims S) (stepper_run S st steps) (m x) (OK (m' x))) -> disturbed S H m' w' ->
  (disturbance_energy S (m 0%R) H w' <= growth ^ length steps * disturbance_energy S (m 0%R) H w)%R.
Proof. exact C78_disturbances_do_not_grow_proof. Qed.
Print Assumptions C78_disturbances_do_not_grow.

(** Non-vacuity: f = 1, g = 10, dc = 2, layers of thickness 5, dt = 1/8: sqrt 300 / 2 + 1 < 10. *)
Example C78_step : (Rabs (1 / 8) * (sqrt (6 * grav (par_of (S77 1 0 0)) * 5) / dc (mesh_of_setup (S77 1 0 0)) + Rabs (f0 (par_of (S77 1 0 0)))) <= sqrt 8)%R /\ (visc_del2 (par_of (S77 1 0 0)) <= 0)%R /\ (visc_del4 (par_of (S77 1 0 0)) <= 0)%R.
Proof.
  cbn [par_of mesh_of_setup S77 f0 grav dc visc_del2 visc_del4]. split; [|split; lra]. rewrite !Rabs_pos_eq by lra.
  assert (A : (sqrt (6 * 10 * 5) <= 18)%R) by (rewrite <- (sqrt_square 18) by lra; apply sqrt_le_1; lra).
  assert (B : (2 <= sqrt 8)%R) by (rewrite <- (sqrt_square 2) by lra; apply sqrt_le_1; lra). lra.
Qed.

(** LSRK with one stage has no stable step: every disturbance that is not stationary gains energy in every step, however short: E' = E + dt^2 E(L w) > E. *)
Theorem C78_one_stage_refuted :
  forall (S : setup RA), setup_ok S -> (0 < (dc (mesh_of_setup S) : R))%R -> hook S = None -> disable_h (par_of S) = false -> disable_vn (par_of S) = false ->
  (visc_del2 (par_of S) <= 0)%R -> (visc_del4 (par_of S) <= 0)%R -> 2 <= nx (mesh_of_setup S) -> Z.even (ny (mesh_of_setup S)) = true -> (0 < grav (par_of S))%R ->
  forall (H : Z -> R) (m m' : R -> mem RA) (w w' : place -> R) (t dt : R), (forall k, 0 <= k < d_nlayers (sdims S) -> (0 < H k)%R) -> dt <> 0%R ->
  disturbed S H m w -> (forall x, exec (sdims S) (stepper_run S (LSRK 1) [(t, dt)]) (m x) (OK (m' x))) -> disturbed S H m' w' ->
  (exists p, valid_place S p /\ linear_swe S (m 0%R) H w p <> 0%R) ->
  (disturbance_energy S (m 0%R) H w' = disturbance_energy S (m 0%R) H w + dt ^ 2 * disturbance_energy S (m 0%R) H (linear_swe S (m 0%R) H w) /\
   disturbance_energy S (m 0%R) H w < disturbance_energy S (m 0%R) H w')%R.
Proof. exact C78_one_stage_refuted_proof. Qed.
Print Assumptions C78_one_stage_refuted.

(** Non-vacuity: a disturbance that is not stationary: a hump in one cell. *)
Example C78_not_stationary : exists m w p, disturbed (S77 1 0 0) (fun _ => 5%R) m w /\ valid_place (S77 1 0 0) p /\ linear_swe (S77 1 0 0) (m 0%R) (fun _ => 5%R) w p <> 0%R.
Proof. exact (not_stationary (S77 1 0 0) (ok77 1 0 0) ltac:(cbn; lra) ltac:(cbn; lra) ltac:(cbn; lra) ltac:(cbn; lia) eq_refl ltac:(cbn; lra) ltac:(cbn; lia) (fun _ => 5%R)). Qed.

(** A geostrophically balanced disturbance (velocity the rotated gradient of any stream function psi of the vertices, per layer, thickness -f/g times the mean of psi over the vertices of the cell) does not change, for every stepper, step size and number of steps: the discrete geostrophic modes are stationary. *)
Theorem C79_balanced_flows_stay :
  forall st : stepper,
  forall (S : setup RA), setup_ok S -> (0 < (dc (mesh_of_setup S) : R))%R -> hook S = None -> disable_h (par_of S) = false -> disable_vn (par_of S) = false ->
  (visc_del2 (par_of S) <= 0)%R -> (visc_del4 (par_of S) <= 0)%R -> 2 <= nx (mesh_of_setup S) -> Z.even (ny (mesh_of_setup S)) = true -> grav (par_of S) <> 0%R ->
  forall (H : Z -> R) (psi : Z -> Z -> R) (m m' : R -> mem RA) (w : place -> R) (steps : list (R * R)), (forall k, 0 <= k < d_nlayers (sdims S) -> H k <> 0%R) ->
  (forall c k, 0 <= c < d_ncells (sdims S) -> 0 <= k < d_nlayers (sdims S) -> w (AtCell c k) = (- (f0 (par_of S) / grav (par_of S)) * (rsum 6 (fun j => psi k (mi (m 0%R) VerticesOnCell [c; j])) / 6))%R) ->
  (forall e k, 0 <= e < d_nedges (sdims S) -> 0 <= k < d_nlayers (sdims S) ->
    w (AtEdge e k) = ((psi k (mi (m 0%R) VerticesOnEdge [e; 1%Z]) - psi k (mi (m 0%R) VerticesOnEdge [e; 0%Z])) / mr (m 0%R) DvEdge [e])%R) ->
  disturbed S H m w -> (forall x, exec (sdims S) (stepper_run S st steps) (m x) (OK (m' x))) -> disturbed S H m' w.
Proof. exact C79_balanced_flows_stay_proof. Qed.
Print Assumptions C79_balanced_flows_stay.

Example C79_hyps : setup_ok (S77 1 0 0) /\ (visc_del2 (par_of (S77 1 0 0)) <= 0)%R /\ (visc_del4 (par_of (S77 1 0 0)) <= 0)%R /\ 2 <= nx (mesh_of_setup (S77 1 0 0)) /\ Z.even (ny (mesh_of_setup (S77 1 0 0))) = true /\ grav (par_of (S77 1 0 0)) <> 0%R /\ f0 (par_of (S77 1 0 0)) <> 0%R.
Proof. split; [apply ok77|]. cbn. repeat split; try lia; lra. Qed.

(** The potential vorticity zeta - (f / H) eta of a disturbance does not change at any vertex of any layer, for every stepper, step size and number of steps. *)
Theorem C79_potential_vorticity_stays :
  forall st : stepper,
  forall (S : setup RA), setup_ok S -> (0 < (dc (mesh_of_setup S) : R))%R -> hook S = None -> disable_h (par_of S) = false -> disable_vn (par_of S) = false ->
  (visc_del2 (par_of S) <= 0)%R -> (visc_del4 (par_of S) <= 0)%R -> 2 <= nx (mesh_of_setup S) -> Z.even (ny (mesh_of_setup S)) = true ->
  forall (H : Z -> R) (m m' : R -> mem RA) (w w' : place -> R) (steps : list (R * R)), (forall k, 0 <= k < d_nlayers (sdims S) -> H k <> 0%R) ->
  disturbed S H m w -> (forall x, exec (sdims S) (stepper_run S st steps) (m x) (OK (m' x))) -> disturbed S H m' w' ->
  forall v k, 0 <= v < d_nvertices (sdims S) -> 0 <= k < d_nlayers (sdims S) -> linear_pv S (m 0%R) H w' v k = linear_pv S (m 0%R) H w v k.
Proof. exact C79_potential_vorticity_stays_proof. Qed.
Print Assumptions C79_potential_vorticity_stays.

(** Non-vacuity: [C79_hyps] and [C77_family]. *)

(** Gravity waves without rotation: thickness a phi, velocity b grad phi, for any plane wave phi that fits in the domain.  With om^2 = - g H Lam, Lam the eigenvalue of the discrete Laplacian (C69), every step multiplies the complex amplitude z = a + i (om / g) b by P(- i om dt), P the stability polynomial of the stepper: the discrete dispersion relation of gravity waves. *)
Theorem C80_gravity_waves :
  forall st : stepper, exists g : list R, stability_polynomial st g /\
  forall (S : setup RA), setup_ok S -> (0 < (dc (mesh_of_setup S) : R))%R -> hook S = None -> disable_h (par_of S) = false -> disable_vn (par_of S) = false ->
  (visc_del2 (par_of S) <= 0)%R -> (visc_del4 (par_of S) <= 0)%R -> 2 <= nx (mesh_of_setup S) -> Z.even (ny (mesh_of_setup S)) = true -> f0 (par_of S) = 0%R -> grav (par_of S) <> 0%R ->
  forall (H theta om : R) (p q : Z) (m m' : R -> mem RA) (z : R * R) (b : R) (steps : list (R * R)), H <> 0%R ->
  let d := (dc (mesh_of_setup S) : R) in
  let k1 := (2 * PI * IZR p / period_x (mesh_of_setup S))%R in let k2 := (2 * PI * IZR q / period_y (mesh_of_setup S))%R in
  let Lam := (4 / (3 * (d * d)) * (cos (d * k1) + cos (d / 2 * k1 + d * (sqrt 3 / 2) * k2) + cos (- (d / 2) * k1 + d * (sqrt 3 / 2) * k2) - 3))%R in
  let phi c := cos (k1 * mr (m 0%R) XCell [c] + k2 * mr (m 0%R) YCell [c] + theta) in
  let w a b pl := match pl with AtCell c k => (a * phi c)%R
    | AtEdge e k => (b * ((phi (mi (m 0%R) CellsOnEdge [e; 1%Z]) - phi (mi (m 0%R) CellsOnEdge [e; 0%Z])) / mr (m 0%R) DcEdge [e]))%R end in
  (om * om = - (grav (par_of S) * H * Lam))%R -> (om * b = grav (par_of S) * snd z)%R ->
  disturbed S (fun _ => H) m (w (fst z) b) -> (forall x, exec (sdims S) (stepper_run S st steps) (m x) (OK (m' x))) ->
  let z' := fold_left (fun z (s : R * R) => cmul (cpoly g (0, - (snd s * om))%R) z) steps z in
  exists b', (om * b' = grav (par_of S) * snd z')%R /\ disturbed S (fun _ => H) m' (w (fst z') b').
Proof. exact C80_gravity_waves_proof. Qed.
Print Assumptions C80_gravity_waves.

(** Non-vacuity: no rotation; om exists for every wave when g H > 0, since Lam <= 0 (C69). *)
Example C80_hyps : setup_ok (S77 0 0 0) /\ f0 (par_of (S77 0 0 0)) = 0%R /\ grav (par_of (S77 0 0 0)) <> 0%R.
Proof. split; [apply ok77|]. cbn. split; lra. Qed.

(** Whole programs that start at rest with thickness H + x cos(k.r + theta), without rotation and viscosity: the derivative with respect to x of the thickness after N steps differs from the exact standing wave cos(k.r + theta) cos(sqrt(g H) K T) by at most T (dc^2 sqrt(g H) K^3 / 16 + dt^4 (sqrt(g H) K)^5 / 100) (plus 1e-22 per step for LSRK): second order in space, fourth in time, if dt sqrt(6 g H) / dc <= 2 sqrt 2 (RK4) or 3.16 (five stage LSRK). *)
Theorem C80_standing_waves_converge :
  forall (st : stepper) (lim slack : R), (st = RK4 /\ lim = 2 * sqrt 2 /\ slack = 0 \/ st = LSRK 5 /\ lim = 316 / 100 /\ slack = 1 / 10 ^ 22)%R ->
  forall (S : setup RA), setup_ok S -> (0 < (dc (mesh_of_setup S) : R))%R -> hook S = None -> disable_h (par_of S) = false -> disable_vn (par_of S) = false ->
  (visc_del2 (par_of S) <= 0)%R -> (visc_del4 (par_of S) <= 0)%R -> 2 <= nx (mesh_of_setup S) -> Z.even (ny (mesh_of_setup S)) = true -> f0 (par_of S) = 0%R -> (0 < grav (par_of S))%R ->
  forall (H theta dt : R) (N p q : Z) (tr : Z -> R -> R -> R) (m' : R -> mem RA), (0 < H)%R -> 0 <= N <= INT_MAX ->
  let d := (dc (mesh_of_setup S) : R) in
  let k1 := (2 * PI * IZR p / period_x (mesh_of_setup S))%R in let k2 := (2 * PI * IZR q / period_y (mesh_of_setup S))%R in
  let speed := sqrt (grav (par_of S) * H) in let K := sqrt (k1 * k1 + k2 * k2) in let T := (IZR N * dt)%R in
  (0 <= dt /\ dt * (sqrt 6 * speed / d) <= lim)%R ->
  let wave X Y := cos (k1 * X + k2 * Y + theta) in
  (forall x, exec (sdims S) (program S st (mkInitial (A:=RA) (fun X Y => H + x * wave X Y)%R (fun _ _ => 0%R) (fun _ _ => 0%R) tr) (loop_steps (A:=RA) N dt)) (mzero RA) (OK (m' x))) ->
  forall k c, 0 <= k < d_nlayers (sdims S) -> 0 <= c < d_ncells (sdims S) ->
  mr (m' 0%R) (HCell St) [c; k] = H /\
  exists D, derivable_pt_lim (fun x => mr (m' x) (HCell St) [c; k]) 0 D /\
    (Rabs (D - wave (mr (m' 0%R) XCell [c]) (mr (m' 0%R) YCell [c]) * cos (speed * K * T)) <= T * (d ^ 2 * speed * K ^ 3 / 16 + dt ^ 4 * (speed * K) ^ 5 / 100) + IZR N * slack)%R.
Proof. exact C80_standing_waves_converge_proof. Qed.
Print Assumptions C80_standing_waves_converge.

(** Non-vacuity: dc = 2, g = 10, H = 5/2, dt = 1/2: dt sqrt 6 * 5 / 2 = 3.06 < 3.16. *)
Example C80_step : (1 / 2 * (sqrt 6 * sqrt (10 * (5 / 2)) / 2) <= 316 / 100)%R.
Proof.
  replace (10 * (5 / 2))%R with (5 * 5)%R by field. rewrite sqrt_square by lra.
  assert (sqrt 6 <= 5 / 2)%R; [|lra]. rewrite <- (sqrt_square (5 / 2)) by lra. apply sqrt_le_1; lra.
Qed.

(** On every mesh the weights reconstruct a tangential velocity that has at most the energy of the normal velocity: the sum of squares over the edges never grows. *)
Theorem C81_reconstruction_contracts :
  forall (S : setup RA), setup_ok S -> Z.even (ny (mesh_of_setup S)) = true -> forall (m : mem RA) (u : Z -> R), ready S m ->
  let v e := rsum (mi m NedgesOnEdge [e]) (fun j => mr m WeightsOnEdge [e; j] * u (mi m EdgesOnEdge [e; j]))%R in
  (rsum (d_nedges (sdims S)) (fun e => v e * v e) <= rsum (d_nedges (sdims S)) (fun e => u e * u e))%R.
Proof. exact C81_reconstruction_contracts_proof. Qed.
Print Assumptions C81_reconstruction_contracts.

Example C81_hyps : setup_ok (S77 1 0 0) /\ exists m, ready (S77 1 0 0) m. Proof. split; [apply ok77|]. destruct (ready_any (S77 1 0 0) (ok77 1 0 0) (fun _ _ => 0%R)) as (m & Hr & _). eauto. Qed.

