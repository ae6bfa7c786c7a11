(** Tracers in a flow that does not change: every step is a polynomial of one linear operator (C72); plane waves in a
    uniform flow (C73), their stability (C74) and the convergence of uniform advection (C75). *)
From Coq Require Import ZArith Reals List Bool Lia Lra.
From Verif Require Import Arith Arrays Prog Conc Launch Mesh AuxVars Tend Model Hex RSum Spec MeshProof MeshMem MeshR Ready StepVal Driver Cplx AdvRun PropsMesh PropsCons AdvThms.
Import ListNotations.
Open Scope Z_scope.

(** In a flow whose thickness and velocity have no tendency (fluid at rest, uniform flow, or h and vn tendencies disabled with any flow), for all tracers, step sizes and steppers: there is one linear operator T per layer such that the tracer tendency is T applied to the tracer whatever the tracers are, thickness and velocity never change, and every step applies the stability polynomial of the stepper to dt T. *)
Theorem C72_frozen_flow_transport :
  forall st : stepper, exists g : list R, stability_polynomial st g /\
  forall (S : setup RA), setup_ok S -> (0 < (dc (mesh_of_setup S) : R))%R -> hook S = None ->
  forall m : mem RA, ready S m -> disabled_zero S Tend m ->
  let NL := d_nlayers (sdims S) in let NC := d_ncells (sdims S) in let NE := d_nedges (sdims S) in
  (forall time : R, always (sdims S) (compute_tendency S Tend St time Replace) m (fun m' => forall k, 0 <= k < NL ->
    (forall c, 0 <= c < NC -> mr m' (HCell Tend) [c; k] = 0%R) /\ (forall e, 0 <= e < NE -> mr m' (VnEdge Tend) [e; k] = 0%R))) ->
  exists T : Z -> (Z -> R) -> Z -> R,
  (forall k a b f g c, 0 <= c < NC -> T k (fun c => a * f c + b * g c)%R c = (a * T k f c + b * T k g c)%R) /\
  (forall (time : R) (m1 : mem RA), ready S m1 -> disabled_zero S Tend m1 ->
    (forall k, 0 <= k < NL -> (forall c, 0 <= c < NC -> mr m1 (HCell St) [c; k] = mr m (HCell St) [c; k]) /\ (forall e, 0 <= e < NE -> mr m1 (VnEdge St) [e; k] = mr m (VnEdge St) [e; k])) ->
    always (sdims S) (compute_tendency S Tend St time Replace) m1 (fun m' => forall l k c, 0 <= l < ntracers (par_of S) -> 0 <= k < NL -> 0 <= c < NC ->
      mr m' (TrCell Tend) [l; c; k] = T k (fun c => mr m1 (TrCell St) [l; c; k]) c)) /\
  forall steps : list (R * R), always (sdims S) (stepper_run S st steps) m (fun m' => forall k, 0 <= k < NL ->
    (forall c, 0 <= c < NC -> mr m' (HCell St) [c; k] = mr m (HCell St) [c; k]) /\
    (forall e, 0 <= e < NE -> mr m' (VnEdge St) [e; k] = mr m (VnEdge St) [e; k]) /\
    forall l c, 0 <= l < ntracers (par_of S) -> 0 <= c < NC ->
      mr m' (TrCell St) [l; c; k] = fold_left (fun f s => opoly (T k) g (snd s) f) steps (fun c => mr m (TrCell St) [l; c; k]) c).
Proof. exact C72_frozen_flow_transport_proof. Qed.
Print Assumptions C72_frozen_flow_transport.

(** Non-vacuity: flows with and without motion; with the h and vn tendencies disabled every flow qualifies. *)
Definition S72 : setup RA := mkSetup (mkConfig false true false 4) (mkHex (A:=RA) 5 4 (IZR 2) 3)
  (mkParams (A:=RA) (IZR 1) (IZR 10) (IZR 0) (IZR 1) (IZR 1) (IZR 1) (IZR 1) 2 true true) None.
Example C72_applies (hh vv : Z -> Z -> R) : setup_ok S72 /\ exists m, ready S72 m /\ disabled_zero S72 Tend m /\
  (forall k c, mr m (HCell St) [c; k] = hh c k) /\ (forall k e, mr m (VnEdge St) [e; k] = vv e k) /\
  forall time : R, always (sdims S72) (compute_tendency S72 Tend St time Replace) m (fun m' => forall k, 0 <= k < d_nlayers (sdims S72) ->
    (forall c, 0 <= c < d_ncells (sdims S72) -> mr m' (HCell Tend) [c; k] = 0%R) /\ (forall e, 0 <= e < d_nedges (sdims S72) -> mr m' (VnEdge Tend) [e; k] = 0%R)).
Proof.
  assert (Ho : setup_ok S72) by ok. split; [exact Ho|].
  destruct (ready_any S72 Ho (fun a ix => match a, ix with HCell St, [c; k] => hh c k | VnEdge St, [e; k] => vv e k | _, _ => 0%R end)) as (m & R0 & E).
  exists m. split; [exact R0|]. split; [intros k Hk; split; intros _ x Hx; now rewrite E|]. split; [intros; now rewrite E|]. split; [intros; now rewrite E|].
  intros time. apply both_disabled_still; try reflexivity; [exact Ho|cbn; lra|exact R0|]. intros k Hk; split; intros _ x Hx; now rewrite E.
Qed.

(** A program that starts with a uniform thickness, a uniform velocity (U, V) and tracers that are finite sums of plane waves (each with an amplitude, a phase and a wave vector that fits in the domain), without Coriolis force or with the velocity tendency disabled: thickness and velocity stay as they are, and every step multiplies every wave, as a complex number, by P(dt (rate - i om)), P the stability polynomial of the stepper, rate as in C69, and om the frequency of the centred discrete advection. *)
Theorem C73_waves_in_a_uniform_flow :
  forall st : stepper, exists g : list R, stability_polynomial st g /\
  forall (S : setup RA), setup_ok S -> (0 < (dc (mesh_of_setup S) : R))%R -> 2 <= nx (mesh_of_setup S) -> Z.even (ny (mesh_of_setup S)) = true ->
  hook S = None -> f0 (par_of S) = 0%R \/ disable_vn (par_of S) = true ->
  forall (H U V : R) (ws : Z -> list (R * R * (Z * Z))) (steps : list (R * R)), H <> 0%R ->
  let d := (dc (mesh_of_setup S) : R) in
  let amp (w : R * R * (Z * Z)) := fst (fst w) in
  let k1 (w : R * R * (Z * Z)) := (2 * PI * IZR (fst (snd w)) / period_x (mesh_of_setup S))%R in
  let k2 (w : R * R * (Z * Z)) := (2 * PI * IZR (snd (snd w)) / period_y (mesh_of_setup S))%R in
  let u w x y := (k1 w * x + k2 w * y + snd (fst w))%R in
  let Lam w := (4 / (3 * (d * d)) * (cos (d * k1 w) + cos (d / 2 * k1 w + d * (sqrt 3 / 2) * k2 w) + cos (- (d / 2) * k1 w + d * (sqrt 3 / 2) * k2 w) - 3))%R in
  let rate w := (Rmax 0 (eddy_diff2 (par_of S)) * Lam w - Rmax 0 (eddy_diff4 (par_of S)) * (Lam w * Lam w))%R in
  let om w := (2 / (3 * d) * (U * sin (d * k1 w) + (U / 2 + V * (sqrt 3 / 2)) * sin (d / 2 * k1 w + d * (sqrt 3 / 2) * k2 w)
                  + (- (U / 2) + V * (sqrt 3 / 2)) * sin (- (d / 2) * k1 w + d * (sqrt 3 / 2) * k2 w)))%R in
  let tr l x y := fold_right Rplus 0%R (map (fun w => amp w * cos (u w x y))%R (ws l)) in
  always (sdims S) (program S st (mkInitial (A:=RA) (fun _ _ => H) (fun _ _ => U) (fun _ _ => V) tr) steps) (mzero RA) (fun m' => forall k, 0 <= k < d_nlayers (sdims S) ->
    (forall c, 0 <= c < d_ncells (sdims S) -> mr m' (HCell St) [c; k] = H) /\
    (forall e, 0 <= e < d_nedges (sdims S) -> mr m' (VnEdge St) [e; k] = (U * cos (mr m' AngleEdge [e]) + V * sin (mr m' AngleEdge [e]))%R) /\
    forall l c, 0 <= l < ntracers (par_of S) -> 0 <= c < d_ncells (sdims S) -> let x := mr m' XCell [c] in let y := mr m' YCell [c] in
    mr m' (TrCell St) [l; c; k] = fold_right Rplus 0%R (map (fun w => fst (fold_right (fun s z => cmul (cpoly g (cscal (snd s) (rate w, (- om w)%R))) z)
      (amp w * cos (u w x y), amp w * sin (u w x y))%R steps)) (ws l))).
Proof. exact C73_waves_in_a_uniform_flow_proof. Qed.
Print Assumptions C73_waves_in_a_uniform_flow.

(** Non-vacuity: three waves per tracer on a 4 by 6 mesh, with diffusion and hyperdiffusion. *)
Definition S73 (k2 k4 : R) : setup RA := mkSetup (mkConfig false true false 8) (mkHex (A:=RA) 4 6 (IZR 2) 3)
  (mkParams (A:=RA) (IZR 0) (IZR 10) (IZR 0) (IZR 1) (IZR 1) k2 k4 2 false false) None.
Example C73_hyps k2 k4 : setup_ok (S73 k2 k4) /\ (0 < (dc (mesh_of_setup (S73 k2 k4)) : R))%R /\ 2 <= nx (mesh_of_setup (S73 k2 k4)) /\ Z.even (ny (mesh_of_setup (S73 k2 k4))) = true /\
  hook (S73 k2 k4) = None /\ f0 (par_of (S73 k2 k4)) = 0%R /\ 0 < ntracers (par_of (S73 k2 k4)).
Proof. split; [ok|]. cbn. repeat split; try lia; lra. Qed.

(** The frequency om of the discrete advection differs from the exact U k1 + V k2 by at most dc^2 speed K^3 / 8, and is never larger than speed K and than 4/3 speed / dc. *)
Theorem C73_discrete_frequency :
  forall d U V k1 k2 : R, (0 < d)%R ->
  let om := (2 / (3 * d) * (U * sin (d * k1) + (U / 2 + V * (sqrt 3 / 2)) * sin (d / 2 * k1 + d * (sqrt 3 / 2) * k2)
                  + (- (U / 2) + V * (sqrt 3 / 2)) * sin (- (d / 2) * k1 + d * (sqrt 3 / 2) * k2)))%R in
  let speed := sqrt (U * U + V * V) in let K := sqrt (k1 * k1 + k2 * k2) in
  (Rabs (om - (U * k1 + V * k2)) <= d ^ 2 / 8 * speed * K ^ 3 /\ Rabs om <= speed * K /\ Rabs om <= 4 / 3 * speed / d)%R.
Proof. exact C73_discrete_frequency_proof. Qed.
Print Assumptions C73_discrete_frequency.

(** Non-vacuity: speed 1, wave number 1, dc = 1; the frequency is then at least 7/8. *)
Example C73_wave : let speed := sqrt (1 * 1 + 0 * 0) in let K := sqrt (1 * 1 + 0 * 0) in (1 ^ 2 / 8 * speed * K ^ 3 = 1 / 8)%R.
Proof. cbv zeta. replace (1 * 1 + 0 * 0)%R with 1%R by ring. rewrite sqrt_1. field. Qed.

(** Without diffusion and under the CFL condition dt (4/3) speed / dc <= 2 sqrt 2 for RK4 and 3.16 for five stage LSRK, advection by a uniform flow never amplifies a wave (for LSRK, by at most 1 + 2e-23 per step, since its coefficients are decimal fractions): the tracer stays below the sum of the initial amplitudes everywhere and forever. *)
Theorem C74_advection_is_stable :
  forall (st : stepper) (lim growth : R), (st = RK4 /\ lim = 2 * sqrt 2 /\ growth = 1 \/ st = LSRK 5 /\ lim = 316 / 100 /\ growth = 1 + 2 / 10 ^ 23)%R ->
  forall (S : setup RA), setup_ok S -> (0 < (dc (mesh_of_setup S) : R))%R -> 2 <= nx (mesh_of_setup S) -> Z.even (ny (mesh_of_setup S)) = true ->
  hook S = None -> f0 (par_of S) = 0%R \/ disable_vn (par_of S) = true ->
  forall (H U V : R) (ws : Z -> list (R * R * (Z * Z))) (steps : list (R * R)), H <> 0%R ->
  ((eddy_diff2 (par_of S) : R) <= 0)%R -> ((eddy_diff4 (par_of S) : R) <= 0)%R ->
  let d := (dc (mesh_of_setup S) : R) in
  let amp (w : R * R * (Z * Z)) := fst (fst w) in
  let k1 (w : R * R * (Z * Z)) := (2 * PI * IZR (fst (snd w)) / period_x (mesh_of_setup S))%R in
  let k2 (w : R * R * (Z * Z)) := (2 * PI * IZR (snd (snd w)) / period_y (mesh_of_setup S))%R in
  let u w x y := (k1 w * x + k2 w * y + snd (fst w))%R in
  (forall t dt, In (t, dt) steps -> 0 <= dt /\ dt * (4 / 3 * sqrt (U * U + V * V) / d) <= lim)%R ->
  let tr l x y := fold_right Rplus 0%R (map (fun w => amp w * cos (u w x y))%R (ws l)) in
  always (sdims S) (program S st (mkInitial (A:=RA) (fun _ _ => H) (fun _ _ => U) (fun _ _ => V) tr) steps) (mzero RA) (fun m' =>
    forall l k c, 0 <= l < ntracers (par_of S) -> 0 <= k < d_nlayers (sdims S) -> 0 <= c < d_ncells (sdims S) ->
    (Rabs (mr m' (TrCell St) [l; c; k]) <= growth ^ length steps * fold_right Rplus 0 (map (fun w => Rabs (amp w)) (ws l)))%R).
Proof. exact C74_advection_is_stable_proof. Qed.
Print Assumptions C74_advection_is_stable.

(** Non-vacuity: dc = 2, speed 1 and dt = 4: dt 4/3 / 2 = 8/3 < 2 sqrt 2. *)
Example C74_step : (4 * (4 / 3 * sqrt (1 * 1 + 0 * 0) / 2) <= 2 * sqrt 2)%R.
Proof.
  replace (1 * 1 + 0 * 0)%R with 1%R by ring. rewrite sqrt_1. assert (4 / 3 <= sqrt 2)%R; [|lra].
  rewrite <- (sqrt_square (4 / 3)) by lra. apply sqrt_le_1; lra.
Qed.

(** One stage LSRK (forward Euler) is unstable for advection at every step size: on every mesh with nx >= 3, without diffusion, with any uniform flow along x and any dt <> 0, a wave of one period (tracer 0, with tracer 1 a quarter of a period behind) grows by the factor r > 1 in the square of its amplitude in every step. *)
Theorem C74_euler_advection_refuted :
  forall (S : setup RA), setup_ok S -> (0 < (dc (mesh_of_setup S) : R))%R -> 3 <= nx (mesh_of_setup S) -> Z.even (ny (mesh_of_setup S)) = true ->
  hook S = None -> f0 (par_of S) = 0%R \/ disable_vn (par_of S) = true -> ((eddy_diff2 (par_of S) : R) <= 0)%R -> ((eddy_diff4 (par_of S) : R) <= 0)%R -> 2 <= ntracers (par_of S) ->
  forall H U A dt : R, H <> 0%R -> U <> 0%R -> A <> 0%R -> dt <> 0%R ->
  let kx x := (2 * PI / period_x (mesh_of_setup S) * x)%R in
  let tr l x (y : R) := (if l =? 0 then A * cos (kx x) else A * cos (kx x - PI / 2))%R in
  exists r : R, (1 < r)%R /\ forall N, 0 <= N ->
  always (sdims S) (program S (LSRK 1) (mkInitial (A:=RA) (fun _ _ => H) (fun _ _ => U) (fun _ _ => 0%R) tr) (loop_steps (A:=RA) N dt)) (mzero RA) (fun m' =>
    forall k c, 0 <= k < d_nlayers (sdims S) -> 0 <= c < d_ncells (sdims S) ->
    (mr m' (TrCell St) [0%Z; c; k] * mr m' (TrCell St) [0%Z; c; k] + mr m' (TrCell St) [1%Z; c; k] * mr m' (TrCell St) [1%Z; c; k] = A * A * r ^ Z.to_nat N)%R).
Proof. exact C74_euler_advection_refuted_proof. Qed.
Print Assumptions C74_euler_advection_refuted.

(** Non-vacuity: dc = 2, nx = 4, two tracers, no diffusion. *)
Example C74_refuted_hyps : setup_ok (S73 0 0) /\ 3 <= nx (mesh_of_setup (S73 0 0)) /\ 2 <= ntracers (par_of (S73 0 0)) /\ ((eddy_diff2 (par_of (S73 0 0)) : R) <= 0)%R /\ ((eddy_diff4 (par_of (S73 0 0)) : R) <= 0)%R.
Proof. split; [apply (C73_hyps 0 0)|]. cbn. repeat split; try lia; lra. Qed.

(** Convergence of the whole program for uniform advection: under the CFL condition of C74, after N steps the computed tracer (RK4 or five stage LSRK) differs from the exact solution, the initial tracer moved along by (U T, V T), by at most the sum over the waves of amplitude times T (dc^2 speed K^3 / 8 + dt^4 (speed K)^5 / 100), K the wave number, everywhere (plus 1e-22 per step for LSRK). *)
Theorem C75_uniform_advection_converges :
  forall (st : stepper) (lim slack : R), (st = RK4 /\ lim = 2 * sqrt 2 /\ slack = 0 \/ st = LSRK 5 /\ lim = 316 / 100 /\ slack = 1 / 10 ^ 22)%R ->
  forall (S : setup RA), setup_ok S -> (0 < (dc (mesh_of_setup S) : R))%R -> 2 <= nx (mesh_of_setup S) -> Z.even (ny (mesh_of_setup S)) = true ->
  hook S = None -> f0 (par_of S) = 0%R \/ disable_vn (par_of S) = true -> ((eddy_diff2 (par_of S) : R) <= 0)%R -> ((eddy_diff4 (par_of S) : R) <= 0)%R ->
  forall (H U V dt : R) (N : Z) (ws : Z -> list (R * R * (Z * Z))), H <> 0%R -> 0 <= N <= INT_MAX ->
  let d := (dc (mesh_of_setup S) : R) in
  let amp (w : R * R * (Z * Z)) := fst (fst w) in
  let k1 (w : R * R * (Z * Z)) := (2 * PI * IZR (fst (snd w)) / period_x (mesh_of_setup S))%R in
  let k2 (w : R * R * (Z * Z)) := (2 * PI * IZR (snd (snd w)) / period_y (mesh_of_setup S))%R in
  let u w x y := (k1 w * x + k2 w * y + snd (fst w))%R in
  let speed := sqrt (U * U + V * V) in let K w := sqrt (k1 w * k1 w + k2 w * k2 w) in let T := (IZR N * dt)%R in
  (0 <= dt /\ dt * (4 / 3 * speed / d) <= lim)%R ->
  let exact l (t x y : R) := fold_right Rplus 0%R (map (fun w => amp w * cos (u w (x - U * t) (y - V * t)))%R (ws l)) in
  always (sdims S) (program S st (mkInitial (A:=RA) (fun _ _ => H) (fun _ _ => U) (fun _ _ => V) (fun l x y => exact l 0%R x y)) (loop_steps (A:=RA) N dt)) (mzero RA) (fun m' =>
    forall l k c, 0 <= l < ntracers (par_of S) -> 0 <= k < d_nlayers (sdims S) -> 0 <= c < d_ncells (sdims S) ->
    (Rabs (mr m' (TrCell St) [l; c; k] - exact l T (mr m' XCell [c]) (mr m' YCell [c])) <=
      fold_right Rplus 0 (map (fun w => Rabs (amp w) * (T * (d ^ 2 * speed * K w ^ 3 / 8 + dt ^ 4 * (speed * K w) ^ 5 / 100) + IZR N * slack)) (ws l)))%R).
Proof. exact C75_uniform_advection_converges_proof. Qed.
Print Assumptions C75_uniform_advection_converges.

(** Non-vacuity: the hypotheses on the setup are those of C73; N = 100 steps. *)
Example C75_hyps : 0 <= 100 <= INT_MAX /\ setup_ok (S73 0 0). Proof. split; [unfold INT_MAX; lia|apply (C73_hyps 0 0)]. Qed.

