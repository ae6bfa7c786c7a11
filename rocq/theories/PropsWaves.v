(** Plane waves of a tracer in a fluid at rest (C69), their stability (C70), and the tracer diffusion and
    hyperdiffusion convergence tests (C71). *)
From Coq Require Import ZArith Reals List Bool Lia Lra.
From Verif Require Import Arith Arrays Prog Conc Launch Mesh AuxVars Tend Model Hex RSum Spec MeshProof MeshMem MeshR Ready StepVal Driver TestFns TestRun PropsMesh PropsCons WaveThms.
Import ListNotations.
Open Scope Z_scope.

(** A program that starts at rest with a uniform thickness and one plane wave per tracer (any wave vector that fits in the domain, any amplitude and phase) multiplies every wave in every step by P(dt * rate), where rate = kappa2 Lam - kappa4 Lam^2 with the eigenvalue Lam of the discrete Laplacian (negative coefficients count as 0), and P is the stability polynomial of the stepper: the Taylor polynomial of exp of degree 4 for RK4, 1 + z for one stage LSRK, a polynomial of degree 5 whose first four coefficients are those of exp up to 1e-25 for five stages, and 1 for the other stage counts. *)
Theorem C69_plane_waves :
  forall st : stepper, exists P : R -> R,
  match st with
  | RK4 => forall z, P z = (1 + z + z ^ 2 / 2 + z ^ 3 / 6 + z ^ 4 / 24)%R
  | LSRK n => (n = 1 -> forall z, P z = (1 + z)%R) /\ (n <> 1 -> n <> 5 -> forall z, P z = 1%R) /\
      (n = 5 -> exists g1 g2 g3 g4 g5 : R, (Rabs (g1 - 1) <= 1 / 10 ^ 25 /\ Rabs (g2 - 1 / 2) <= 1 / 10 ^ 25 /\ Rabs (g3 - 1 / 6) <= 1 / 10 ^ 25 /\
         Rabs (g4 - 1 / 24) <= 1 / 10 ^ 25 /\ 49 / 10000 < g5 < 51 / 10000)%R /\
         forall z, P z = (1 + g1 * z + g2 * z ^ 2 + g3 * z ^ 3 + g4 * z ^ 4 + g5 * z ^ 5)%R)
  end /\
  forall (S : setup RA), setup_ok S -> (0 < (dc (mesh_of_setup S) : R))%R -> 2 <= nx (mesh_of_setup S) -> Z.even (ny (mesh_of_setup S)) = true ->
  hook S = None -> forall (H : R) (A phi : Z -> R) (p q : Z -> Z) (steps : list (R * R)), H <> 0%R ->
  let d := (dc (mesh_of_setup S) : R) in
  let k1 l := (2 * PI * IZR (p l) / period_x (mesh_of_setup S))%R in let k2 l := (2 * PI * IZR (q l) / period_y (mesh_of_setup S))%R in
  let Lam l := (4 / (3 * (d * d)) * (cos (d * k1 l) + cos (d / 2 * k1 l + d * (sqrt 3 / 2) * k2 l) + cos (- (d / 2) * k1 l + d * (sqrt 3 / 2) * k2 l) - 3))%R in
  let w l x y := (A l * cos (k1 l * x + k2 l * y + phi l))%R in
  let rate l := (Rmax 0 (eddy_diff2 (par_of S)) * Lam l - Rmax 0 (eddy_diff4 (par_of S)) * (Lam l * Lam l))%R in
  always (sdims S) (program S st (mkInitial (A:=RA) (fun _ _ => H) (fun _ _ => 0%R) (fun _ _ => 0%R) w) steps) (mzero RA) (fun m' =>
    forall l k c, 0 <= l < ntracers (par_of S) -> 0 <= k < d_nlayers (sdims S) -> 0 <= c < d_ncells (sdims S) ->
    mr m' (TrCell St) [l; c; k] = fold_right (fun s x => (P (snd s * rate l) * x)%R) (w l (mr m' XCell [c]) (mr m' YCell [c])) steps).
Proof. exact C69_plane_waves_proof. Qed.
Print Assumptions C69_plane_waves.

(** Non-vacuity: diffusion and hyperdiffusion on, three layers, two tracers. *)
Definition S69 (nx ny : Z) (k2 k4 : R) : setup RA := mkSetup (mkConfig false true false 8) (mkHex (A:=RA) nx ny (IZR 2) 3)
  (mkParams (A:=RA) (IZR 1) (IZR 10) (IZR 0) (IZR 1) (IZR 1) k2 k4 2 true false) None.
Example ok69 k2 k4 : setup_ok (S69 4 6 k2 k4) /\ setup_ok (S69 6 4 k2 k4). Proof. split; ok. Qed.
Example C69_hyps : (0 < (dc (mesh_of_setup (S69 4 6 1 1)) : R))%R /\ 2 <= nx (mesh_of_setup (S69 4 6 1 1)) /\ Z.even (ny (mesh_of_setup (S69 4 6 1 1))) = true /\
  hook (S69 4 6 1 1) = None /\ 0 < ntracers (par_of (S69 4 6 1 1)).
Proof. cbn. repeat split; try lia. lra. Qed.

(** The eigenvalue of the discrete Laplacian for a wave vector (k1, k2) is never positive, never below -6 / dc^2, and differs from the exact -(k1^2 + k2^2) by at most dc^2 (k1^2 + k2^2)^2 / 16, always on the side of too slow decay. *)
Theorem C69_discrete_wave_number :
  forall d k1 k2 : R, (0 < d)%R ->
  let Lam := (4 / (3 * (d * d)) * (cos (d * k1) + cos (d / 2 * k1 + d * (sqrt 3 / 2) * k2) + cos (- (d / 2) * k1 + d * (sqrt 3 / 2) * k2) - 3))%R in
  let K := (k1 * k1 + k2 * k2)%R in
  (- K <= Lam <= - K + d * d * (K * K) / 16 /\ - (6 / (d * d)) <= Lam <= 0)%R.
Proof. exact C69_discrete_wave_number_proof. Qed.
Print Assumptions C69_discrete_wave_number.

(** Non-vacuity: a wave with a nonzero exact eigenvalue; both bounds are then different from 0. *)
Example C69_wave : let d := 1%R in let K := (1 * 1 + 1 * 1)%R in (- K < - K + d * d * (K * K) / 16 < 0)%R. Proof. cbv zeta. lra. Qed.

(** With step sizes dt (6 kappa2 / dc^2 + 36 kappa4 / dc^4) <= 2.78 for RK4, 4.5 for five stage LSRK, 2 for one stage LSRK, no plane wave of a tracer in a fluid at rest is amplified: the tracer stays below the initial amplitude everywhere and forever. *)
Theorem C70_waves_do_not_grow :
  forall (st : stepper) (lim : R), (st = RK4 /\ lim = 278 / 100 \/ st = LSRK 5 /\ lim = 45 / 10 \/ st = LSRK 1 /\ lim = 2)%R ->
  forall (S : setup RA), setup_ok S -> (0 < (dc (mesh_of_setup S) : R))%R -> 2 <= nx (mesh_of_setup S) -> Z.even (ny (mesh_of_setup S)) = true ->
  hook S = None -> forall (H : R) (A phi : Z -> R) (p q : Z -> Z) (steps : list (R * R)), H <> 0%R ->
  let d := (dc (mesh_of_setup S) : R) in
  (forall t dt, In (t, dt) steps -> (0 <= dt /\ dt * (6 * Rmax 0 (eddy_diff2 (par_of S)) / (d * d) + 36 * Rmax 0 (eddy_diff4 (par_of S)) / (d * d * (d * d))) <= lim)%R) ->
  let w l x y := (A l * cos (2 * PI * IZR (p l) / period_x (mesh_of_setup S) * x + 2 * PI * IZR (q l) / period_y (mesh_of_setup S) * y + phi l))%R in
  always (sdims S) (program S st (mkInitial (A:=RA) (fun _ _ => H) (fun _ _ => 0%R) (fun _ _ => 0%R) w) steps) (mzero RA) (fun m' =>
    forall l k c, 0 <= l < ntracers (par_of S) -> 0 <= k < d_nlayers (sdims S) -> 0 <= c < d_ncells (sdims S) ->
    (Rabs (mr m' (TrCell St) [l; c; k]) <= Rabs (A l))%R).
Proof. exact C70_waves_do_not_grow_proof. Qed.
Print Assumptions C70_waves_do_not_grow.

(** Non-vacuity: dc = 2, kappa2 = 1, kappa4 = 1 and dt = 1/2; 1/2 (6/4 + 36/16) = 1.875. *)
Example C70_step : let d := (dc (mesh_of_setup (S69 4 6 1 1)) : R) in
  (1 / 2 * (6 * Rmax 0 (eddy_diff2 (par_of (S69 4 6 1 1))) / (d * d) + 36 * Rmax 0 (eddy_diff4 (par_of (S69 4 6 1 1))) / (d * d * (d * d))) <= 2)%R.
Proof. cbn. rewrite Rmax_right by lra. lra. Qed.

(** The step size dt = dc^4 / (8 kappa4) of the hyperdiffusion test is safe with LSRK only. With RK4, on every mesh whose nx is a multiple of 3, the wave of amplitude A with 2 nx / 3 periods in x is multiplied by 8.5234375 in every step. *)
Theorem C70_rk4_hyperdiffusion_step_refuted :
  forall (S : setup RA), setup_ok S -> (0 < (dc (mesh_of_setup S) : R))%R -> 2 <= nx (mesh_of_setup S) -> Z.even (ny (mesh_of_setup S)) = true ->
  hook S = None -> ((eddy_diff2 (par_of S) : R) <= 0)%R -> (0 < (eddy_diff4 (par_of S) : R))%R ->
  forall j, nx (mesh_of_setup S) = 3 * j -> forall (H A : R) (N : Z), H <> 0%R -> 0 <= N ->
  let d := (dc (mesh_of_setup S) : R) in let dt := (d ^ 4 / (8 * (eddy_diff4 (par_of S) : R)))%R in
  let w (l : Z) x y := (A * cos (2 * PI * IZR (2 * j) / period_x (mesh_of_setup S) * x))%R in
  always (sdims S) (program S RK4 (mkInitial (A:=RA) (fun _ _ => H) (fun _ _ => 0%R) (fun _ _ => 0%R) w) (loop_steps (A:=RA) N dt)) (mzero RA) (fun m' =>
    forall l k c, 0 <= l < ntracers (par_of S) -> 0 <= k < d_nlayers (sdims S) -> 0 <= c < d_ncells (sdims S) ->
    mr m' (TrCell St) [l; c; k] = ((85234375 / 10000000) ^ Z.to_nat N * w l (mr m' XCell [c]) (mr m' YCell [c]))%R).
Proof. exact C70_rk4_hyperdiffusion_step_refuted_proof. Qed.
Print Assumptions C70_rk4_hyperdiffusion_step_refuted.

(** Non-vacuity: nx = 6, kappa4 = 1. *)
Example C70_refuted_hyps : setup_ok (S69 6 4 0 1) /\ nx (mesh_of_setup (S69 6 4 0 1)) = 3 * 2 /\ ((eddy_diff2 (par_of (S69 6 4 0 1)) : R) <= 0)%R /\
  (0 < (eddy_diff4 (par_of (S69 6 4 0 1)) : R))%R.
Proof. split; [apply ok69|]. cbn. repeat split; lra. Qed.

(** The program of tracer_diffusion_convergence on an n by n mesh, for every even n >= 16, build configuration and schedule (and whatever the uninitialised Coriolis parameter is): it ends, the computed tracer differs from the exact solution at the final time by at most 11 / n^2 everywhere, and the error it reports has one possible value e, positive and at most sqrt(nlayers) 11 / (2 n^2) (nlayers is rounded up to the vector length). *)
Theorem C71_diffusion_test_error :
  forall (cf : config) (f0 : R) (n N : Z), let S := td_setup cf f0 n in setup_ok S -> 16 <= n -> Z.even n = true ->
  (IZR N - 1 < td_timeend / td_dt n <= IZR N)%R ->
  always (sdims S) (program S (LSRK 5) td_init (loop_steps (A:=RA) N (td_timeend / IZR N)%R)) (mzero RA) (fun m' =>
    (forall k c, 0 <= k < d_nlayers (sdims S) -> 0 <= c < d_ncells (sdims S) ->
      (Rabs (mr m' (TrCell St) [0%Z; c; k] - TD.tr (mr m' XCell [c]) (mr m' YCell [c]) td_timeend) <= 11 / (IZR n * IZR n))%R) /\
    exists e : R, (0 < e <= sqrt (IZR (d_nlayers (sdims S))) * (11 / 2) / (IZR n * IZR n))%R /\
      forall r, error_norm S (fun x y => TD.tr x y td_timeend) m' r <-> r = Some e).
Proof. exact C71_diffusion_test_error_proof. Qed.
Print Assumptions C71_diffusion_test_error.

(** The verdict of tracer_diffusion_convergence: for every even n >= 16 (the test uses 16) the rate computed from the errors on the n by n and the 2n by 2n mesh is within 0.05 of 2, for every order of the reductions and every value of the uninitialised Coriolis parameter, so in exact arithmetic the test never throws. *)
Theorem C71_diffusion_test_passes :
  forall (cf : config) (f0 f0' : R) (n N N' : Z), let S := td_setup cf f0 n in let S' := td_setup cf f0' (2 * n) in setup_ok S -> setup_ok S' -> 16 <= n -> Z.even n = true ->
  (IZR N - 1 < td_timeend / td_dt n <= IZR N)%R -> (IZR N' - 1 < td_timeend / td_dt (2 * n) <= IZR N')%R ->
  forall m m', exec (sdims S) (program S (LSRK 5) td_init (loop_steps (A:=RA) N (td_timeend / IZR N)%R)) (mzero RA) (OK m) ->
  exec (sdims S') (program S' (LSRK 5) td_init (loop_steps (A:=RA) N' (td_timeend / IZR N')%R)) (mzero RA) (OK m') ->
  forall r r', error_norm S (fun x y => TD.tr x y td_timeend) m r -> error_norm S' (fun x y => TD.tr x y td_timeend) m' r' ->
  exists e e' : R, r = Some e /\ r' = Some e' /\ (0 < e)%R /\ (0 < e')%R /\ check_rate (log2 (e / e')) 2 (5 / 100).
Proof. exact C71_diffusion_test_passes_proof. Qed.
Print Assumptions C71_diffusion_test_passes.

(** Non-vacuity: the meshes of the test, with the step counts 21 and 82, with and without SIMD. *)
Example C71_td_hyps f0 : setup_ok (td_setup (mkConfig false true false 8) f0 16) /\ setup_ok (td_setup (mkConfig false true false 8) f0 32) /\ setup_ok (td_setup (mkConfig true false false 1) f0 16) /\
  (IZR 21 - 1 < td_timeend / td_dt 16 <= IZR 21)%R /\ (IZR 82 - 1 < td_timeend / td_dt (2 * 16) <= IZR 82)%R.
Proof. split; [ok|]. split; [ok|]. split; [ok|]. unfold td_timeend, td_dt, TD.lx, TD.diff2. cbn [Z.mul Pos.mul pow]. repeat split; lra. Qed.

(** The program of tracer_hyperdiffusion_convergence on an n by n mesh, for every even n >= 16, build configuration and schedule (and whatever the uninitialised Coriolis parameter is): it ends, the computed tracer differs from the exact solution at the final time by at most 21 / n^2 everywhere, and the error it reports has one possible value e, positive and at most sqrt(nlayers) 21 / (2 n^2) (nlayers is rounded up to the vector length). The number of steps must fit in an Int, which it does for n <= 1076. *)
Theorem C71_hyperdiffusion_test_error :
  forall (cf : config) (f0 : R) (n N : Z), let S := th_setup cf f0 n in setup_ok S -> 16 <= n -> Z.even n = true ->
  (IZR N - 1 < th_timeend / th_dt n <= IZR N)%R ->
  N <= INT_MAX ->
  always (sdims S) (program S (LSRK 5) th_init (loop_steps (A:=RA) N (th_timeend / IZR N)%R)) (mzero RA) (fun m' =>
    (forall k c, 0 <= k < d_nlayers (sdims S) -> 0 <= c < d_ncells (sdims S) ->
      (Rabs (mr m' (TrCell St) [0%Z; c; k] - TH.tr (mr m' XCell [c]) (mr m' YCell [c]) th_timeend) <= 21 / (IZR n * IZR n))%R) /\
    exists e : R, (0 < e <= sqrt (IZR (d_nlayers (sdims S))) * (21 / 2) / (IZR n * IZR n))%R /\
      forall r, error_norm S (fun x y => TH.tr x y th_timeend) m' r <-> r = Some e).
Proof. exact C71_hyperdiffusion_test_error_proof. Qed.
Print Assumptions C71_hyperdiffusion_test_error.

(** The verdict of tracer_hyperdiffusion_convergence: for every even n >= 16 (the test uses 16) the rate computed from the errors on the n by n and the 2n by 2n mesh is within 0.05 of 2, for every order of the reductions and every value of the uninitialised Coriolis parameter, so in exact arithmetic the test never throws. *)
Theorem C71_hyperdiffusion_test_passes :
  forall (cf : config) (f0 f0' : R) (n N N' : Z), let S := th_setup cf f0 n in let S' := th_setup cf f0' (2 * n) in setup_ok S -> setup_ok S' -> 16 <= n -> Z.even n = true ->
  (IZR N - 1 < th_timeend / th_dt n <= IZR N)%R -> (IZR N' - 1 < th_timeend / th_dt (2 * n) <= IZR N')%R ->
  N <= INT_MAX -> N' <= INT_MAX ->
  forall m m', exec (sdims S) (program S (LSRK 5) th_init (loop_steps (A:=RA) N (th_timeend / IZR N)%R)) (mzero RA) (OK m) ->
  exec (sdims S') (program S' (LSRK 5) th_init (loop_steps (A:=RA) N' (th_timeend / IZR N')%R)) (mzero RA) (OK m') ->
  forall r r', error_norm S (fun x y => TH.tr x y th_timeend) m r -> error_norm S' (fun x y => TH.tr x y th_timeend) m' r' ->
  exists e e' : R, r = Some e /\ r' = Some e' /\ (0 < e)%R /\ (0 < e')%R /\ check_rate (log2 (e / e')) 2 (5 / 100).
Proof. exact C71_hyperdiffusion_test_passes_proof. Qed.
Print Assumptions C71_hyperdiffusion_test_passes.

(** Non-vacuity: the meshes of the test, with the step counts 105 and 1678, with and without SIMD. *)
Example C71_th_hyps f0 : setup_ok (th_setup (mkConfig false true false 8) f0 16) /\ setup_ok (th_setup (mkConfig false true false 8) f0 32) /\ setup_ok (th_setup (mkConfig true false false 1) f0 16) /\
  (IZR 105 - 1 < th_timeend / th_dt 16 <= IZR 105)%R /\ (IZR 1678 - 1 < th_timeend / th_dt (2 * 16) <= IZR 1678)%R.
Proof. split; [ok|]. split; [ok|]. split; [ok|]. unfold th_timeend, th_dt, TH.lx, TH.diff4. cbn [Z.mul Pos.mul pow]. repeat split; lra. Qed.

