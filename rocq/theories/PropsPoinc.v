(** Inertia-gravity waves and geostrophic adjustment (C86). *)
From Coq Require Import ZArith Reals List Bool Lia Lra.
From Verif Require Import Arith Arrays Prog Conc Launch Mesh AuxVars Tend Model Hex RSum Spec MeshProof MeshMem MeshR Ready StepVal Driver Cplx LinStep LinSpec PropsMesh PropsCons LinThms PropsLin PoincThms.
Import ListNotations.
Open Scope Z_scope.

(** C86: disturbances of the fluid at rest with rotation, of any wave the mesh can carry: thickness eta phi, velocity a times the slope of phi plus b times the slope along the edge that the weights reconstruct.  Every step multiplies the complex amplitude (f Mu b + g eta) + i om a by P(-i om dt), with P the stability polynomial of the stepper and om the frequency om^2 = f^2 Mu - g H Lam of the hexagonal grid, and keeps the potential vorticity f eta + H Lam b (when om is not 0 and om^2 is not negative these three numbers determine eta, a and b). *)
Theorem C86_inertia_gravity_waves :
  forall st : stepper, exists g : list R, stability_polynomial st g /\
  forall (S : setup RA), setup_ok S -> (0 < (dc (mesh_of_setup S) : R))%R -> hook S = None -> disable_h (par_of S) = false -> disable_vn (par_of S) = false ->
  (visc_del2 (par_of S) <= 0)%R -> (visc_del4 (par_of S) <= 0)%R -> 2 <= nx (mesh_of_setup S) -> Z.even (ny (mesh_of_setup S)) = true ->
  forall (H theta om : R) (p q : Z) (m m' : R -> mem RA) (eta a b : R) (steps : list (R * R)), H <> 0%R ->
  let d := (dc (mesh_of_setup S) : R) in let f := (f0 (par_of S) : R) in
  let k1 := (2 * PI * IZR p / period_x (mesh_of_setup S))%R in let k2 := (2 * PI * IZR q / period_y (mesh_of_setup S))%R in
  let Lam := (4 / (3 * (d * d)) * (cos (d * k1) + cos (d / 2 * k1 + d * (sqrt 3 / 2) * k2) + cos (- (d / 2) * k1 + d * (sqrt 3 / 2) * k2) - 3))%R in
  let Mu := ((15 + 12 * (cos (d * k1) + cos (d / 2 * k1 + d * (sqrt 3 / 2) * k2) + cos (- (d / 2) * k1 + d * (sqrt 3 / 2) * k2))
    + (cos (3 * d / 2 * k1 + d * (sqrt 3 / 2) * k2) + cos (d * sqrt 3 * k2) + cos (- (3 * d / 2) * k1 + d * (sqrt 3 / 2) * k2))) / 54)%R in
  let phi c := cos (k1 * mr (m 0%R) XCell [c] + k2 * mr (m 0%R) YCell [c] + theta) in
  let slope e := ((phi (mi (m 0%R) CellsOnEdge [e; 1%Z]) - phi (mi (m 0%R) CellsOnEdge [e; 0%Z])) / mr (m 0%R) DcEdge [e])%R in
  let along e := rsum (mi (m 0%R) NedgesOnEdge [e]) (fun j => mr (m 0%R) WeightsOnEdge [e; j] * slope (mi (m 0%R) EdgesOnEdge [e; j]))%R in
  let w eta a b pl := match pl with AtCell c k => (eta * phi c)%R | AtEdge e k => (a * slope e + b * along e)%R end in
  (om * om = f * f * Mu - grav (par_of S) * H * Lam)%R ->
  disturbed S (fun _ => H) m (w eta a b) -> (forall x, exec (sdims S) (stepper_run S st steps) (m x) (OK (m' x))) ->
  let z' := fold_left (fun z (s : R * R) => cmul (cpoly g (0, - (snd s * om))%R) z) steps (f * Mu * b + grav (par_of S) * eta, om * a)%R in
  exists eta' a' b', disturbed S (fun _ => H) m' (w eta' a' b') /\
    (f * Mu * b' + grav (par_of S) * eta', om * a')%R = z' /\ (f * eta' + H * Lam * b' = f * eta + H * Lam * b)%R.
Proof. exact C86_inertia_gravity_waves_proof. Qed.
Print Assumptions C86_inertia_gravity_waves.

(** Non-vacuity: rotation and gravity; families with any such disturbance exist and can be run (C77_family), and om exists for every wave (C86_frequencies). *)
Example C86_hyps : setup_ok (S77 1 0 0) /\ (0 < grav (par_of (S77 1 0 0)))%R /\ f0 (par_of (S77 1 0 0)) <> 0%R /\ 2 <= nx (mesh_of_setup (S77 1 0 0)) /\ Z.even (ny (mesh_of_setup (S77 1 0 0))) = true /\ hook (S77 1 0 0) = None.
Proof. split; [apply ok77|]. cbn. repeat split; try lra; try lia. Qed.

(** The frequencies of C86, for every spacing, wave number, rotation and wave speed: never above the exact ones f^2 + g H K^2, at most the factor 1 - 5/24 d^2 K^2 below them, and positive as soon as there is rotation (no wave the grid carries, not even the shortest, fails to oscillate). *)
Theorem C86_frequencies :
  forall (d k1 k2 f c2 : R), (0 < d)%R -> (0 <= c2)%R ->
  let Lam := (4 / (3 * (d * d)) * (cos (d * k1) + cos (d / 2 * k1 + d * (sqrt 3 / 2) * k2) + cos (- (d / 2) * k1 + d * (sqrt 3 / 2) * k2) - 3))%R in
  let Mu := ((15 + 12 * (cos (d * k1) + cos (d / 2 * k1 + d * (sqrt 3 / 2) * k2) + cos (- (d / 2) * k1 + d * (sqrt 3 / 2) * k2))
    + (cos (3 * d / 2 * k1 + d * (sqrt 3 / 2) * k2) + cos (d * sqrt 3 * k2) + cos (- (3 * d / 2) * k1 + d * (sqrt 3 / 2) * k2))) / 54)%R in
  let exact := (f * f + c2 * (k1 * k1 + k2 * k2))%R in let om2 := (f * f * Mu - c2 * Lam)%R in
  (0 <= Mu <= 1 /\ 0 <= - Lam <= 6 / (d * d) /\ om2 <= exact /\ exact * (1 - 5 / 24 * (d ^ 2 * (k1 * k1 + k2 * k2))) <= om2 /\
   (f <> 0 -> 0 < c2 -> 0 < om2))%R.
Proof. exact C86_frequencies_proof. Qed.
Print Assumptions C86_frequencies.

(** Non-vacuity: dc = 2, g H = 25. *)
Example C86_freq_hyps : (0 < 2 /\ 0 <= 25 /\ 0 < 25)%R. Proof. lra. Qed.

(** Geostrophic adjustment, by whole programs from rest with rotation: the part f^2 / Om^2 of a thickness disturbance cos(k.r + theta) stays for ever (in balance with the current that arises), the rest oscillates with the inertia-gravity frequency Om = sqrt(f^2 + g H K^2).  The derivative of the computed thickness after N steps has this exact value up to second order in the spacing and fourth in the time step, on every mesh and for every number of steps, if dt (sqrt(6 g H) / dc + |f|) <= 2 sqrt 2 (RK4) or 3.16 (five stage LSRK). *)
Theorem C86_geostrophic_adjustment :
  forall (st : stepper) (lim slack : R), (st = RK4 /\ lim = 2 * sqrt 2 /\ slack = 0 \/ st = LSRK 5 /\ lim = 316 / 100 /\ slack = 1 / 10 ^ 22)%R ->
  forall (S : setup RA), setup_ok S -> (0 < (dc (mesh_of_setup S) : R))%R -> hook S = None -> disable_h (par_of S) = false -> disable_vn (par_of S) = false ->
  (visc_del2 (par_of S) <= 0)%R -> (visc_del4 (par_of S) <= 0)%R -> 2 <= nx (mesh_of_setup S) -> Z.even (ny (mesh_of_setup S)) = true -> f0 (par_of S) <> 0%R -> (0 < grav (par_of S))%R ->
  forall (H theta dt : R) (N p q : Z) (tr : Z -> R -> R -> R) (m' : R -> mem RA), (0 < H)%R -> 0 <= N <= INT_MAX ->
  let d := (dc (mesh_of_setup S) : R) in let f := (f0 (par_of S) : R) in
  let k1 := (2 * PI * IZR p / period_x (mesh_of_setup S))%R in let k2 := (2 * PI * IZR q / period_y (mesh_of_setup S))%R in
  let c2 := (grav (par_of S) * H)%R in let K2 := (k1 * k1 + k2 * k2)%R in let Om := sqrt (f * f + c2 * K2) in let T := (IZR N * dt)%R in
  (0 <= dt /\ dt * (sqrt (6 * c2) / d + Rabs f) <= lim)%R ->
  let wave X Y := cos (k1 * X + k2 * Y + theta) in
  (forall x, exec (sdims S) (program S st (mkInitial (A:=RA) (fun X Y => H + x * wave X Y)%R (fun _ _ => 0%R) (fun _ _ => 0%R) tr) (loop_steps (A:=RA) N dt)) (mzero RA) (OK (m' x))) ->
  forall k c, 0 <= k < d_nlayers (sdims S) -> 0 <= c < d_ncells (sdims S) ->
  mr (m' 0%R) (HCell St) [c; k] = H /\
  exists D, derivable_pt_lim (fun x => mr (m' x) (HCell St) [c; k]) 0 D /\
    (Rabs (D - wave (mr (m' 0%R) XCell [c]) (mr (m' 0%R) YCell [c]) * ((f * f + c2 * K2 * cos (Om * T)) / (Om * Om)))
      <= 5 / 6 * (d ^ 2 * K2) + T * (5 / 24 * (d ^ 2 * K2) * Om + dt ^ 4 * Om ^ 5 / 100) + IZR N * slack)%R.
Proof. exact C86_geostrophic_adjustment_proof. Qed.
Print Assumptions C86_geostrophic_adjustment.

(** Non-vacuity: dc = 2, g = 10, H = 5/2, f = 1, dt = 1/4: dt (sqrt(150) / 2 + 1) = 1.8 < 2 sqrt 2 = 2.83; programs with these initial conditions run (C77). *)
Example C86_step : (1 / 4 * (sqrt (6 * (10 * (5 / 2))) / 2 + Rabs 1) <= 2 * sqrt 2)%R.
Proof.
  rewrite Rabs_R1. assert (sqrt (6 * (10 * (5 / 2))) <= 13)%R. { rewrite <- (sqrt_square 13) by lra. apply sqrt_le_1; lra. }
  assert (1 <= sqrt 2)%R. { rewrite <- sqrt_1 at 1. apply sqrt_le_1; lra. } lra.
Qed.
Example C86_runs : exists m', forall x, exec (sdims (S77 1 0 0)) (program (S77 1 0 0) RK4 (mkInitial (A:=RA) (fun X Y => 5 / 2 + x * cos (2 * PI * IZR 1 / period_x (mesh_of_setup (S77 1 0 0)) * X + 2 * PI * IZR 0 / period_y (mesh_of_setup (S77 1 0 0)) * Y + 0))%R (fun _ _ => 0%R) (fun _ _ => 0%R) (fun _ _ _ => 1%R)) (loop_steps (A:=RA) 100 (1 / 4)%R)) (mzero RA) (OK (m' x)).
Proof. exact (programs_ex (S77 1 0 0) (ok77 1 0 0) RK4 (fun x => mkInitial (A:=RA) (fun X Y => 5 / 2 + x * cos (2 * PI * IZR 1 / period_x (mesh_of_setup (S77 1 0 0)) * X + 2 * PI * IZR 0 / period_y (mesh_of_setup (S77 1 0 0)) * Y + 0))%R (fun _ _ => 0%R) (fun _ _ => 0%R) (fun _ _ _ => 1%R)) (loop_steps (A:=RA) 100 (1 / 4)%R)). Qed.

