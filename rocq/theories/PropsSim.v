(** Units, layers and builds: what a run may not depend on. *)
From Coq Require Import ZArith Reals List Bool Lia Lra.
From Verif Require Import Arith Arrays Prog Conc Launch Mesh AuxVars Tend Model RSum Spec MeshProof Ready Driver PropsCons SimThms.
Import ListNotations.
Open Scope Z_scope.

(** Two programs that solve the same problem in different units (change_of_units: lengths times L, times times T, thicknesses times H, tracer l times tr l; gravity, rotation, viscosities, diffusivities, forcing, initial data and time steps converted accordingly) give the same answer in these units: in every cell, edge and tracer, for both steppers, every list of steps, every pair of builds and of numbers of layers, every schedule.  The converted answer is the same in all layers.  T may be negative: without viscosity and diffusion, running with all velocities and the rotation reversed is running backwards in time. *)
Theorem C87_no_preferred_units :
  forall (S1 S2 : setup RA) (st : stepper) (L T H : R) (tr : Z -> R) (I1 I2 : initial RA) (steps : list (R * R)) (m1 m2 : mem RA),
  setup_ok S1 -> setup_ok S2 -> (0 < (dc (mesh_of_setup S1) : R))%R -> (0 < L)%R -> T <> 0%R -> H <> 0%R -> change_of_units S1 S2 L T H ->
  (disable_h (par_of S1) = true \/ disable_vn (par_of S1) = true -> hook S1 = None) ->
  (forall x y : R, ini_h I2 (L * x) (L * y) = H * ini_h I1 x y /\ ini_vx I2 (L * x) (L * y) = L / T * ini_vx I1 x y /\ ini_vy I2 (L * x) (L * y) = L / T * ini_vy I1 x y /\
    forall l, ini_tr I2 l (L * x) (L * y) = tr l * ini_tr I1 l x y)%R ->
  exec (sdims S1) (program S1 st I1 steps) (mzero RA) (OK m1) ->
  exec (sdims S2) (program S2 st I2 (map (fun s => (T * fst s, T * snd s)%R) steps)) (mzero RA) (OK m2) ->
  forall k1 k2, 0 <= k1 < d_nlayers (sdims S1) -> 0 <= k2 < d_nlayers (sdims S2) ->
  (forall c, 0 <= c < d_ncells (sdims S1) -> mr m2 (HCell St) [c; k2] = (H * mr m1 (HCell St) [c; k1])%R) /\
  (forall e, 0 <= e < d_nedges (sdims S1) -> mr m2 (VnEdge St) [e; k2] = (L / T * mr m1 (VnEdge St) [e; k1])%R) /\
  (forall l c, 0 <= l < ntracers (par_of S1) -> 0 <= c < d_ncells (sdims S1) -> mr m2 (TrCell St) [l; c; k2] = (tr l * mr m1 (TrCell St) [l; c; k1])%R).
Proof. exact C87_no_preferred_units_proof. Qed.
Print Assumptions C87_no_preferred_units.

(** Non-vacuity: kilometres, hours and centimetres instead of metres, seconds and metres on another build with another number of layers, with rotation, gravity, viscosity, diffusion and forcing; and time reversal. *)
Definition S87 : setup RA := mkSetup (mkConfig false true false 8) (mkHex (A:=RA) 4 6 (IZR 2) 3)
  (mkParams (A:=RA) (IZR 1) (IZR 10) (IZR 0) (IZR 3) (IZR 4) (IZR 5) (IZR 6) 2 false false) (Some (@mkForcing RA (fun x y t => x + t)%R (fun x y t => y)%R (fun x y t => x * t)%R)).
Definition S87' : setup RA := mkSetup (mkConfig true false true 4) (mkHex (A:=RA) 4 6 (2 / 1000)%R 8)
  (mkParams (A:=RA) 3600%R (10 / 1000 / 1000 / 100 * 3600 * 3600)%R (IZR 0) (3 / 1000 ^ 2 * 3600)%R (4 / 1000 ^ 4 * 3600)%R (5 / 1000 ^ 2 * 3600)%R (6 / 1000 ^ 4 * 3600)%R 2 false false)
  (Some (@mkForcing RA (fun x y t => 100 * 3600 * (1000 * x + 3600 * t))%R (fun x y t => 3600 ^ 2 / 1000 * (1000 * y))%R (fun x y t => 3600 ^ 2 / 1000 * (1000 * x * (3600 * t)))%R)).
Example C87_hyps : setup_ok S87 /\ setup_ok S87' /\ change_of_units S87 S87' (1 / 1000) (1 / 3600) 100.
Proof.
  split; [ok|]. split; [ok|]. unfold change_of_units, S87, S87'. cbn [par_of mesh_of_setup nx ny dc ntracers disable_h disable_vn f0 grav visc_del2 visc_del4 eddy_diff2 eddy_diff4 hook force_h force_vx force_vy].
  repeat split; try lra; try (rewrite !Rmax_right by lra; lra); intros; field.
Qed.
Example C87_time_reversal f g : change_of_units
  (mkSetup (mkConfig false true false 8) (mkHex (A:=RA) 4 6 (IZR 2) 3) (mkParams (A:=RA) f g (IZR 0) (IZR 0) (IZR 0) (IZR 0) (IZR 0) 2 false false) None)
  (mkSetup (mkConfig false true false 8) (mkHex (A:=RA) 4 6 (IZR 2) 3) (mkParams (A:=RA) (- f)%R g (IZR 0) (IZR 0) (IZR 0) (IZR 0) (IZR 0) 2 false false) None) 1 (-1) 1.
Proof. unfold change_of_units. cbn. rewrite Rmax_left by lra. repeat split; try ring. Qed.

(** From arbitrary states, in two builds (vector length, SIMD, number of layers) of the same problem: if every layer k of the second state equals layer kl k of the first, this holds after every run, for both steppers and every list of steps.  The result in a layer thus depends on no other layer, nor on its position, nor on how many layers there are, nor on the build.  With hyperviscosity in a build whose kernels process a whole vector of layers at a time the map must respect the first layer of the vector, because of the defect recorded with C21: that build takes the vorticity of the Laplacian from the first layer of the vector. *)
Theorem C87_layers_and_builds :
  forall (S1 S2 : setup RA) (st : stepper) (kl : Z -> Z) (steps : list (R * R)) (m1 m2 m1' m2' : mem RA),
  setup_ok S1 -> setup_ok S2 -> (0 < (dc (mesh_of_setup S1) : R))%R -> change_of_units S1 S2 1 1 1 ->
  (disable_h (par_of S1) = true \/ disable_vn (par_of S1) = true -> hook S1 = None) ->
  (forall k, 0 <= k < d_nlayers (sdims S2) -> 0 <= kl k < d_nlayers (sdims S1)) ->
  let lead S k := if ksimd (cfg_of S) then k / lanes (cfg_of S) * lanes (cfg_of S) else k in
  (disable_vn (par_of S1) = true \/ (visc_del4 (par_of S1) <= 0)%R \/ forall k, 0 <= k < d_nlayers (sdims S2) -> kl (lead S2 k) = lead S1 (kl k)) ->
  fresh S1 st m1 -> fresh S2 st m2 ->
  let same (n1 n2 : mem RA) := forall k, 0 <= k < d_nlayers (sdims S2) ->
    (forall c, 0 <= c < d_ncells (sdims S1) -> mr n2 (HCell St) [c; k] = mr n1 (HCell St) [c; kl k]) /\
    (forall e, 0 <= e < d_nedges (sdims S1) -> mr n2 (VnEdge St) [e; k] = mr n1 (VnEdge St) [e; kl k]) /\
    (forall l c, 0 <= l < ntracers (par_of S1) -> 0 <= c < d_ncells (sdims S1) -> mr n2 (TrCell St) [l; c; k] = mr n1 (TrCell St) [l; c; kl k]) in
  same m1 m2 -> exec (sdims S1) (stepper_run S1 st steps) m1 (OK m1') -> exec (sdims S2) (stepper_run S2 st steps) m2 (OK m2') -> same m1' m2'  .
Proof. exact C87_layers_and_builds_proof. Qed.
Print Assumptions C87_layers_and_builds.

(** Non-vacuity: the last layer of three in a scalar build and all eight layers of a vectorised build, with hyperviscosity in both. *)
Definition S87l (cf : config) (nl : Z) : setup RA := mkSetup cf (mkHex (A:=RA) 4 6 (IZR 2) nl) (mkParams (A:=RA) (IZR 1) (IZR 10) (IZR 0) (IZR 3) (IZR 4) (IZR 5) (IZR 6) 2 false false) None.
Example C87_layers_hyps : let S1 := S87l (mkConfig true false true 4) 3 in let S2 := S87l (mkConfig false true false 8) 8 in
  setup_ok S1 /\ setup_ok S2 /\ change_of_units S1 S2 1 1 1 /\
  (forall k, 0 <= k < d_nlayers (sdims S2) -> (2 = if ksimd (cfg_of S1) then 2 / lanes (cfg_of S1) * lanes (cfg_of S1) else 2)).
Proof. cbv zeta. split; [ok|]. split; [ok|]. split; [|intros; reflexivity]. unfold change_of_units. cbn. repeat split; ring. Qed.

