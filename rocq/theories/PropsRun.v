(** Properties C15, C16, C18 - C21, C37, C46, C48, C50: memory safety, determinism and independence of the
    build, of other layers, of unused parameters and of the forcing outside the step. *)
From Coq Require Import ZArith Reals List Bool Lia Lra.
From Verif Require Import Arith Arrays Prog Conc Mesh Tend Model MeshProof Ready Relate RunThms.
Import ListNotations.
Open Scope Z_scope.

(** Setups used by the non-vacuity examples: 8 lanes, 4 x 6 cells, 3 layers (padded to 8), one tracer, all
    terms on. *)
Definition ex_P : params RA := mkParams (A:=RA) (IZR 1) (IZR 10) (IZR 0) (IZR 1) (IZR 1) (IZR 1) (IZR 1) 1 false false.
Definition ex_S (cf : config) (nl : Z) : setup RA := mkSetup cf (mkHex (A:=RA) 4 6 (IZR 1) nl) ex_P None.
Definition cf_scalar : config := mkConfig false false false 8.
Definition cf_split : config := mkConfig false false true 8.
Definition cf_simd : config := mkConfig false true false 8.
Definition cf_nosimd : config := mkConfig true false false 8.
Ltac ok := repeat split; unfold INT_MAX, zceil, vector_length; cbn; try lia; try discriminate.
Example ex_ok : setup_ok (ex_S cf_scalar 3) /\ setup_ok (ex_S cf_split 3) /\ setup_ok (ex_S cf_simd 3) /\ setup_ok (ex_S cf_nosimd 3).
Proof. ok. Qed.
(** Memories left by the constructors exist, with any contents of the other views. *)
Example ex_ready (f : rarr -> list Z -> R) : exists m, ready (ex_S cf_scalar 3) m /\
  forall a ix, const_loc (LR a ix) = false -> mr m a ix = f a ix.
Proof. exact (ready_any (ex_S cf_scalar 3) (proj1 ex_ok) f). Qed.

(** C15.  [nlayers h] is the requested number of layers, [d_nlayers] the number every view has and every kernel loops over; the last part says that the mesh stores it. *)
Theorem C15_layer_padding :
  forall (A : Arith) (cf : config) (h : hexargs A) (ntr : Z), mesh_ok cf h ->
  let D := dims_of cf h ntr in let VL := vector_length cf in
  nlayers h <= d_nlayers D < nlayers h + VL /\
  (exists q, d_nlayers D = q * VL) /\
  (forall q, nlayers h <= q * VL -> d_nlayers D <= q * VL) /\
  d_nlayers_vec D * VL = d_nlayers D /\
  (forall k, 0 <= k < d_nlayers D -> exists kchunk kvec,
     (0 <= kchunk < d_nlayers_vec D /\ 0 <= kvec < VL /\ k = kchunk * VL + kvec) /\
     forall kchunk' kvec', 0 <= kvec' < VL -> k = kchunk' * VL + kvec' -> kchunk' = kchunk /\ kvec' = kvec) /\
  (forall kchunk kvec, 0 <= kchunk < d_nlayers_vec D -> 0 <= kvec < VL -> 0 <= kchunk * VL + kvec < d_nlayers D) /\
  always (dims_of cf h 0) (mesh_ctor cf h) (mzero A) (fun m =>
    forall c, 0 <= c < d_ncells D -> mi m MaxLevelCell [c] = d_nlayers D).
Proof. exact C15_layer_padding_proof. Qed.
Print Assumptions C15_layer_padding.

Example C15_ex : d_nlayers (dims_of cf_scalar (mkHex (A:=RA) 4 6 (IZR 1) 3) 0) = 8. Proof. reflexivity. Qed.

(** C16, for every arithmetic (hence binary64), every build, mesh, parameter set, add mode and pair of distinct states; and the same for any number of time steps.  [ready S m]: the constructors of the mesh and of the model have run and the state and work arrays of [m] hold anything. *)
Theorem C16_tendency_safe_and_deterministic :
  forall (A : Arith) (S : setup A), setup_ok S ->
  (forall m0, exec (sdims S) (mesh_ctor (cfg_of S) (mesh_of_setup S) ++ model_ctor S) (mzero A) (OK m0) -> ready S m0) /\
  always (sdims S) (mesh_ctor (cfg_of S) (mesh_of_setup S) ++ model_ctor S) (mzero A) (ready S) /\
  forall m, ready S m ->
  (forall t s time md, s <> t ->
     always (sdims S) (compute_tendency S t s time md) m (ready S) /\
     deterministic (sdims S) (compute_tendency S t s time md) m) /\
  (forall steps, always (sdims S) (rk4_run S steps) m (ready S) /\ deterministic (sdims S) (rk4_run S steps) m) /\
  (always (sdims S) (lsrk_ctor S) m (ready S) /\ deterministic (sdims S) (lsrk_ctor S) m) /\
  (forall n steps, always (sdims S) (lsrk_run S n steps) m (ready S) /\ deterministic (sdims S) (lsrk_run S n steps) m).
Proof. exact C16_tendency_safe_and_deterministic_proof. Qed.
Print Assumptions C16_tendency_safe_and_deterministic.

(** C18.  Two scalar builds with any vector lengths and launch structures (and any layer counts) leave bit for bit the same values in each common layer. *)
Theorem C18_vector_length_irrelevant :
  forall (A : Arith) (cf1 cf2 : config) (h1 h2 : hexargs A) (P : params A) (hk : option (forcing A)) (k : Z),
  let S1 := mkSetup cf1 h1 P hk in let S2 := mkSetup cf2 h2 P hk in
  setup_ok S1 -> setup_ok S2 -> same_mesh h1 h2 ->
  ksimd cf1 = false -> ksimd cf2 = false ->
  0 <= k < d_nlayers (sdims S1) -> 0 <= k < d_nlayers (sdims S2) ->
  same_results S1 S2 (eq k).
Proof. exact C18_vector_length_irrelevant_proof. Qed.
Print Assumptions C18_vector_length_irrelevant.

Example C18_ex (k : Z) : 0 <= k < 3 -> same_results (ex_S cf_scalar 3) (ex_S cf_nosimd 3) (eq k).
Proof. intros Hk. apply C18_vector_length_irrelevant; try reflexivity; ok. Qed.

(** C20.  OMEGA_NO_INNER_IF makes no difference, bit for bit, in scalar and in explicit SIMD builds. *)
Theorem C20_fused_equals_split :
  forall (A : Arith) (b1 b2 : bool) (ns ks : bool) (ln : Z) (h : hexargs A) (P : params A) (hk : option (forcing A)),
  let S1 := mkSetup (mkConfig ns ks b1 ln) h P hk in let S2 := mkSetup (mkConfig ns ks b2 ln) h P hk in
  setup_ok S1 ->
  setup_ok S2 /\ same_results S1 S2 (fun k => 0 <= k < d_nlayers (sdims S1)).
Proof. exact C20_fused_equals_split_proof. Qed.
Print Assumptions C20_fused_equals_split.

Example C20_ex : same_results (ex_S cf_scalar 3) (ex_S cf_split 3) (fun k => 0 <= k < 8).
Proof. exact (proj2 (C20_fused_equals_split RA false true false false 8 (mkHex (A:=RA) 4 6 (IZR 1) 3) ex_P None (proj1 ex_ok))). Qed.

(** C21.  Layer [k] of the results depends on layer [k] of the inputs only, bit for bit: whatever the other layers hold (NaN, padding), in every build except for hyperviscosity with explicit SIMD and more than one lane. *)
Theorem C21_layers_independent :
  forall (A : Arith) (S : setup A) (k : Z),
  setup_ok S -> 0 <= k < d_nlayers (sdims S) ->
  ksimd (cfg_of S) = false \/ vector_length (cfg_of S) = 1 \/ disable_vn (par_of S) = true \/
    flt (fofZ 0) (visc_del4 (par_of S)) = false ->
  same_results S S (eq k).
Proof. exact C21_layers_independent_proof. Qed.
Print Assumptions C21_layers_independent.

(** A state with anything in the padding layers gets the same tendencies in layer 0. *)
Example C21_ex : same_results (ex_S cf_scalar 3) (ex_S cf_scalar 3) (eq 0).
Proof. apply C21_layers_independent; [ok|ok|now left]. Qed.

(** C37 and the last part of C50.  Two parameter sets that agree in the coefficients that are positive, and in gravity, Coriolis parameter, number of tracers and switches, give bit for bit the same results: a coefficient that is not positive (negative, zero or NaN) behaves like any other such value, and the drag coefficient is never used. *)
Theorem C37_coefficients_not_positive_are_off :
  forall (A : Arith) (cf : config) (h : hexargs A) (P1 P2 : params A) (hk : option (forcing A)),
  let S1 := mkSetup cf h P1 hk in let S2 := mkSetup cf h P2 hk in
  let off (x : F A) := flt (fofZ 0) x = false in
  let same (x y : F A) := x = y \/ (off x /\ off y) in
  setup_ok S1 ->
  f0 P1 = f0 P2 -> grav P1 = grav P2 -> ntracers P1 = ntracers P2 ->
  disable_h P1 = disable_h P2 -> disable_vn P1 = disable_vn P2 ->
  same (visc_del2 P1) (visc_del2 P2) -> same (visc_del4 P1) (visc_del4 P2) ->
  same (eddy_diff2 P1) (eddy_diff2 P2) -> same (eddy_diff4 P1) (eddy_diff4 P2) ->
  setup_ok S2 /\ same_results S1 S2 (fun k => 0 <= k < d_nlayers (sdims S1)).
Proof. exact C37_coefficients_not_positive_are_off_proof. Qed.
Print Assumptions C37_coefficients_not_positive_are_off.

(** Negative viscosities are the same as none; the drag coefficient differs as well. *)
Example C37_ex : let P1 := mkParams (A:=RA) (IZR 1) (IZR 10) (IZR 0) (IZR 0) (IZR 0) (IZR 1) (IZR 0) 1 false false in
  let P2 := mkParams (A:=RA) (IZR 1) (IZR 10) (IZR 7) (IZR (-3)) (IZR (-1)) (IZR 1) (IZR (-2)) 1 false false in
  let h := mkHex (A:=RA) 4 6 (IZR 1) 3 in
  same_results (mkSetup cf_scalar h P1 None) (mkSetup cf_scalar h P2 None) (fun k => 0 <= k < 8).
Proof.
  cbv zeta. apply C37_coefficients_not_positive_are_off; try reflexivity; try (now left); try ok;
    right; cbn; repeat (destruct (Rlt_dec _ _); [lra|]); auto.
Qed.

(** C50.  With the velocity tendency disabled, two models that differ in [f0] (and in the drag coefficient, gravity and the viscosities) leave bit for bit the same results. *)
Theorem C50_f0_unused_without_velocity_tendency :
  forall (A : Arith) (cf : config) (h : hexargs A) (P1 P2 : params A) (hk : option (forcing A)),
  let S1 := mkSetup cf h P1 hk in let S2 := mkSetup cf h P2 hk in
  setup_ok S1 ->
  disable_vn P1 = true -> disable_vn P2 = true ->
  ntracers P1 = ntracers P2 -> disable_h P1 = disable_h P2 ->
  eddy_diff2 P1 = eddy_diff2 P2 -> eddy_diff4 P1 = eddy_diff4 P2 ->
  setup_ok S2 /\ same_results S1 S2 (fun k => 0 <= k < d_nlayers (sdims S1)).
Proof. exact C50_f0_unused_without_velocity_tendency_proof. Qed.
Print Assumptions C50_f0_unused_without_velocity_tendency.

Example C50_ex (f : R) : let P1 := mkParams (A:=RA) f (IZR 10) (IZR 0) (IZR 0) (IZR 0) (IZR 1) (IZR 0) 1 false true in
  let P2 := mkParams (A:=RA) (IZR 5) (IZR 10) (IZR 0) (IZR 0) (IZR 0) (IZR 1) (IZR 0) 1 false true in
  let h := mkHex (A:=RA) 4 6 (IZR 1) 3 in
  same_results (mkSetup cf_scalar h P1 None) (mkSetup cf_scalar h P2 None) (fun k => 0 <= k < 8).
Proof. cbv zeta. apply C50_f0_unused_without_velocity_tendency; try reflexivity; ok. Qed.

(** C46, over the reals.  Two models whose forcings agree at the times of the interval [t, t + dt] of every step of a run, and may differ at all other times, leave the same results: no other time is ever passed to the hook. *)
Theorem C46_forcing_used_inside_the_step_only :
  forall (cf : config) (h : hexargs RA) (P : params RA) (fc1 fc2 : forcing RA) (steps : list (R * R)),
  let S1 := mkSetup cf h P (Some fc1) in let S2 := mkSetup cf h P (Some fc2) in
  let K := fun k => 0 <= k < d_nlayers (sdims S1) in
  setup_ok S1 ->
  (forall t dt, In (t, dt) steps -> 0 <= dt)%R ->
  (forall t dt x y tau, In (t, dt) steps -> t <= tau <= t + dt ->
     force_h fc1 x y tau = force_h fc2 x y tau /\ force_vx fc1 x y tau = force_vx fc2 x y tau /\
     force_vy fc1 x y tau = force_vy fc2 x y tau)%R ->
  forall m1 m2 m1' m2', ready S1 m1 -> ready S2 m2 -> state_eq S1 K St m1 m2 -> state_eq S1 K Tend m1 m2 ->
  (exec (sdims S1) (rk4_run S1 steps) m1 (OK m1') -> exec (sdims S2) (rk4_run S2 steps) m2 (OK m2') ->
     state_eq S1 K St m1' m2') /\
  (forall n, exec (sdims S1) (lsrk_run S1 n steps) m1 (OK m1') -> exec (sdims S2) (lsrk_run S2 n steps) m2 (OK m2') ->
     state_eq S1 K St m1' m2').
Proof. exact C46_forcing_used_inside_the_step_only_proof. Qed.
Print Assumptions C46_forcing_used_inside_the_step_only.

(** Forcings that agree up to time 2 only. *)
Example C46_ex : let late := mkForcing RA (fun x y t => if Rle_dec t 2 then 1%R else 5%R) (fun _ _ _ => 0%R) (fun _ _ _ => 0%R) in
  let const := mkForcing RA (fun x y t => 1%R) (fun _ _ _ => 0%R) (fun _ _ _ => 0%R) in
  forall t dt x y tau, In (t, dt) [(0%R, 1%R); (1%R, 1%R)] -> (t <= tau <= t + dt)%R ->
     force_h const x y tau = force_h late x y tau.
Proof.
  cbn. intros t dt x y tau H Ht. destruct (Rle_dec tau 2); [reflexivity|].
  destruct H as [E|[E|[]]]; injection E as <- <-; lra.
Qed.

(** C48.  Nothing but the state passed in (and the tendency passed to compute_tendency) and work arrays is written: connectivity, geometry and Coriolis arrays keep their values, and compute_tendency leaves every prognostic array except those of its output alone. *)
Theorem C48_mesh_and_parameters_not_modified :
  forall (A : Arith) (S : setup A) (m : mem A), setup_ok S -> ready S m ->
  let fixed_array (a : rarr) := match a with
    | AreaCell | XCell | YCell | EdgeSignOnCell | DcEdge | DvEdge | AngleEdge | XEdge | YEdge | WeightsOnEdge
    | MeshScalingDel2 | MeshScalingDel4 | EdgeMask | XVertex | YVertex | AreaTriangle | KiteareasOnVertex
    | EdgeSignOnVertex | FVertex | FEdge => True
    | _ => False
    end in
  let fixed (m' : mem A) := (forall a ix, mi m' a ix = mi m a ix) /\
                            (forall a ix, fixed_array a -> mr m' a ix = mr m a ix) in
  (forall t s time md, s <> t -> always (sdims S) (compute_tendency S t s time md) m (fun m' =>
     fixed m' /\ forall r ix, r <> t -> mr m' (HCell r) ix = mr m (HCell r) ix /\
       mr m' (VnEdge r) ix = mr m (VnEdge r) ix /\ mr m' (TrCell r) ix = mr m (TrCell r) ix)) /\
  (forall steps, always (sdims S) (rk4_run S steps) m fixed) /\
  (forall n steps, always (sdims S) (lsrk_run S n steps) m fixed).
Proof. exact C48_mesh_and_parameters_not_modified_proof. Qed.
Print Assumptions C48_mesh_and_parameters_not_modified.

