(** What the viscous (C62) and hyperviscous (C65) terms of the velocity tendency approximate, and what they do to the
    energy of small disturbances (C78). *)
From Coq Require Import ZArith Reals List Bool Lia Lra.
From Verif Require Import Arith Arrays Prog Conc Launch Mesh AuxVars Tend Model Hex RSum Spec MeshProof MeshMem MeshR Ready StepVal SteadyThms Deriv Stencil Taylor Sample Waves HyperThms ViscThms PropsMesh PropsCons PropsConsist PropsHyper LinStep LinSpec PropsLin.
Import ListNotations.
Open Scope Z_scope.

(** The setup of C77 with scalar kernels. *)
Definition set_simd (S : setup RA) : setup RA := mkSetup (mkConfig false false false 8) (mesh_of_setup S) (par_of S) (hook S).
(** The contribution of viscosity to the velocity tendency that a run of [compute_tendency] leaves in memory (the difference between the runs with and without viscosity), when the velocity of the layer is sampled from a smooth vector field: within [nu C dc^2] of [nu] times the normal component of the Laplacian minus the error of C62. *)
Theorem C62_viscous_tendency_limit :
  forall U V Ux Uy Vx Vy Uxx Uyy Vxx Vxy Vyy : fn2, smooth 5 U -> smooth 5 V ->
  is_dx U Ux -> is_dy U Uy -> is_dx V Vx -> is_dy V Vy ->
  is_dx Ux Uxx -> is_dy Uy Uyy -> is_dx Vx Vxx -> is_dy Vx Vxy -> is_dy Vy Vyy ->
  exists C : R, forall (S : setup RA), setup_ok S -> (0 < (dc (mesh_of_setup S) : R))%R -> 2 <= nx (mesh_of_setup S) -> Z.even (ny (mesh_of_setup S)) = true ->
  periodic (period_x (mesh_of_setup S)) (period_y (mesh_of_setup S)) U -> periodic (period_x (mesh_of_setup S)) (period_y (mesh_of_setup S)) V ->
  disable_vn (par_of S) = false -> (0 < (visc_del2 (par_of S) : R))%R ->
  forall t s time md (m m1 m0 : mem RA) k, s <> t -> ready S m -> 0 <= k < d_nlayers (sdims S) ->
  (forall e, 0 <= e < d_nedges (sdims S) -> mr m (VnEdge s) [e; k] = (cos (mr m AngleEdge [e]) * U (mr m XEdge [e]) (mr m YEdge [e]) + sin (mr m AngleEdge [e]) * V (mr m XEdge [e]) (mr m YEdge [e]))%R) ->
  exec (sdims S) (compute_tendency S t s time md) m (OK m1) -> exec (sdims S) (compute_tendency (set_visc_del2 S (IZR 0)) t s time md) m (OK m0) ->
  forall e, 0 <= e < d_nedges (sdims S) ->
  let nu := (visc_del2 (par_of S) : R) in let x := (mr m XEdge [e] : R) in let y := (mr m YEdge [e] : R) in let a := (mr m AngleEdge [e] : R) in
  (Rabs (mr m1 (VnEdge t) [e; k] - mr m0 (VnEdge t) [e; k] - nu * (cos a * (Uxx x y + Uyy x y) + sin a * (Vxx x y + Vyy x y)
     - (if (e mod 3 =? 1)%Z then -1 else 1) / 4 * (Uyy x y - Uxx x y + 2 * Vxy x y))) <= nu * C * dc (mesh_of_setup S) ^ 2)%R.
Proof. exact C62_viscous_tendency_limit_proof. Qed.
Print Assumptions C62_viscous_tendency_limit.

(** Non-vacuity: the wave [(cos k x, 0)], on the mesh of [ok65] with [visc_del2] positive. *)
Example C62_tendency_applies : (0 < (visc_del2 (par_of S65) : R))%R /\ disable_vn (par_of S65) = false /\ setup_ok S65 /\
  exists m : mem RA, ready S65 m /\ let k := (2 * PI / period_x (mesh_of_setup S65))%R in
  (forall e j, 0 <= e < d_nedges (sdims S65) -> 0 <= j < d_nlayers (sdims S65) -> mr m (VnEdge St) [e; j] = (cos (mr m AngleEdge [e]) * cos (k * mr m XEdge [e]))%R).
Proof.
  split; [cbn; lra|]. split; [reflexivity|]. split; [exact (proj1 ok65)|]. destruct C65_applies as (m & Hr & _ & HU & _). exists m. split; [exact Hr|exact HU].
Qed.

(** The contribution of hyperviscosity to the velocity tendency left in memory, for a velocity that all layers sample from one smooth vector field: multiplied by [dc^2] it is within [nu C dc] of [- 6 nu] times the quantity the Laplacian gets wrong. So where that quantity is not 0 it grows like [1 / dc^2]. *)
Theorem C65_hyperviscous_tendency_limit :
  forall U V Ux Uy Vx Vy Uxx Uyy Vxy : fn2, smooth 7 U -> smooth 7 V ->
  is_dx U Ux -> is_dy U Uy -> is_dx V Vx -> is_dy V Vy -> is_dx Ux Uxx -> is_dy Uy Uyy -> is_dy Vx Vxy ->
  exists C : R, forall (S : setup RA), setup_ok S -> (0 < (dc (mesh_of_setup S) : R) <= 1)%R -> 2 <= nx (mesh_of_setup S) -> Z.even (ny (mesh_of_setup S)) = true ->
  periodic (period_x (mesh_of_setup S)) (period_y (mesh_of_setup S)) U -> periodic (period_x (mesh_of_setup S)) (period_y (mesh_of_setup S)) V ->
  disable_vn (par_of S) = false -> (0 < (visc_del4 (par_of S) : R))%R ->
  forall t s time md (m m1 m0 : mem RA), s <> t -> ready S m ->
  (forall e k, 0 <= e < d_nedges (sdims S) -> 0 <= k < d_nlayers (sdims S) -> mr m (VnEdge s) [e; k] = (cos (mr m AngleEdge [e]) * U (mr m XEdge [e]) (mr m YEdge [e]) + sin (mr m AngleEdge [e]) * V (mr m XEdge [e]) (mr m YEdge [e]))%R) ->
  exec (sdims S) (compute_tendency S t s time md) m (OK m1) -> exec (sdims S) (compute_tendency (set_visc_del4 S (IZR 0)) t s time md) m (OK m0) ->
  forall e k, 0 <= e < d_nedges (sdims S) -> 0 <= k < d_nlayers (sdims S) ->
  let nu := (visc_del4 (par_of S) : R) in let d := (dc (mesh_of_setup S) : R) in let x := (mr m XEdge [e] : R) in let y := (mr m YEdge [e] : R) in
  (Rabs (d ^ 2 * (mr m1 (VnEdge t) [e; k] - mr m0 (VnEdge t) [e; k]) - - nu * (6 * (if (e mod 3 =? 1)%Z then -1 else 1) * (Uyy x y - Uxx x y + 2 * Vxy x y))) <= nu * C * d)%R.
Proof. exact C65_hyperviscous_tendency_limit_proof. Qed.
Print Assumptions C65_hyperviscous_tendency_limit.

(** Non-vacuity: [C65_applies]. *)

(** The same for the claim itself: for the wave [(cos (k x), 0)] with one period across the domain the contribution of viscosity to the velocity tendency on the edges facing the x direction is [lam] times the exact one, [- nu k^2 cos (k x)], with [lam] at least 6/5 at every resolution. *)
Theorem C62_viscous_tendency_refuted :
  forall (S : setup RA), setup_ok S -> forall (h := mesh_of_setup S), (0 < (dc h : R))%R -> 20 <= nx h -> Z.even (ny h) = true ->
  disable_vn (par_of S) = false -> (0 < (visc_del2 (par_of S) : R))%R ->
  let k := (2 * PI / period_x h)%R in
  exists lam : R, (6 / 5 <= lam)%R /\
  forall t s time md (m : mem RA), s <> t -> ready S m ->
  (forall e j, 0 <= e < d_nedges (sdims S) -> 0 <= j < d_nlayers (sdims S) -> mr m (VnEdge s) [e; j] = (cos (mr m AngleEdge [e]) * cos (k * mr m XEdge [e]))%R) ->
  forall m1 m0 : mem RA,
  exec (sdims S) (compute_tendency S t s time md) m (OK m1) ->
  exec (sdims S) (compute_tendency (set_visc_del2 S (IZR 0)) t s time md) m (OK m0) ->
  forall e j, 0 <= e < d_nedges (sdims S) -> 0 <= j < d_nlayers (sdims S) -> mr m AngleEdge [e] = 0%R ->
    (mr m1 (VnEdge t) [e; j] - mr m0 (VnEdge t) [e; j] = lam * (- visc_del2 (par_of S) * k ^ 2 * cos (k * mr m XEdge [e])))%R.
Proof. exact C62_viscous_tendency_refuted_proof. Qed.
Print Assumptions C62_viscous_tendency_refuted.

(** Non-vacuity: [C62_tendency_applies]; edge 0 faces the x direction ([C65_applies]). *)

(** Viscosity only takes energy from small disturbances: for any family of states with the fluid at rest at [x = 0], the product of the disturbance with its tendency in the energy (the rate of change of the energy of the disturbance) is at most 0, and 0 without viscosity. With hyperviscosity this is shown for the builds in which the layers do not mix (C34). *)
Theorem C78_energy_tendency :
  forall (S : setup RA), setup_ok S -> (0 < (dc (mesh_of_setup S) : R))%R -> hook S = None -> disable_h (par_of S) = false -> disable_vn (par_of S) = false ->
  2 <= nx (mesh_of_setup S) -> Z.even (ny (mesh_of_setup S)) = true -> ksimd (cfg_of S) = false \/ vector_length (cfg_of S) = 1 \/ ((visc_del4 (par_of S) : R) <= 0)%R ->
  forall (H : Z -> R) (m m' : R -> mem RA) (w w' : place -> R) (time : R), (forall k, 0 <= k < d_nlayers (sdims S) -> (0 < H k)%R) -> disturbed S H m w ->
  (forall x, exec (sdims S) (compute_tendency S Tend St time Replace) (m x) (OK (m' x))) ->
  (forall p, valid_place S p -> derivable_pt_lim (fun x => value_at Tend (m' x) p) 0 (w' p)) ->
  let rate := rsum (d_nlayers (sdims S)) (fun k =>
    grav (par_of S) * rsum (d_ncells (sdims S)) (fun c => mr (m 0) AreaCell [c] * (w (AtCell c k) * w' (AtCell c k)))
    + H k * rsum (d_nedges (sdims S)) (fun e => mr (m 0) DcEdge [e] * mr (m 0) DvEdge [e] * (w (AtEdge e k) * w' (AtEdge e k))))%R in
  (rate <= 0)%R /\ (((visc_del2 (par_of S) : R) <= 0)%R -> ((visc_del4 (par_of S) : R) <= 0)%R -> rate = 0%R).
Proof. exact C78_energy_tendency_proof. Qed.
Print Assumptions C78_energy_tendency.

(** Non-vacuity: [C77_tend_runs] has a family with both viscosities; its tendencies have derivatives by C77. *)
Example C78_energy_hyps : setup_ok (set_simd (S77 1 1 1)) /\ (ksimd (cfg_of (set_simd (S77 1 1 1))) = false) /\ (0 < (visc_del2 (par_of (set_simd (S77 1 1 1))) : R))%R /\ (0 < (visc_del4 (par_of (set_simd (S77 1 1 1))) : R))%R.
Proof. split; [ok|]. split; [reflexivity|]. split; cbn; lra. Qed.

