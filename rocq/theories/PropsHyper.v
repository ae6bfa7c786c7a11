(** Accuracy of the hyperviscous term (C65). *)
From Coq Require Import ZArith Reals List Bool Lia Lra.
From Verif Require Import Arith Arrays Prog Conc Launch Mesh AuxVars Tend Model Hex RSum Spec MeshProof MeshMem MeshR Ready Relate SteadyThms Deriv Stencil Taylor Accur Accur3 Sample Waves PropsMesh PropsCons HyperThms.
Import ListNotations.
Open Scope Z_scope.

(** The Laplacian applied twice, multiplied by the square of the grid spacing, tends to [6] times the quantity that the Laplacian gets wrong (with the sign of the edge direction): without that factor it grows like [1 / dc^2]. *)
Theorem C65_hyperviscous_term_limit :
  forall U V Ux Uy Vx Vy Uxx Uyy Vxy : fn2, smooth 7 U -> smooth 7 V ->
  is_dx U Ux -> is_dy U Uy -> is_dx V Vx -> is_dy V Vy -> is_dx Ux Uxx -> is_dy Uy Uyy -> is_dy Vx Vxy ->
  exists C : R,
  (forall d q x y, (0 < d <= 1)%R -> 0 <= q < 3 ->
     (Rabs (d ^ 2 * Vl d (Vl d (nvec U V)) q x y - 6 * (if q =? 1 then -1 else 1) * (Uyy x y - Uxx x y + 2 * Vxy x y)) <= C * d)%R) /\
  (forall (cf : config) (h : hexargs RA), mesh_ok cf h -> 2 <= nx h -> Z.even (ny h) = true -> (0 < (dc h : R) <= 1)%R ->
   periodic (period_x h) (period_y h) U -> periodic (period_x h) (period_y h) V ->
   always (dims_of cf h 0) (mesh_ctor cf h) (mzero RA) (fun m =>
     let u := fun e => (cos (mr m AngleEdge [e]) * U (mr m XEdge [e]) (mr m YEdge [e]) + sin (mr m AngleEdge [e]) * V (mr m XEdge [e]) (mr m YEdge [e]))%R in
     forall e, 0 <= e < 3 * (nx h * ny h) ->
       let x := (mr m XEdge [e] : R) in let y := (mr m YEdge [e] : R) in
       (Rabs ((dc h : R) ^ 2 * vlap m (vlap m u) e - 6 * (if (e mod 3 =? 1)%Z then -1 else 1) * (Uyy x y - Uxx x y + 2 * Vxy x y)) <= C * dc h)%R)).
Proof. exact C65_hyperviscous_term_limit_proof. Qed.
Print Assumptions C65_hyperviscous_term_limit.

(** The hypotheses hold for the wave [(cos x, 0)]; the limit is not zero: at the origin it is 6 on two of the edge directions and -6 on the third. *)
Example C65_limit_hyps : smooth 7 (wave 1 1 0 0) /\ smooth 7 (fun _ _ => 0%R) /\ is_dx (wave 1 1 0 0) (wave (1 * 1) 1 0 (0 + PI / 2)) /\
  is_dx (wave (1 * 1) 1 0 (0 + PI / 2)) (wave (1 * 1 * 1) 1 0 (0 + PI / 2 + PI / 2)) /\ wave (1 * 1 * 1) 1 0 (0 + PI / 2 + PI / 2) 0%R 0%R = (-1)%R.
Proof.
  split; [apply wave_smooth|]. split; [apply smooth_const|]. split; [apply wave_dx|]. split; [apply wave_dx|].
  unfold wave. replace (1 * 0 + 0 * 0 + (0 + PI / 2 + PI / 2))%R with PI by field. rewrite cos_PI. ring.
Qed.

(** Hence the hyperviscous tendency is not the biharmonic one. For the wave [(cos (k x), 0)] with one period across the domain, the contribution of hyperviscosity to the velocity tendency on the edges facing the x direction is [lam] times the exact one, [- visc_del4 * k^4 * cos (k x)], where [lam] is at least [nx^2 / 12]: it grows without bound as the mesh is refined. *)
Theorem C65_hyperviscosity_consistent_refuted :
  forall (S : setup RA), setup_ok S -> forall (h := mesh_of_setup S), (0 < (dc h : R))%R -> 20 <= nx h -> Z.even (ny h) = true ->
  disable_vn (par_of S) = false -> (0 < (visc_del4 (par_of S) : R))%R ->
  let k := (2 * PI / period_x h)%R in
  exists lam : R, (IZR (nx h) ^ 2 / 12 <= lam)%R /\
  forall t s time md (m : mem RA), s <> t -> ready S m ->
  (forall e j, 0 <= e < d_nedges (sdims S) -> 0 <= j < d_nlayers (sdims S) -> mr m (VnEdge s) [e; j] = (cos (mr m AngleEdge [e]) * cos (k * mr m XEdge [e]))%R) ->
  forall m1 m0 : mem RA,
  exec (sdims S) (compute_tendency S t s time md) m (OK m1) ->
  exec (sdims S) (compute_tendency (set_visc_del4 S (IZR 0)) t s time md) m (OK m0) ->
  forall e j, 0 <= e < d_nedges (sdims S) -> 0 <= j < d_nlayers (sdims S) -> mr m AngleEdge [e] = 0%R ->
    (mr m1 (VnEdge t) [e; j] - mr m0 (VnEdge t) [e; j] = lam * (- visc_del4 (par_of S) * k ^ 4 * cos (k * mr m XEdge [e])))%R.
Proof. exact C65_hyperviscosity_consistent_refuted_proof. Qed.
Print Assumptions C65_hyperviscosity_consistent_refuted.

(** The hypotheses hold, and there are such edges, for a mesh of 20 by 6 cells with spacing 1. *)
Definition S65 : setup RA := mkSetup (mkConfig false false false 8) (mkHex (A:=RA) 20 6 (IZR 1) 3) P24 None.
Example ok65 : setup_ok S65 /\ (0 < (dc (mesh_of_setup S65) : R))%R /\ 20 <= nx (mesh_of_setup S65) /\ Z.even (ny (mesh_of_setup S65)) = true /\
  disable_vn (par_of S65) = false /\ (0 < (visc_del4 (par_of S65) : R))%R.
Proof. split; [ok|]. split; [cbn; lra|]. split; [cbn; lia|]. split; [reflexivity|]. split; [reflexivity|cbn; lra]. Qed.
Example C65_applies : exists m : mem RA, ready S65 m /\ mr m AngleEdge [0] = 0%R /\
  let k := (2 * PI / period_x (mesh_of_setup S65))%R in
  (forall e j, 0 <= e < d_nedges (sdims S65) -> 0 <= j < d_nlayers (sdims S65) -> mr m (VnEdge St) [e; j] = (cos (mr m AngleEdge [e]) * cos (k * mr m XEdge [e]))%R) /\
  exists m1 m0, exec (sdims S65) (compute_tendency S65 Tend St 0%R Replace) m (OK m1) /\
    exec (sdims S65) (compute_tendency (set_visc_del4 S65 (IZR 0)) Tend St 0%R Replace) m (OK m0) /\
    exists lam : R, (33 <= lam)%R /\ (mr m1 (VnEdge Tend) [0%Z; 0%Z] - mr m0 (VnEdge Tend) [0%Z; 0%Z] = lam * (- 1 * k ^ 4 * cos (k * mr m XEdge [0%Z])))%R.
Proof.
  destruct ok65 as (Ho & Hd & HX & Hev & Hv & Hnu). pose (k := (2 * PI / period_x (mesh_of_setup S65))%R).
  destruct (ready_any S65 Ho (fun _ ix => match ix with e :: _ => (cos (hang (A:=RA) e) * cos (k * hxe (mesh_of_setup S65) e))%R | _ => 0%R end)) as (m & Hr & E).
  pose proof (ready_hex S65 Ho m Hr) as Hm.
  assert (HU : forall e j, 0 <= e < d_nedges (sdims S65) -> 0 <= j < d_nlayers (sdims S65) -> mr m (VnEdge St) [e; j] = (cos (mr m AngleEdge [e]) * cos (k * mr m XEdge [e]))%R).
  { intros e j He Hj. rewrite (E (VnEdge St) [e; j] eq_refl), (hm_ang _ _ _ Hm), (hm_xe _ _ _ Hm) by exact He. reflexivity. }
  assert (HA : mr m AngleEdge [0] = 0%R).
  { rewrite (hm_ang _ _ _ Hm) by (cbn; lia). apply hang_R. }
  exists m. split; [exact Hr|]. split; [exact HA|]. split; [exact HU|].
  destruct (exec_tend S65 Ho Tend St 0%R Replace m Hr ltac:(discriminate)) as (m1 & X1). destruct (exec_tend (set_visc_del4 S65 (IZR 0)) Ho Tend St 0%R Replace m Hr ltac:(discriminate)) as (m0 & X0).
  exists m1, m0. split; [exact X1|]. split; [exact X0|].
  destruct (C65_hyperviscosity_consistent_refuted S65 Ho Hd HX Hev Hv Hnu) as (lam & L & B). exists lam. split; [cbn in L; lra|].
  exact (B Tend St 0%R Replace m ltac:(discriminate) Hr HU m1 m0 X1 X0 0 0 ltac:(cbn; lia) ltac:(cbn; lia) HA).
Qed.

