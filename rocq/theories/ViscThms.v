(** Proofs of the properties of [PropsVisc.v]. *)
From Coq Require Import ZArith Reals List Bool Lia Lra.
From Verif Require Import Arith Arrays Prog Conc Launch Mesh AuxVars Tend Model Hex RSum Spec MeshProof MeshMem MeshFacts MeshR MeshCalc Over Formulas KernBase Terms KernAux KernTend TendFn StepFn Ready Rel RelRun Relate TendVal StepVal StepRun StepThms RealTend SumParts Diag FieldInv ConsBase ConsThms SteadyThms EqThms Deriv Stencil Taylor Accur Accur2 Accur3 Accur4 Sample Waves Hyper ConsistThms HyperThms LinStep LinSpec LinRun LinNorm LinEnergy LinModes LinThms.
Import ListNotations.
Open Scope Z_scope.

(** The velocity tendency with and without viscosity. *)
Lemma visc_point (S : setup RA) (Hok : setup_ok S) (Hdc : (0 < (dc (mesh_of_setup S) : R))%R) t s time md (m m1 m0 : mem RA) : s <> t -> ready S m ->
  exec (sdims S) (compute_tendency S t s time md) m (OK m1) ->
  exec (sdims S) (compute_tendency (set_visc_del2 S (IZR 0)) t s time md) m (OK m0) ->
  forall k e, 0 <= k < d_nlayers (sdims S) -> 0 <= e < d_nedges (sdims S) ->
  (mr m1 (VnEdge t) [e; k] - mr m0 (VnEdge t) [e; k] =
   (if disable_vn (par_of S) then 0 else if vel_diff_enabled (par_of S) then visc_del2 (par_of S) : R else 0) * vlap m (fun e => mr m (VnEdge s) [e; k] : R) e)%R.
Proof.
  intros Hs Hr X1 X0 k e Hk He.
  apply (tendency_exec S Hok) in X1; auto. apply (tendency_exec (set_visc_del2 S (IZR 0)) Hok) in X0; auto.
  destruct X1 as [_ X1], X0 as [_ X0]. set (u := fun e => mr m (VnEdge s) [e; k] : R).
  rewrite X1, X0. rewrite (T_v S Hok Hdc m Hr), (T_v (set_visc_del2 S (IZR 0)) Hok Hdc m Hr) by assumption.
  unfold hk_v, hook_v, vtend. cbn [set_visc_del2 par_of hook cfg_of].
  assert (E0 : vel_diff_enabled (mkParams (f0 (par_of S)) (grav (par_of S)) (drag_coeff (par_of S)) (IZR 0) (visc_del4 (par_of S)) (eddy_diff2 (par_of S)) (eddy_diff4 (par_of S)) (ntracers (par_of S)) (disable_h (par_of S)) (disable_vn (par_of S))) = false)
    by (apply disabled_le; apply Rle_refl).
  rewrite E0. unfold vel_hyperdiff_enabled. cbn [f0 grav visc_del4 disable_vn]. fold u. change (mr m (VnEdge s) [e; k]) with (u e).
  destruct (disable_vn (par_of S)), (vel_diff_enabled (par_of S)), (hook S); try match goal with |- context [flt ?x ?y] => destruct (flt x y) end; rring.
Qed.
Lemma enabled2 (S : setup RA) : (0 < (visc_del2 (par_of S) : R))%R -> vel_diff_enabled (par_of S) = true.
Proof. intros H. unfold vel_diff_enabled. cbn [flt fofZ RA]. destruct (Rlt_dec 0 (visc_del2 (par_of S))); [reflexivity|contradiction]. Qed.
Lemma enabled_false' (S : setup RA) : ((visc_del2 (par_of S) <= 0)%R -> vel_diff_enabled (par_of S) = false) /\ ((visc_del4 (par_of S) <= 0)%R -> vel_hyperdiff_enabled (par_of S) = false).
Proof. split; intros A; unfold vel_diff_enabled, vel_hyperdiff_enabled; cbn [flt fofZ RA]; destruct (Rlt_dec _ _); try reflexivity; lra. Qed.
Lemma enabled4 (S : setup RA) : (0 < (visc_del4 (par_of S) : R))%R -> vel_hyperdiff_enabled (par_of S) = true.
Proof. intros H. unfold vel_hyperdiff_enabled. cbn [flt fofZ RA]. destruct (Rlt_dec 0 (visc_del4 (par_of S))); [reflexivity|contradiction]. Qed.

Lemma C62_viscous_tendency_limit_proof :
  forall U V Ux Uy Vx Vy Uxx Uyy Vxx Vxy Vyy : fn2, smooth 5 U -> smooth 5 V ->
  is_dx U Ux -> is_dy U Uy -> is_dx V Vx -> is_dy V Vy ->
  is_dx Ux Uxx -> is_dy Uy Uyy -> is_dx Vx Vxx -> is_dy Vx Vxy -> is_dy Vy Vyy ->
  exists C : R, forall (S : setup RA), setup_ok S -> (0 < (dc (mesh_of_setup S) : R))%R -> 2 <= nx (mesh_of_setup S) -> Z.even (ny (mesh_of_setup S)) = true ->
  periodic (period_x (mesh_of_setup S)) (period_y (mesh_of_setup S)) U -> periodic (period_x (mesh_of_setup S)) (period_y (mesh_of_setup S)) V ->
  disable_vn (par_of S) = false -> (0 < (visc_del2 (par_of S) : R))%R ->
  forall t s time md (m m1 m0 : mem RA) k, s <> t -> ready S m -> 0 <= k < d_nlayers (sdims S) ->
  (forall e, 0 <= e < d_nedges (sdims S) -> mr m (VnEdge s) [e; k] = (cos (mr m AngleEdge [e]) * U (mr m XEdge [e]) (mr m YEdge [e]) + sin (mr m AngleEdge [e]) * V (mr m XEdge [e]) (mr m YEdge [e]))%R) ->
  exec (sdims S) (compute_tendency S t s time md) m (OK m1) -> exec (sdims S) (compute_tendency (set_visc_del2 S (IZR 0)) t s time md) m (OK m0) ->
  forall e, 0 <= e < d_nedges (sdims S) ->
  let nu := (visc_del2 (par_of S) : R) in let x := (mr m XEdge [e] : R) in let y := (mr m YEdge [e] : R) in let a := (mr m AngleEdge [e] : R) in
  (Rabs (mr m1 (VnEdge t) [e; k] - mr m0 (VnEdge t) [e; k] - nu * (cos a * (Uxx x y + Uyy x y) + sin a * (Vxx x y + Vyy x y)
     - (if (e mod 3 =? 1)%Z then -1 else 1) / 4 * (Uyy x y - Uxx x y + 2 * Vxy x y))) <= nu * C * dc (mesh_of_setup S) ^ 2)%R.
Proof.
  intros U V Ux Uy Vx Vy Uxx Uyy Vxx Vxy Vyy SU SV HUx HUy HVx HVy HUxx HUyy HVxx HVxy HVyy.
  destruct (C62_viscous_term_limit_proof U V Ux Uy Vx Vy Uxx Uyy Vxx Vxy Vyy SU SV HUx HUy HVx HVy HUxx HUyy HVxx HVxy HVyy) as (C & B & _).
  exists C. intros S Hok Hdc HX Hev HpU HpV Hdv Hnu t s time md m m1 m0 k Hst Hr Hk Hu X1 X0 e He nu x y a.
  pose proof (ready_hex S Hok m Hr) as Hm.
  rewrite (visc_point S Hok Hdc t s time md m m1 m0 Hst Hr X1 X0 k e Hk He), Hdv, (enabled2 S Hnu).
  pose proof (smp_edges _ _ _ m Hm Hev U V _ Hu) as Sm.
  pose proof (smp_vlap _ _ _ (proj1 Hok) Hdc m Hm Hev HX (nvec U V) _ (per_nvec _ _ _ _ HpU HpV) Sm e He) as E. rewrite E.
  unfold a, x, y. rewrite (cos_edge _ _ _ m Hm Hev), (sin_edge _ _ _ m Hm Hev), (hm_xe _ _ _ Hm), (hm_ye _ _ _ Hm) by exact He.
  fold nu. rewrite <- Rmult_minus_distr_l, Rabs_mult, (Rabs_pos_eq nu), Rmult_assoc by (apply Rlt_le; exact Hnu).
  apply Rmult_le_compat_l; [apply Rlt_le; exact Hnu|]. apply B; [apply Rgt_not_eq; exact Hdc|apply q3].
Qed.

Lemma C65_hyperviscous_tendency_limit_proof :
  forall U V Ux Uy Vx Vy Uxx Uyy Vxy : fn2, smooth 7 U -> smooth 7 V ->
  is_dx U Ux -> is_dy U Uy -> is_dx V Vx -> is_dy V Vy -> is_dx Ux Uxx -> is_dy Uy Uyy -> is_dy Vx Vxy ->
  exists C : R, forall (S : setup RA), setup_ok S -> (0 < (dc (mesh_of_setup S) : R) <= 1)%R -> 2 <= nx (mesh_of_setup S) -> Z.even (ny (mesh_of_setup S)) = true ->
  periodic (period_x (mesh_of_setup S)) (period_y (mesh_of_setup S)) U -> periodic (period_x (mesh_of_setup S)) (period_y (mesh_of_setup S)) V ->
  disable_vn (par_of S) = false -> (0 < (visc_del4 (par_of S) : R))%R ->
  forall t s time md (m m1 m0 : mem RA), s <> t -> ready S m ->
  (forall e k, 0 <= e < d_nedges (sdims S) -> 0 <= k < d_nlayers (sdims S) -> mr m (VnEdge s) [e; k] = (cos (mr m AngleEdge [e]) * U (mr m XEdge [e]) (mr m YEdge [e]) + sin (mr m AngleEdge [e]) * V (mr m XEdge [e]) (mr m YEdge [e]))%R) ->
  exec (sdims S) (compute_tendency S t s time md) m (OK m1) -> exec (sdims S) (compute_tendency (set_visc_del4 S (IZR 0)) t s time md) m (OK m0) ->
  forall e k, 0 <= e < d_nedges (sdims S) -> 0 <= k < d_nlayers (sdims S) ->
  let nu := (visc_del4 (par_of S) : R) in let d := (dc (mesh_of_setup S) : R) in let x := (mr m XEdge [e] : R) in let y := (mr m YEdge [e] : R) in
  (Rabs (d ^ 2 * (mr m1 (VnEdge t) [e; k] - mr m0 (VnEdge t) [e; k]) - - nu * (6 * (if (e mod 3 =? 1)%Z then -1 else 1) * (Uyy x y - Uxx x y + 2 * Vxy x y))) <= nu * C * d)%R.
Proof.
  intros U V Ux Uy Vx Vy Uxx Uyy Vxy SU SV HUx HUy HVx HVy HUxx HUyy HVxy.
  destruct (C65_hyperviscous_term_limit_proof U V Ux Uy Vx Vy Uxx Uyy Vxy SU SV HUx HUy HVx HVy HUxx HUyy HVxy) as (C & B & _).
  exists C. intros S Hok Hdc HX Hev HpU HpV Hdv Hnu t s time md m m1 m0 Hst Hr Hu X1 X0 e k He Hk nu d x y.
  pose proof (ready_hex S Hok m Hr) as Hm.
  pose proof (hyper_point S Hok (proj1 Hdc) t s time md m m1 m0 Hst Hr X1 X0 k e Hk He) as D. cbv zeta in D. rewrite D, Hdv, (enabled4 S Hnu). clear D.
  set (u := fun e => mr m (VnEdge s) [e; k] : R). set (u' := fun e => mr m (VnEdge s) [e; rv_layer (cfg_of S) k] : R).
  assert (Sm : forall j, 0 <= j < d_nlayers (sdims S) -> smpE (mesh_of_setup S) (nvec U V) (fun e => mr m (VnEdge s) [e; j])).
  { intros j Hj. apply (smp_edges _ _ _ m Hm Hev U V). intros e' He'. now apply Hu. }
  pose proof (smp_vlap _ _ _ (proj1 Hok) (proj1 Hdc) m Hm Hev HX (nvec U V) _ (per_nvec _ _ _ _ HpU HpV) (Sm k Hk)) as S1.
  assert (Hk' : 0 <= rv_layer (cfg_of S) k < d_nlayers (sdims S)) by exact (rv_range S (ok_wfd S Hok) k Hk).
  pose proof (smp_vlap _ _ _ (proj1 Hok) (proj1 Hdc) m Hm Hev HX (nvec U V) _ (per_nvec _ _ _ _ HpU HpV) (Sm _ Hk')) as S1'.
  set (W := nvec U V) in *. assert (PW2 : forall q, periodic (period_x (mesh_of_setup S)) (period_y (mesh_of_setup S)) (Vl (dc (mesh_of_setup S)) W q)) by (intros; apply per_Vl; intros; apply (per_nvec _ _ _ _ HpU HpV)).
  assert (E : vlap' m (vlap m u) (vlap m u') e = Vl (dc (mesh_of_setup S)) (Vl (dc (mesh_of_setup S)) W) (e mod 3) (hxe (mesh_of_setup S) e) (hye (mesh_of_setup S) e)).
  { unfold vlap', u, u'. unfold Vl at 1.
    rewrite (smp_grad _ _ _ (proj1 Hok) m Hm Hev _ _ (per_Ou _ _ _ _ PW2) (smp_outflow _ _ _ (proj1 Hok) (proj1 Hdc) m Hm Hev HX _ _ PW2 S1) e He).
    rewrite (smp_rgrad _ _ _ (proj1 Hok) m Hm Hev _ _ (fun p => per_Vo _ _ _ _ p PW2) (smp_vort _ _ _ (proj1 Hok) (proj1 Hdc) m Hm Hev _ _ PW2 S1') e He). reflexivity. }
  match goal with |- context [vlap' m ?a ?b e] => replace (vlap' m a b e) with (Vl (dc (mesh_of_setup S)) (Vl (dc (mesh_of_setup S)) W) (e mod 3) (hxe (mesh_of_setup S) e) (hye (mesh_of_setup S) e)) by (symmetry; exact E) end.
  specialize (B (dc (mesh_of_setup S)) (e mod 3) (hxe (mesh_of_setup S) e) (hye (mesh_of_setup S) e) Hdc (q3 e)). fold W in B.
  unfold x, y. rewrite (hm_xe _ _ _ Hm), (hm_ye _ _ _ Hm) by exact He. fold nu. fold d in B |- *.
  match goal with |- (Rabs ?A <= _)%R => replace A with (- nu * (d ^ 2 * Vl d (Vl d W) (e mod 3) (hxe (mesh_of_setup S) e) (hye (mesh_of_setup S) e) - 6 * (if (e mod 3 =? 1)%Z then -1 else 1) * (Uyy (hxe (mesh_of_setup S) e) (hye (mesh_of_setup S) e) - Uxx (hxe (mesh_of_setup S) e) (hye (mesh_of_setup S) e) + 2 * Vxy (hxe (mesh_of_setup S) e) (hye (mesh_of_setup S) e))))%R by rring end.
  rewrite Rabs_mult, Rabs_Ropp, (Rabs_pos_eq nu) by (apply Rlt_le; exact Hnu). replace (nu * C * d)%R with (nu * (C * d))%R by ring.
  apply Rmult_le_compat_l; [apply Rlt_le; exact Hnu|exact B].
Qed.

Lemma C62_viscous_tendency_refuted_proof :
  forall (S : setup RA), setup_ok S -> forall (h := mesh_of_setup S), (0 < (dc h : R))%R -> 20 <= nx h -> Z.even (ny h) = true ->
  disable_vn (par_of S) = false -> (0 < (visc_del2 (par_of S) : R))%R ->
  let k := (2 * PI / period_x h)%R in
  exists lam : R, (6 / 5 <= lam)%R /\
  forall t s time md (m : mem RA), s <> t -> ready S m ->
  (forall e j, 0 <= e < d_nedges (sdims S) -> 0 <= j < d_nlayers (sdims S) -> mr m (VnEdge s) [e; j] = (cos (mr m AngleEdge [e]) * cos (k * mr m XEdge [e]))%R) ->
  forall m1 m0 : mem RA,
  exec (sdims S) (compute_tendency S t s time md) m (OK m1) ->
  exec (sdims S) (compute_tendency (set_visc_del2 S (IZR 0)) t s time md) m (OK m0) ->
  forall e j, 0 <= e < d_nedges (sdims S) -> 0 <= j < d_nlayers (sdims S) -> mr m AngleEdge [e] = 0%R ->
    (mr m1 (VnEdge t) [e; j] - mr m0 (VnEdge t) [e; j] = lam * (- visc_del2 (par_of S) * k ^ 2 * cos (k * mr m XEdge [e])))%R.
Proof.
  intros S Hok h Hdc HX Hev Hdv Hnu k.
  assert (HN : (20 <= IZR (nx h))%R) by (now apply IZR_le).
  assert (Epx : (period_x h : R) = (IZR (nx h) * dc h)%R) by reflexivity.
  assert (Hpx : (0 < (period_x h : R))%R) by (rewrite Epx; apply Rmult_lt_0_compat; lra).
  pose proof PI_RGT_0 as HP. pose proof PI_4 as HP4.
  assert (Hk : (0 < k)%R) by (apply Rdiv_lt_0_compat; lra).
  set (t0 := (k * dc h)%R).
  assert (Et : t0 = (2 * PI / IZR (nx h))%R) by (unfold t0, k; rewrite Epx; field; lra).
  assert (Ht : (0 < t0)%R) by (now apply Rmult_lt_0_compat).
  assert (Ht1 : (t0 <= 2 / 5)%R).
  { rewrite Et. apply (Rmult_le_reg_r (IZR (nx h))); [lra|]. unfold Rdiv at 1. rewrite Rmult_assoc, Rinv_l by lra. lra. }
  pose proof (too_large t0 Ht Ht1) as L.
  set (z := (8 / 3 * sin (t0 / 2) * (sin (t0 / 2) + sin (t0 / 4)) + 8 * (1 - cos (t0 / 4)))%R) in *.
  exists (z / (t0 * t0))%R. split.
  { apply (Rmult_le_reg_r (t0 * t0)); [now apply Rmult_lt_0_compat|]. unfold Rdiv at 2. rewrite Rmult_assoc, Rinv_l; [lra|].
    apply Rgt_not_eq. now apply Rmult_lt_0_compat. }
  intros t s time md m Hst Hr Hu m1 m0 X1 X0 e j He Hj Ha.
  pose proof (ready_hex S Hok m Hr) as Hm. pose proof (proj1 Hok) as HM. fold h in Hm.
  assert (Hp : periodic (period_x h) (period_y h) (fun x _ => cos (k * x))).
  { intros x y. split; [|reflexivity]. replace (k * (x + period_x h))%R with (k * x + IZR 1 * (2 * PI))%R; [apply cos_Z|].
    unfold k. apply Rminus_diag_uniq. cbn [F RA] in *. field. lra. }
  rewrite (visc_point S Hok Hdc t s time md m m1 m0 Hst Hr X1 X0 j e Hj He), Hdv, (enabled2 S Hnu). clear X1 X0.
  assert (Hu' : forall e, 0 <= e < 3 * (nx h * ny h) -> mr m (VnEdge s) [e; j] = (cos (mr m AngleEdge [e]) * cos (k * mr m XEdge [e]) + sin (mr m AngleEdge [e]) * 0)%R).
  { intros e' He'. rewrite Hu; [|exact He'|exact Hj]. apply Rminus_diag_uniq. cbn [F RA]. ring. }
  pose proof (smp_edges (cfg_of S) h _ m Hm Hev (fun x _ => cos (k * x)) (fun _ _ => 0%R) _ Hu') as Sm.
  pose proof (smp_vlap (cfg_of S) h _ HM Hdc m Hm Hev ltac:(lia) _ _ (per_nvec _ _ _ _ Hp (per_c _ _ 0%R)) Sm e He) as E.
  rewrite E. assert (He' : 0 <= e < 3 * (nx h * ny h)) by exact He.
  assert (Eq : e mod 3 = 0).
  { rewrite (hm_ang _ _ _ Hm), hang_R in Ha by lia. pose proof (q3 e). unfold ang in Ha.
    assert (e mod 3 = 0 \/ e mod 3 = 1 \/ e mod 3 = 2) as [Q | [Q | Q]] by lia; [exact Q| |]; rewrite Q in Ha; cbn [Z.eqb Pos.eqb] in Ha; lra. }
  rewrite Eq, (wVl k (dc h) ltac:(lra)), (hm_xe _ _ _ Hm) by lia.
  change (k * dc h)%R with t0. fold z. unfold t0. apply Rminus_diag_uniq. cbn [F RA] in *. field. split; lra.
Qed.

Lemma C78_energy_tendency_proof :
  forall (S : setup RA), setup_ok S -> (0 < (dc (mesh_of_setup S) : R))%R -> hook S = None -> disable_h (par_of S) = false -> disable_vn (par_of S) = false ->
  2 <= nx (mesh_of_setup S) -> Z.even (ny (mesh_of_setup S)) = true -> ksimd (cfg_of S) = false \/ vector_length (cfg_of S) = 1 \/ ((visc_del4 (par_of S) : R) <= 0)%R ->
  forall (H : Z -> R) (m m' : R -> mem RA) (w w' : place -> R) (time : R), (forall k, 0 <= k < d_nlayers (sdims S) -> (0 < H k)%R) -> disturbed S H m w ->
  (forall x, exec (sdims S) (compute_tendency S Tend St time Replace) (m x) (OK (m' x))) ->
  (forall p, valid_place S p -> derivable_pt_lim (fun x => value_at Tend (m' x) p) 0 (w' p)) ->
  let rate := rsum (d_nlayers (sdims S)) (fun k =>
    grav (par_of S) * rsum (d_ncells (sdims S)) (fun c => mr (m 0) AreaCell [c] * (w (AtCell c k) * w' (AtCell c k)))
    + H k * rsum (d_nedges (sdims S)) (fun e => mr (m 0) DcEdge [e] * mr (m 0) DvEdge [e] * (w (AtEdge e k) * w' (AtEdge e k))))%R in
  (rate <= 0)%R /\ (((visc_del2 (par_of S) : R) <= 0)%R -> ((visc_del4 (par_of S) : R) <= 0)%R -> rate = 0%R).
Proof.
  intros S Hok Hdc Hf Dh Dv N1 Ev Hl H m m' w w' time Hp Hd Hx Hw' rate.
  pose proof (MeshProof.Hy _ _ (proj1 Hok)) as Y1. assert (N2 : 2 <= ny (mesh_of_setup S)) by (destruct (Z.eq_dec (ny (mesh_of_setup S)) 1) as [E|]; [rewrite E in Ev; discriminate|lia]).
  assert (H0 : forall k, 0 <= k < d_nlayers (sdims S) -> H k <> 0%R) by (intros k Hk; specialize (Hp k Hk); lra).
  pose proof (C77_linear_tendency_proof S Hok Hdc Hf Dh Dv H m m' w time H0 Hd Hx) as LT.
  pose proof (proj1 Hd 0%R) as Hr. set (n := m 0%R) in *.
  assert (Ew : forall p, valid_place S p -> w' p = linear_swe S n H w p) by (intros p Vp; eapply uniqueness_limite; [apply (Hw' p Vp)|apply (LT p Vp)]).
  pose (S0 := set_visc_del4 (set_visc_del2 S (IZR 0)) (IZR 0)).
  assert (F2 : vel_diff_enabled (par_of S0) = false) by (apply disabled_le; apply Rle_refl). assert (F4 : vel_hyperdiff_enabled (par_of S0) = false) by (apply disabled_le; apply Rle_refl).
  pose proof (energy_tendency S0 Hok Hdc n Hr H F2 F4 N1 Ev w) as Z0.
  assert (E : rate = (edot S0 n H (linear_swe S0 n H w) w + rsum (d_nlayers (sdims S)) (fun k => H k * (
      (if vel_diff_enabled (par_of S) then visc_del2 (par_of S) : R else 0) * rsum (d_nedges (sdims S)) (fun e => mr n DcEdge [e] * mr n DvEdge [e] * w (AtEdge e k) * vlap n (fun e => w (AtEdge e k)) e)
      - (if vel_hyperdiff_enabled (par_of S) then visc_del4 (par_of S) : R else 0) * rsum (d_nedges (sdims S)) (fun e => mr n DcEdge [e] * mr n DvEdge [e] * w (AtEdge e k) * vlap' n (vlap n (fun e => w (AtEdge e k))) (vlap n (fun e => w (AtEdge e (rv_layer (cfg_of S) k)))) e))))%R).
  { unfold rate, edot. rewrite <- rsum_plus. apply rsum_ext. intros k Hk.
    rewrite (rsum_ext (d_ncells (sdims S)) _ (fun c => mr n AreaCell [c] * (linear_swe S0 n H w (AtCell c k) * w (AtCell c k)))%R) by (intros c Hc; rewrite (Ew (AtCell c k)) by (split; assumption); cbn [linear_swe]; rring).
    rewrite (rsum_ext (d_nedges (sdims S)) (fun e => mr n DcEdge [e] * mr n DvEdge [e] * (w (AtEdge e k) * w' (AtEdge e k)))%R (fun e => 1 * (mr n DcEdge [e] * mr n DvEdge [e] * (linear_swe S0 n H w (AtEdge e k) * w (AtEdge e k)))
      + 1 * ((if vel_diff_enabled (par_of S) then visc_del2 (par_of S) : R else 0) * (mr n DcEdge [e] * mr n DvEdge [e] * w (AtEdge e k) * vlap n (fun e => w (AtEdge e k)) e)
      + - (if vel_hyperdiff_enabled (par_of S) then visc_del4 (par_of S) : R else 0) * (mr n DcEdge [e] * mr n DvEdge [e] * w (AtEdge e k) * vlap' n (vlap n (fun e => w (AtEdge e k))) (vlap n (fun e => w (AtEdge e (rv_layer (cfg_of S) k)))) e)))%R).
    - rewrite !rsum_lin. change (grav (par_of S0)) with (grav (par_of S)). change (d_ncells (sdims S)) with (nx (mesh_of_setup S0) * ny (mesh_of_setup S0)). change (d_nedges (sdims S)) with (3 * (nx (mesh_of_setup S0) * ny (mesh_of_setup S0))). ring.
    - intros e He. rewrite (Ew (AtEdge e k)) by (split; assumption). cbn [linear_swe]. rewrite !visc2, !visc4, F2, F4. unfold rv_layer. change (f0 (par_of S0)) with (f0 (par_of S)). change (grav (par_of S0)) with (grav (par_of S)).
      destruct (vel_diff_enabled (par_of S)), (vel_hyperdiff_enabled (par_of S)); rring. }
  assert (Zr : edot S0 n H (linear_swe S0 n H w) w = 0%R) by exact Z0. rewrite Zr, Rplus_0_l in E. rewrite E. split.
  - rewrite <- (Ropp_involutive (rsum _ _)), <- rsum_opp. match goal with |- (- ?A <= 0)%R => enough (0 <= A)%R by lra end.
    apply rsum_nonneg. intros k Hk. rewrite Ropp_mult_distr_r. apply Rmult_le_pos; [apply Rlt_le, Hp, Hk|].
    pose proof (vlap_work S Hok Hdc n Hr (fun e => w (AtEdge e k)) N1 N2) as Q2. change (3 * (nx (mesh_of_setup S) * ny (mesh_of_setup S))) with (d_nedges (sdims S)) in Q2.
    assert (P2 : (0 <= (if vel_diff_enabled (par_of S) then visc_del2 (par_of S) : R else 0))%R).
    { unfold vel_diff_enabled. destruct (flt (a:=RA) _ _) eqn:Fl; [apply enabled_pos in Fl; lra|lra]. }
    assert (P4 : (0 <= (if vel_hyperdiff_enabled (par_of S) then visc_del4 (par_of S) : R else 0))%R).
    { unfold vel_hyperdiff_enabled. destruct (flt (a:=RA) _ _) eqn:Fl; [apply enabled_pos in Fl; lra|lra]. }
    assert (Q4 : (0 <= (if vel_hyperdiff_enabled (par_of S) then visc_del4 (par_of S) : R else 0) * rsum (d_nedges (sdims S)) (fun e => mr n DcEdge [e] * mr n DvEdge [e] * w (AtEdge e k) * vlap' n (vlap n (fun e => w (AtEdge e k))) (vlap n (fun e => w (AtEdge e (rv_layer (cfg_of S) k)))) e))%R).
    { destruct Hl as [Hl|[Hl|Hl]].
      - rewrite (rv_self _ _ (or_introl Hl)). apply Rmult_le_pos; [exact P4|]. pose proof (hyper_work S Hok Hdc n Hr (fun e => w (AtEdge e k)) N1 N2) as Q. change (3 * (nx (mesh_of_setup S) * ny (mesh_of_setup S))) with (d_nedges (sdims S)) in Q. rewrite Q.
        apply rsum_nonneg. intros e He. apply Rmult_le_pos; [apply Rlt_le; exact (cb_dcdv S Hok Hdc n Hr e He)|apply Rle_0_sqr].
      - rewrite (rv_self _ _ (or_intror Hl)). apply Rmult_le_pos; [exact P4|]. pose proof (hyper_work S Hok Hdc n Hr (fun e => w (AtEdge e k)) N1 N2) as Q. change (3 * (nx (mesh_of_setup S) * ny (mesh_of_setup S))) with (d_nedges (sdims S)) in Q. rewrite Q.
        apply rsum_nonneg. intros e He. apply Rmult_le_pos; [apply Rlt_le; exact (cb_dcdv S Hok Hdc n Hr e He)|apply Rle_0_sqr].
      - rewrite (proj2 (enabled_false' S) Hl). lra. }
    assert (Q3 : (0 <= (if vel_diff_enabled (par_of S) then visc_del2 (par_of S) : R else 0) * - rsum (d_nedges (sdims S)) (fun e => mr n DcEdge [e] * mr n DvEdge [e] * w (AtEdge e k) * vlap n (fun e => w (AtEdge e k)) e))%R) by (apply Rmult_le_pos; lra). lra.
  - intros A2 A4. rewrite (proj1 (enabled_false' S) A2), (proj2 (enabled_false' S) A4). apply rsum_zero. intros k Hk. ring.
Qed.

