(** Proofs of the properties of [PropsHyper.v]. *)
From Coq Require Import ZArith Reals List Bool Lia Lra.
From Verif Require Import Arith Arrays Prog Conc Launch Mesh AuxVars Tend Model Hex RSum Spec MeshProof MeshMem MeshFacts MeshR MeshCalc Over Formulas KernBase Terms KernAux KernTend TendFn StepFn Ready Rel RelRun Relate TendVal StepVal StepRun StepThms RealTend SumParts Diag FieldInv ConsBase ConsThms SteadyThms EqThms Deriv Stencil Taylor Accur Accur2 Accur3 Accur4 Sample Waves Hyper ConsistThms.
Import ListNotations.
Open Scope Z_scope.

(** The velocity tendency with and without hyperviscosity. *)
Lemma hyper_point (S : setup RA) (Hok : setup_ok S) (Hdc : (0 < (dc (mesh_of_setup S) : R))%R) t s time md (m m1 m0 : mem RA) : s <> t -> ready S m ->
  exec (sdims S) (compute_tendency S t s time md) m (OK m1) ->
  exec (sdims S) (compute_tendency (set_visc_del4 S (IZR 0)) t s time md) m (OK m0) ->
  forall k e, 0 <= k < d_nlayers (sdims S) -> 0 <= e < d_nedges (sdims S) ->
  forall (u := fun e => mr m (VnEdge s) [e; k] : R) (u' := fun e => mr m (VnEdge s) [e; rv_layer (cfg_of S) k] : R),
  (mr m1 (VnEdge t) [e; k] - mr m0 (VnEdge t) [e; k] =
   - (if disable_vn (par_of S) then 0 else if vel_hyperdiff_enabled (par_of S) then visc_del4 (par_of S) : R else 0) * vlap' m (vlap m u) (vlap m u') e)%R.
Proof.
  intros Hs Hr X1 X0 k e Hk He u u'.
  apply (tendency_exec S Hok) in X1; auto. apply (tendency_exec (set_visc_del4 S (IZR 0)) Hok) in X0; auto.
  destruct X1 as [_ X1], X0 as [_ X0].
  rewrite X1, X0. rewrite (T_v S Hok Hdc m Hr), (T_v (set_visc_del4 S (IZR 0)) Hok Hdc m Hr) by assumption.
  unfold hk_v, hook_v, vtend. cbn [set_visc_del4 par_of hook cfg_of].
  assert (E0 : vel_hyperdiff_enabled (mkParams (f0 (par_of S)) (grav (par_of S)) (drag_coeff (par_of S)) (visc_del2 (par_of S)) (IZR 0) (eddy_diff2 (par_of S)) (eddy_diff4 (par_of S)) (ntracers (par_of S)) (disable_h (par_of S)) (disable_vn (par_of S))) = false)
    by (apply disabled_le; apply Rle_refl).
  rewrite E0. unfold vel_diff_enabled. cbn [f0 grav visc_del2 disable_vn]. fold u. fold u'. change (mr m (VnEdge s) [e; k]) with (u e).
  destruct (disable_vn (par_of S)), (vel_hyperdiff_enabled (par_of S)), (hook S); try match goal with |- context [flt ?x ?y] => destruct (flt x y) end; rring.
Qed.

Lemma exec_tend (S : setup RA) (Hok : setup_ok S) t s time md m : ready S m -> s <> t -> exists m', exec (sdims S) (compute_tendency S t s time md) m (OK m').
Proof. intros Hr Hs. destruct (hsafe_always _ _ _ _ (rd_tendency S Hok t s time md m Hr Hs)) as [_ H]. exact H. Qed.

Lemma C65_hyperviscous_term_limit_proof :
  forall U V Ux Uy Vx Vy Uxx Uyy Vxy : fn2, smooth 7 U -> smooth 7 V ->
  is_dx U Ux -> is_dy U Uy -> is_dx V Vx -> is_dy V Vy -> is_dx Ux Uxx -> is_dy Uy Uyy -> is_dy Vx Vxy ->
  exists C : R,
  (forall d q x y, (0 < d <= 1)%R -> 0 <= q < 3 ->
     (Rabs (d ^ 2 * Vl d (Vl d (nvec U V)) q x y - 6 * (if q =? 1 then -1 else 1) * (Uyy x y - Uxx x y + 2 * Vxy x y)) <= C * d)%R) /\
  (forall (cf : config) (h : hexargs RA), mesh_ok cf h -> 2 <= nx h -> Z.even (ny h) = true -> (0 < (dc h : R) <= 1)%R ->
   periodic (period_x h) (period_y h) U -> periodic (period_x h) (period_y h) V ->
   always (dims_of cf h 0) (mesh_ctor cf h) (mzero RA) (fun m =>
     let u := fun e => (cos (mr m AngleEdge [e]) * U (mr m XEdge [e]) (mr m YEdge [e]) + sin (mr m AngleEdge [e]) * V (mr m XEdge [e]) (mr m YEdge [e]))%R in
     forall e, 0 <= e < 3 * (nx h * ny h) ->
       let x := (mr m XEdge [e] : R) in let y := (mr m YEdge [e] : R) in
       (Rabs ((dc h : R) ^ 2 * vlap m (vlap m u) e - 6 * (if (e mod 3 =? 1)%Z then -1 else 1) * (Uyy x y - Uxx x y + 2 * Vxy x y)) <= C * dc h)%R)).
Proof.
  intros U V Ux Uy Vx Vy Uxx Uyy Vxy SU SV HUx HUy HVx HVy HUxx HUyy HVxy.
  pose proof (smooth_dx 6 V Vx SV HVx) as SVx. pose proof (smooth_dy 6 V Vy SV HVy) as SVy.
  pose proof (smooth_dx 6 U Ux SU HUx) as SUx. pose proof (smooth_dy 6 U Uy SU HUy) as SUy.
  destruct SVx as (_ & Vxx & Vxy' & HVxx & HVxy' & SVxx & _). destruct SVy as (_ & Vyx & Vyy & _ & HVyy & _ & SVyy).
  pose proof (smooth_dx 5 Ux Uxx SUx HUxx) as SUxx. pose proof (smooth_dy 5 Uy Uyy SUy HUyy) as SUyy.
  pose proof (smooth_dy 5 Vx Vxy (smooth_dx 6 V Vx SV HVx) HVxy) as SVxy.
  pose (DU := fun x y : R => (Uxx x y + Uyy x y)%R). pose (DV := fun x y : R => (Vxx x y + Vyy x y)%R).
  pose (g := fun x y : R => (Uyy x y + (-1) * Uxx x y + 2 * Vxy x y)%R).
  assert (SDU : smooth 5 DU) by (now apply smooth_plus). assert (SDV : smooth 5 DV) by (now apply smooth_plus).
  assert (Sg : smooth 5 g).
  { apply (smooth_plus 5 (fun x y => (Uyy x y + (-1) * Uxx x y)%R)); [apply smooth_plus; [exact SUyy|now apply smooth_scal]|now apply smooth_scal]. }
  destruct (C62_viscous_term_limit_proof U V Ux Uy Vx Vy Uxx Uyy Vxx Vxy Vyy) as (C1 & B1 & _); try assumption; try (now apply (smooth_le 7); [lia|]).
  assert (HC1 : (0 <= C1)%R).
  { specialize (B1 1%R 0 0%R 0%R ltac:(lra) ltac:(lia)). pose proof (Rabs_pos (Vl 1 (nvec U V) 0 0 0 - (cq 0 * (Uxx 0%R 0%R + Uyy 0%R 0%R) + sq 0 * (Vxx 0%R 0%R + Vyy 0%R 0%R) - (if 0 =? 1 then -1 else 1) / 4 * (Uyy 0%R 0%R - Uxx 0%R 0%R + 2 * Vxy 0%R 0%R)))) as Q.
    cbv beta in *. lra. }
  (* the Laplacian of the Laplacian *)
  assert (BD : exists K, (0 <= K)%R /\ forall d q x y, (0 < d <= 1)%R -> 0 <= q < 3 -> (Rabs (Vl d (nvec DU DV) q x y) <= K)%R).
  { pose proof SDU as (_ & Dx & Dy & HDx & HDy & SDx & SDy). pose proof SDV as (_ & Ex & Ey & HEx & HEy & SEx & SEy).
    pose proof SDx as (_ & Dxx & Dxy & HDxx & HDxy & SDxx & SDxy). pose proof SDy as (_ & Dyx & Dyy & HDyx & HDyy & SDyx & SDyy).
    pose proof SEx as (_ & Exx & Exy & HExx & HExy & SExx & SExy). pose proof SEy as (_ & Eyx & Eyy & HEyx & HEyy & SEyx & SEyy).
    destruct (C62_viscous_term_limit_proof DU DV Dx Dy Ex Ey Dxx Dyy Exx Exy Eyy SDU SDV) as (C2 & B2 & _); try assumption.
    destruct (smooth_bounded _ _ SDxx) as (M1 & b1), (smooth_bounded _ _ SDyy) as (M2 & b2), (smooth_bounded _ _ SExx) as (M3 & b3), (smooth_bounded _ _ SEyy) as (M4 & b4), (smooth_bounded _ _ SExy) as (M5 & b5).
    assert (K1 : (Rabs C2 + 2 * M1 + 2 * M2 + M3 + M4 + M5 >= 0)%R).
    { pose proof (Rabs_pos C2). pose proof (Rle_trans _ _ _ (Rabs_pos _) (b1 0%R 0%R)). pose proof (Rle_trans _ _ _ (Rabs_pos _) (b2 0%R 0%R)).
      pose proof (Rle_trans _ _ _ (Rabs_pos _) (b3 0%R 0%R)). pose proof (Rle_trans _ _ _ (Rabs_pos _) (b4 0%R 0%R)). pose proof (Rle_trans _ _ _ (Rabs_pos _) (b5 0%R 0%R)). lra. }
    exists (Rabs C2 + 2 * M1 + 2 * M2 + M3 + M4 + M5)%R. split; [lra|].
    intros d q x y Hd Hq. specialize (B2 d q x y ltac:(lra) Hq).
    specialize (b1 x y). specialize (b2 x y). specialize (b3 x y). specialize (b4 x y). specialize (b5 x y).
    apply Rabs_le_inv in b1, b2, b3, b4, b5, B2.
    assert (Q : (C2 * d ^ 2 <= Rabs C2)%R).
    { apply Rle_trans with (Rabs C2 * 1)%R; [|lra]. apply Rle_trans with (Rabs C2 * d ^ 2)%R.
      - apply Rmult_le_compat_r; [apply pow2_ge_0|apply Rle_abs].
      - apply Rmult_le_compat_l; [apply Rabs_pos|]. cbn. nra. }
    assert (Q0 : (- Rabs C2 <= - (C2 * d ^ 2))%R) by lra.
    apply Rabs_le.
    assert (Bc : (-1 <= cq q <= 1)%R /\ (-1 <= sq q <= 1)%R).
    { rewrite cq_cos, sq_sin by exact Hq. split; [apply COS_bound|apply SIN_bound]. }
    destruct Bc as [Bc Bs].
    assert (T1 : forall c z M, (-1 <= c <= 1)%R -> (- M <= z <= M)%R -> (- M <= c * z <= M)%R).
    { intros c z M Hc Hz. assert (0 <= M)%R by lra. split; nra. }
    pose proof (T1 _ _ _ Bc b1). pose proof (T1 _ _ _ Bc b2). pose proof (T1 _ _ _ Bs b3). pose proof (T1 _ _ _ Bs b4).
    destruct (q =? 1); lra. }
  destruct BD as (K & HK & BD).
  pose proof Sg as (_ & gx & gy & Hgx & Hgy & _ & _).
  destruct (alt_Vl g gx gy Hgx Hgy ltac:(now apply (smooth_le 5); [lia|])) as (C3 & HC3 & B3).
  assert (B : forall d q x y, (0 < d <= 1)%R -> 0 <= q < 3 ->
     (Rabs (d ^ 2 * Vl d (Vl d (nvec U V)) q x y - 6 * (if q =? 1 then -1 else 1) * (Uyy x y - Uxx x y + 2 * Vxy x y)) <= (K + C3 + 32 * C1) * d)%R).
  { intros d q x y Hd Hq.
    pose (E := fun q x y => (Vl d (nvec U V) q x y - (nvec DU DV q x y + (- (1 / 4)) * (sgq q * g x y)))%R).
    assert (BE : forall q x y, 0 <= q < 3 -> (Rabs (E q x y) <= C1 * d ^ 2)%R).
    { intros p a b Hp. specialize (B1 d p a b ltac:(lra) Hp). unfold E, nvec, DU, DV, g.
      replace (if p =? 1 then -1 else 1)%R with (sgq p) in B1 by (unfold sgq, pv1, sg; destruct (p =? 1); reflexivity).
      match goal with |- (Rabs ?z <= _)%R => replace z with (Vl d (nvec U V) p a b - (cq p * (Uxx a b + Uyy a b) + sq p * (Vxx a b + Vyy a b) - sgq p / 4 * (Uyy a b - Uxx a b + 2 * Vxy a b)))%R by (unfold nvec; field) end. exact B1. }
    assert (EV : Vl d (Vl d (nvec U V)) q x y = (Vl d (nvec DU DV) q x y + (- (1 / 4)) * Vl d (fun q x y => (sgq q * g x y)%R) q x y + Vl d E q x y)%R).
    { rewrite <- Vl_scal, <- !Vl_plus by lra. apply Vl_ext. intros p a b _. unfold E. ring. }
    pose proof (Vl_bound d E (C1 * d ^ 2) q x y ltac:(lra) BE) as b1. pose proof (BD d q x y Hd Hq) as b2. pose proof (B3 d q x y ltac:(lra) Hq) as b3.
    replace (32 * (C1 * d ^ 2) / (d * d))%R with (32 * C1)%R in b1 by (field; lra).
    rewrite EV. replace (if q =? 1 then -1 else 1)%R with (sgq q) by (unfold sgq, pv1, sg; destruct (q =? 1); reflexivity).
    replace (Uyy x y - Uxx x y + 2 * Vxy x y)%R with (g x y) by (unfold g; ring).
    set (v1 := Vl d (nvec DU DV) q x y) in *. set (v2 := Vl d (fun q x y => (sgq q * g x y)%R) q x y) in *. set (v3 := Vl d E q x y) in *.
    replace (d ^ 2 * (v1 + - (1 / 4) * v2 + v3) - 6 * sgq q * g x y)%R with (d ^ 2 * v1 + - (d ^ 2 / 4) * (v2 + 24 / (d * d) * (sgq q * g x y)) + d ^ 2 * v3)%R by (field; lra).
    set (v4 := (v2 + 24 / (d * d) * (sgq q * g x y))%R) in *.
    assert (D2 : (0 <= d ^ 2 <= d)%R) by (cbn; nra).
    assert (A1 : (Rabs (d ^ 2 * v1) <= d * K)%R).
    { rewrite Rabs_mult, (Rabs_pos_eq (d ^ 2)) by lra. apply Rmult_le_compat; try lra. apply Rabs_pos. }
    assert (A3 : (Rabs (d ^ 2 * v3) <= d * (32 * C1))%R).
    { rewrite Rabs_mult, (Rabs_pos_eq (d ^ 2)) by lra. apply Rmult_le_compat; try lra. apply Rabs_pos. }
    assert (A2 : (Rabs (- (d ^ 2 / 4) * v4) <= d * C3)%R).
    { rewrite Rabs_mult, Rabs_Ropp, (Rabs_pos_eq (d ^ 2 / 4)) by lra. apply Rle_trans with (d ^ 2 / 4 * (C3 / d))%R.
      - apply Rmult_le_compat_l; [lra|exact b3].
      - replace (d ^ 2 / 4 * (C3 / d))%R with (d * (C3 / 4))%R by (field; lra). apply Rmult_le_compat_l; lra. }
    eapply Rle_trans; [apply Rabs_triang|]. eapply Rle_trans; [apply Rplus_le_compat_r, Rabs_triang|]. lra. }
  exists (K + C3 + 32 * C1)%R. split; [exact B|].
  intros cf h Hok HX Hev Hdc HpU HpV. apply ctor_always; [exact Hok|]. intros m Hm. cbv zeta. intros e He.
  pose proof (smp_edges cf h 0 m Hm Hev U V _ (fun e _ => eq_refl)) as S.
  pose proof (smp_vlap cf h 0 Hok (proj1 Hdc) m Hm Hev HX (nvec U V) _ (per_nvec _ _ _ _ HpU HpV) S) as S2.
  pose proof (smp_vlap cf h 0 Hok (proj1 Hdc) m Hm Hev HX (Vl (dc h) (nvec U V)) _ (fun q => per_Vl _ _ _ _ q (per_nvec _ _ _ _ HpU HpV)) S2 e He) as E.
  rewrite (hm_xe _ _ _ Hm), (hm_ye _ _ _ Hm) by lia.
  cbv beta in E. rewrite E. apply B; [exact Hdc|apply q3].
Qed.

Lemma C65_hyperviscosity_consistent_refuted_proof :
  forall (S : setup RA), setup_ok S -> forall (h := mesh_of_setup S), (0 < (dc h : R))%R -> 20 <= nx h -> Z.even (ny h) = true ->
  disable_vn (par_of S) = false -> (0 < (visc_del4 (par_of S) : R))%R ->
  let k := (2 * PI / period_x h)%R in
  exists lam : R, (IZR (nx h) ^ 2 / 12 <= lam)%R /\
  forall t s time md (m : mem RA), s <> t -> ready S m ->
  (forall e j, 0 <= e < d_nedges (sdims S) -> 0 <= j < d_nlayers (sdims S) -> mr m (VnEdge s) [e; j] = (cos (mr m AngleEdge [e]) * cos (k * mr m XEdge [e]))%R) ->
  forall m1 m0 : mem RA,
  exec (sdims S) (compute_tendency S t s time md) m (OK m1) ->
  exec (sdims S) (compute_tendency (set_visc_del4 S (IZR 0)) t s time md) m (OK m0) ->
  forall e j, 0 <= e < d_nedges (sdims S) -> 0 <= j < d_nlayers (sdims S) -> mr m AngleEdge [e] = 0%R ->
    (mr m1 (VnEdge t) [e; j] - mr m0 (VnEdge t) [e; j] = lam * (- visc_del4 (par_of S) * k ^ 4 * cos (k * mr m XEdge [e])))%R.
Proof.
  intros S Hok h Hdc HX Hev Hdv Hnu k.
  assert (HN : (20 <= IZR (nx h))%R) by (now apply IZR_le).
  assert (Epx : (period_x h : R) = (IZR (nx h) * dc h)%R) by reflexivity.
  assert (Hpx : (0 < (period_x h : R))%R) by (rewrite Epx; apply Rmult_lt_0_compat; lra).
  pose proof PI_RGT_0 as HP. pose proof PI_4 as HP4.
  assert (Hk : (0 < k)%R) by (apply Rdiv_lt_0_compat; lra).
  set (t0 := (k * dc h)%R).
  assert (Et : t0 = (2 * PI / IZR (nx h))%R) by (unfold t0, k; rewrite Epx; field; lra).
  assert (Ht : (0 < t0)%R) by (now apply Rmult_lt_0_compat).
  assert (Ht1 : (t0 <= 2 / 5)%R).
  { rewrite Et. apply (Rmult_le_reg_r (IZR (nx h))); [lra|]. unfold Rdiv at 1. rewrite Rmult_assoc, Rinv_l by lra. lra. }
  pose proof (far_too_large t0 Ht Ht1) as L.
  set (z := (64 / 9 * sin (t0 / 2) * (sin (t0 / 2) * sin (t0 / 2) + 2 * (sin (t0 / 4) * sin (t0 / 4))) * (sin (t0 / 2) + sin (t0 / 4))
   + 64 * (1 + 2 * (cos (t0 / 4) * cos (t0 / 4))) * (1 - cos (t0 / 4)))%R) in *.
  assert (Ht4 : (0 < t0 ^ 4)%R) by (now apply pow_lt).
  exists (z / t0 ^ 4)%R. split.
  { apply Rle_trans with (16 / 3 * (t0 * t0) / t0 ^ 4)%R.
    - replace (16 / 3 * (t0 * t0) / t0 ^ 4)%R with (16 / 3 / (t0 * t0))%R by (field; lra).
      rewrite Et. replace (16 / 3 / (2 * PI / IZR (nx h) * (2 * PI / IZR (nx h))))%R with (IZR (nx h) ^ 2 * (4 / 3 / (PI * PI)))%R by (field; lra).
      unfold Rdiv at 1. apply Rmult_le_compat_l; [apply pow2_ge_0|].
      apply (Rmult_le_reg_r (PI * PI)); [now apply Rmult_lt_0_compat|]. replace (4 / 3 / (PI * PI) * (PI * PI))%R with (4 / 3)%R by (field; lra). nra.
    - apply Rmult_le_compat_r; [left; now apply Rinv_0_lt_compat|exact L]. }
  intros t s time md m Hst Hr Hu m1 m0 X1 X0 e j He Hj Ha.
  pose proof (ready_hex S Hok m Hr) as Hm. pose proof (proj1 Hok) as HM. fold h in Hm.
  assert (Hp : periodic (period_x h) (period_y h) (fun x _ => cos (k * x))).
  { intros x y. split; [|reflexivity]. replace (k * (x + period_x h))%R with (k * x + IZR 1 * (2 * PI))%R; [apply cos_Z|].
    unfold k. apply Rminus_diag_uniq. cbn [F RA] in *. field. lra. }
  pose proof (hyper_point S Hok Hdc t s time md m m1 m0 Hst Hr X1 X0 j e Hj He) as D. cbv zeta in D. rewrite D. clear D X1 X0.
  assert (En : vel_hyperdiff_enabled (par_of S) = true).
  { unfold vel_hyperdiff_enabled. cbn [flt fofZ RA]. destruct (Rlt_dec 0 (visc_del4 (par_of S))); [reflexivity|contradiction]. }
  rewrite Hdv, En.
  pose (W := nvec (fun x _ => cos (k * x)) (fun _ _ => 0%R)).
  pose proof (per_nvec _ _ _ _ Hp (per_c _ _ 0%R)) as PW. fold W in PW.
  assert (H2 : 2 <= nx h) by lia.
  assert (SW : forall i, 0 <= i < d_nlayers (sdims S) -> smpE h (Vl (dc h) W) (vlap m (fun e => mr m (VnEdge s) [e; i]))).
  { intros i Hi. apply (smp_vlap (cfg_of S) h _ HM Hdc m Hm Hev H2 W _ PW).
    apply (smp_edges (cfg_of S) h _ m Hm Hev). intros e' He'. rewrite Hu; [|exact He'|exact Hi]. apply Rminus_diag_uniq. cbn [F RA]. ring. }
  assert (PW2 : forall q, periodic (period_x h) (period_y h) (Vl (dc h) W q)) by (intros; now apply per_Vl).
  pose proof (rv_range S (ok_wfd S Hok) j Hj) as Hj'.
  assert (E : vlap' m (vlap m (fun e => mr m (VnEdge s) [e; j])) (vlap m (fun e => mr m (VnEdge s) [e; rv_layer (cfg_of S) j])) e = Vl (dc h) (Vl (dc h) W) (e mod 3) (hxe h e) (hye h e)).
  { unfold vlap'. unfold Vl at 1.
    rewrite (smp_grad (cfg_of S) h _ HM m Hm Hev _ _ (per_Ou _ _ _ _ PW2) (smp_outflow (cfg_of S) h _ HM Hdc m Hm Hev H2 _ _ PW2 (SW _ Hj)) e He).
    rewrite (smp_rgrad (cfg_of S) h _ HM m Hm Hev _ _ (fun p => per_Vo _ _ _ _ p PW2) (smp_vort (cfg_of S) h _ HM Hdc m Hm Hev _ _ PW2 (SW _ Hj')) e He). reflexivity. }
  match goal with |- context [vlap' m ?a ?b e] => replace (vlap' m a b e) with (Vl (dc h) (Vl (dc h) W) (e mod 3) (hxe h e) (hye h e)) by (symmetry; exact E) end.
  assert (He' : 0 <= e < 3 * (nx h * ny h)) by exact He.
  assert (Eq : e mod 3 = 0).
  { rewrite (hm_ang _ _ _ Hm), hang_R in Ha by lia. pose proof (q3 e). unfold ang in Ha.
    assert (e mod 3 = 0 \/ e mod 3 = 1 \/ e mod 3 = 2) as [Q | [Q | Q]] by lia; [exact Q| |]; rewrite Q in Ha; cbn [Z.eqb Pos.eqb] in Ha; lra. }
  unfold W. rewrite Eq, (aVl2 k (dc h) ltac:(lra)), (hm_xe _ _ _ Hm) by lia.
  change (k * dc h)%R with t0. fold z. unfold t0. apply Rminus_diag_uniq. cbn [F RA] in *. field. split; lra.
Qed.

