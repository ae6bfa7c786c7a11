(** Proofs of the properties of [PropsVort.v]. *)
From Coq Require Import ZArith Reals List Bool Lia Lra.
From Verif Require Import Arith Arrays Prog Conc Launch Mesh AuxVars Tend Model Hex RSum Spec MeshProof MeshMem MeshCalc Over Formulas KernBase Terms KernAux KernTend TendFn StepFn Ready Rel RelRun Relate TendVal StepVal StepRun StepThms RealTend FieldInv ConsBase ConsThms SteadyThms SimdThms Vort.
Import ListNotations.
Open Scope Z_scope.

Section UPV.
Context (S : setup RA) (Hok : setup_ok S) (Hdc : (0 < (dc (mesh_of_setup S) : R))%R) (m : mem RA) (Hr : ready S m).
Context (N1 : 2 <= nx (mesh_of_setup S)) (N2 : 2 <= ny (mesh_of_setup S)) (Ev : Z.even (ny (mesh_of_setup S)) = true).
Context (Hf : hook S = None).
Local Notation P := (par_of S).
Local Notation NC := (nx (mesh_of_setup S) * ny (mesh_of_setup S)).
Local Notation NL := (d_nlayers (sdims S)).
Definition upv (Q : Z -> R) (y : fields RA) : Prop := forall j v, 0 <= j < NL -> 0 <= v < 2 * NC ->
  (vort m (fun e => fv y e j) v + f0 P = Q j * hvert m (fun c => fh y c j) v)%R.
Definition upv' (Q : Z -> R) (y : fields RA) : Prop := forall j v, 0 <= j < NL -> 0 <= v < 2 * NC ->
  (vort m (fun e => fv y e j) v = Q j * hvert m (fun c => fh y c j) v)%R.
Definition thick (y : fields RA) : Prop := forall j v, 0 <= j < NL -> 0 <= v < 2 * NC -> hvert m (fun c => fh y c j) v <> 0%R.
Lemma upv_add Q b y k : upv Q y -> upv' Q k -> upv Q (fmap2 (A:=RA) (fun u w => (u + b * w)%R) y k).
Proof.
  intros H1 H2 j v Hj Hv. cbn [fmap2 fh fv ft]. specialize (H1 j v Hj Hv). specialize (H2 j v Hj Hv).
  transitivity (vort m (fun e => 1 * fv y e j + b * fv k e j)%R v + f0 P)%R.
  - f_equal. apply (vort_ext S Hok m Hr); [intros; rring|exact Hv].
  - rewrite vort_lin. rewrite (hvert_ext S Hok m Hr _ (fun c => 1 * fh y c j + b * fh k c j)%R) by (try exact Hv; intros; rring).
    rewrite hvert_lin, H2. apply Rminus_diag_uniq. cbn [F RA] in *. lra.
Qed.
Lemma upv'_add Q a y k : upv' Q y -> upv' Q k -> upv' Q (fmap2 (A:=RA) (fun u w => (a * u + w)%R) y k).
Proof.
  intros H1 H2 j v Hj Hv. cbn [fmap2 fh fv ft]. specialize (H1 j v Hj Hv). specialize (H2 j v Hj Hv).
  transitivity (vort m (fun e => a * fv y e j + 1 * fv k e j)%R v).
  - apply (vort_ext S Hok m Hr); [intros; rring|exact Hv].
  - rewrite vort_lin. rewrite (hvert_ext S Hok m Hr _ (fun c => a * fh y c j + 1 * fh k c j)%R) by (try exact Hv; intros; rring).
    rewrite hvert_lin, H1, H2. apply Rminus_diag_uniq. cbn [F RA] in *. ring.
Qed.
Lemma upv_tend Q (time : R) y k : disable_h P = false -> disable_vn P = false -> ((visc_del2 P : R) <= 0)%R -> ((visc_del4 P : R) <= 0)%R ->
  upv Q y -> thick y -> tendency_of S time y k -> upv' Q k.
Proof.
  intros Dh Dv V2 V4 U T K j v Hj Hv. destruct (tend_of S Hok Hdc m Hr time y k K j Hj) as (E1 & E2 & _).
  rewrite Dh in E1. rewrite Dv in E2. unfold hk_h, hook_h in E1. unfold hk_v, hook_v in E2. rewrite Hf in E1, E2.
  pose proof (ymem_ready S m Hr y) as Ry.
  rewrite (vort_ext S Hok m Hr _ (vtend S (ymem m y) St j) v E2 Hv).
  pose proof (vort_vtend S Hok Hdc (ymem m y) Ry N1 Ev St j v Hv) as W. cbv zeta in W.
  unfold vel_diff_enabled, vel_hyperdiff_enabled in W. rewrite !disabled_le in W by assumption.
  change (vort m (vtend S (ymem m y) St j) v) with (vort (ymem m y) (vtend S (ymem m y) St j) v). rewrite W. clear W.
  rewrite (vort_pv S Hok Hdc (ymem m y) Ry N1 N2 Ev (Q j)); [| |exact Hv].
  - change (hvert (ymem m y)) with (hvert m). rewrite (hvert_ext S Hok m Hr (fun c => fh k c j) (fun c => - outflow (ymem m y) (fun e => emean (ymem m y) (fun c => mr (ymem m y) (HCell St) [c; j]) e * mr (ymem m y) (VnEdge St) [e; j])%R c)%R v); [rring| |exact Hv].
    intros c Hc. rewrite E1 by exact Hc. reflexivity.
  - intros w Hw. unfold pvort. change (vort (ymem m y)) with (vort m). change (hvert (ymem m y)) with (hvert m).
    change (fun e => mr (ymem m y) (VnEdge St) [e; j]) with (fun e => fv y e j). change (fun c => mr (ymem m y) (HCell St) [c; j]) with (fun c => fh y c j).
    rewrite (U j w Hj Hw). pose proof (T j w Hj Hw). apply Rminus_diag_uniq. cbn [F RA] in *. field. assumption.
Qed.
(** Absolute vorticity zero: the thickness plays no part and the viscous terms vanish. *)
Definition irr (y : fields RA) : Prop := forall j v, 0 <= j < NL -> 0 <= v < 2 * NC -> (vort m (fun e => fv y e j) v = - f0 P)%R.
Definition irr' (y : fields RA) : Prop := forall j v, 0 <= j < NL -> 0 <= v < 2 * NC -> vort m (fun e => fv y e j) v = 0%R.
Lemma irr_tend (time : R) y k : irr y -> tendency_of S time y k -> irr' k.
Proof.
  intros U K j v Hj Hv. destruct (tend_of S Hok Hdc m Hr time y k K j Hj) as (_ & E2 & _).
  unfold hk_v, hook_v in E2. rewrite Hf in E2.
  pose proof (ymem_ready S m Hr y) as Ry.
  rewrite (vort_ext S Hok m Hr _ _ v E2 Hv). destruct (disable_vn P).
  { unfold vort, circ. rewrite rsum_small3. cbv zeta. unfold Rdiv. ring. }
  pose proof (vort_vtend S Hok Hdc (ymem m y) Ry N1 Ev St j v Hv) as W. cbv zeta in W.
  change (vort (ymem m y) (vtend S (ymem m y) St j) v = 0%R). rewrite W. clear W.
  pose proof (rv_range S (ok_wfd S Hok) j Hj) as Hj'.
  assert (V0 : forall i, 0 <= i < NL -> forall w, 0 <= w < 2 * NC -> vort (ymem m y) (vlap (ymem m y) (fun e => fv y e i)) w = 0%R).
  { intros i Hi w Hw. refine (vort_vlap' S Hok Hdc (ymem m y) Ry N1 Ev (fun e => fv y e i) (fun e => fv y e i) w _ Hw).
    intros a b Ha Hb. change (vort m (fun e => fv y e i) a = vort m (fun e => fv y e i) b). now rewrite !U. }
  pose proof (V0 j Hj v Hv) as W2.
  assert (W4 : vort (ymem m y) (vlap' (ymem m y) (vlap (ymem m y) (fun e => fv y e j)) (vlap (ymem m y) (fun e => fv y e (rv_layer (cfg_of S) j)))) v = 0%R).
  { apply (vort_vlap' S Hok Hdc (ymem m y) Ry N1 Ev); [|exact Hv]. intros a b Ha Hb. now rewrite !(V0 _ Hj'). }
  change (fun e => mr (ymem m y) (VnEdge St) [e; j]) with (fun e => fv y e j). change (fun e => mr (ymem m y) (VnEdge St) [e; rv_layer (cfg_of S) j]) with (fun e => fv y e (rv_layer (cfg_of S) j)).
  change (F RA) with R in *. rewrite W2, W4.
  rewrite (vort_pv S Hok Hdc (ymem m y) Ry N1 N2 Ev 0%R); [destruct (vel_diff_enabled P), (vel_hyperdiff_enabled P); rring| |exact Hv].
  intros w Hw. unfold pvort. change (vort (ymem m y)) with (vort m).
  change (fun e => mr (ymem m y) (VnEdge St) [e; j]) with (fun e => fv y e j). rewrite (U j w Hj Hw). unfold Rdiv. rring.
Qed.
End UPV.

Lemma C66_vorticity_equation_proof :
  forall (S : setup RA), setup_ok S -> (0 < (dc (mesh_of_setup S) : R))%R ->
  2 <= nx (mesh_of_setup S) -> 2 <= ny (mesh_of_setup S) -> Z.even (ny (mesh_of_setup S)) = true -> hook S = None ->
  disable_vn (par_of S) = false -> ((visc_del2 (par_of S) : R) <= 0)%R -> ((visc_del4 (par_of S) : R) <= 0)%R ->
  forall (t s : sid) (time : R) (m : mem RA), s <> t -> ready S m ->
  always (sdims S) (compute_tendency S t s time Replace) m (fun m' =>
    forall k v, 0 <= k < d_nlayers (sdims S) -> 0 <= v < d_nvertices (sdims S) ->
    vort m (fun e => mr m' (VnEdge t) [e; k]) v =
    vort m (pvflux m (f0 (par_of S)) (fun c => mr m (HCell s) [c; k]) (fun e => mr m (VnEdge s) [e; k])) v).
Proof.
  intros S Hok Hdc N1 N2 Ev Hf Dv V2 V4 t s time m Hs Hr.
  eapply always_fn; [apply rd_tendency; assumption|]. intros M [_ E] k v Hk Hv.
  rewrite (vort_ext S Hok m Hr _ (vtend S m s k) v); [| |exact Hv].
  - rewrite (vort_vtend S Hok Hdc m Hr N1 Ev s k v Hv). unfold vel_diff_enabled, vel_hyperdiff_enabled. rewrite !disabled_le by assumption. rring.
  - intros e He. rewrite E, (T_v S Hok Hdc m Hr) by assumption. unfold hk_v, hook_v. rewrite Hf, Dv. unfold zr. cbn [is_replace fofZ RA]. rring.
Qed.

Lemma C66_uniform_potential_vorticity_tendency_proof :
  forall (S : setup RA), setup_ok S -> (0 < (dc (mesh_of_setup S) : R))%R ->
  2 <= nx (mesh_of_setup S) -> 2 <= ny (mesh_of_setup S) -> Z.even (ny (mesh_of_setup S)) = true -> hook S = None ->
  disable_h (par_of S) = false -> disable_vn (par_of S) = false -> ((visc_del2 (par_of S) : R) <= 0)%R -> ((visc_del4 (par_of S) : R) <= 0)%R ->
  forall (t s : sid) (time : R) (m : mem RA) (Q : R) k, s <> t -> ready S m -> 0 <= k < d_nlayers (sdims S) ->
  (forall v, 0 <= v < d_nvertices (sdims S) ->
     pvort m (f0 (par_of S)) (fun c => mr m (HCell s) [c; k]) (fun e => mr m (VnEdge s) [e; k]) v = Q) ->
  always (sdims S) (compute_tendency S t s time Replace) m (fun m' =>
    forall v, 0 <= v < d_nvertices (sdims S) ->
    vort m (fun e => mr m' (VnEdge t) [e; k]) v = (Q * hvert m (fun c => mr m' (HCell t) [c; k]) v)%R).
Proof.
  intros S Hok Hdc N1 N2 Ev Hf Dh Dv V2 V4 t s time m Q k Hs Hr Hk HQ.
  eapply always_fn; [apply rd_tendency; assumption|]. intros M [_ E] v Hv.
  rewrite (vort_ext S Hok m Hr _ (vtend S m s k) v); [| |exact Hv].
  - rewrite (vort_vtend S Hok Hdc m Hr N1 Ev s k v Hv). unfold vel_diff_enabled, vel_hyperdiff_enabled. rewrite !disabled_le by assumption.
    rewrite (vort_pv S Hok Hdc m Hr N1 N2 Ev Q _ _ _ v HQ Hv).
    rewrite (hvert_ext S Hok m Hr (fun c => mr M (HCell t) [c; k]) (fun c => - outflow m (fun e => emean m (fun c => mr m (HCell s) [c; k]) e * mr m (VnEdge s) [e; k])%R c)%R v); [rring| |exact Hv].
    intros c Hc. rewrite E, (T_h S Hok m Hr) by assumption. unfold hk_h, hook_h. rewrite Hf, Dh. unfold zr. cbn [is_replace fofZ RA]. rring.
  - intros e He. rewrite E, (T_v S Hok Hdc m Hr) by assumption. unfold hk_v, hook_v. rewrite Hf, Dv. unfold zr. cbn [is_replace fofZ RA]. rring.
Qed.

Lemma C66_irrotational_stays_irrotational_proof :
  forall (S : setup RA), setup_ok S -> (0 < (dc (mesh_of_setup S) : R))%R ->
  2 <= nx (mesh_of_setup S) -> 2 <= ny (mesh_of_setup S) -> Z.even (ny (mesh_of_setup S)) = true -> hook S = None ->
  f0 (par_of S) = 0%R ->
  forall (m : mem RA), ready S m -> disabled_zero S Tend m ->
  let irrotational (m' : mem RA) := forall k v, 0 <= k < d_nlayers (sdims S) -> 0 <= v < d_nvertices (sdims S) ->
    vort m (fun e => mr m' (VnEdge St) [e; k]) v = 0%R in
  irrotational m ->
  forall steps : list (R * R), always (sdims S) (rk4_run S steps) m irrotational /\ forall n, always (sdims S) (lsrk_run S n steps) m irrotational.
Proof.
  intros S Hok Hdc N1 N2 Ev Hf F0 m Hr Hz irrotational Hi0 steps.
  assert (Hi : irr S m (fld St m)) by (intros j v Hj Hv; rewrite F0, Ropp_0; now apply Hi0).
  assert (HL : forall b y k, irr S m y -> irr' S m k -> irr S m (fmap2 (A:=RA) (fun u w => (u + b * w)%R) y k)).
  { intros b y k H1 H2 j v Hj Hv. cbn [fmap2 fv]. rewrite (vort_ext S Hok m Hr _ (fun e => 1 * fv y e j + b * fv k e j)%R v) by (try exact Hv; intros; rring).
    rewrite vort_lin, (H1 j v Hj Hv), (H2 j v Hj Hv). rring. }
  assert (HA : forall a q k, irr' S m q -> irr' S m k -> irr' S m (fmap2 (A:=RA) (fun u w => (a * u + w)%R) q k)).
  { intros a y k H1 H2 j v Hj Hv. cbn [fmap2 fv]. rewrite (vort_ext S Hok m Hr _ (fun e => a * fv y e j + 1 * fv k e j)%R v) by (try exact Hv; intros; rring).
    rewrite vort_lin, (H1 j v Hj Hv), (H2 j v Hj Hv). rring. }
  assert (U : forall M N y, meq M N -> holds S St N y -> irr S m y -> irrotational M).
  { intros M N y [_ E] Hy Ly j v Hj Hv. transitivity (- f0 (par_of S))%R; [|rewrite F0; apply Ropp_0]. rewrite <- (Ly j v Hj Hv). apply (vort_ext S Hok m Hr); [|exact Hv].
    intros e He. rewrite E. now apply (Hy j Hj). }
  split; [|intros n].
  - eapply always_fn; [apply rd_rk4_run; auto|]. intros M E.
    destruct (closed_rk4 S Hok (irr S m) (irr' S m) (irr_tend S Hok Hdc m Hr N1 N2 Ev Hf) HL steps m (fld St m)) as (y & Hy & Ly); auto using holds_fld; [intros _; exact Hf|].
    eapply U; eauto.
  - eapply always_fn; [apply rd_lsrk_run; auto|]. intros M E.
    destruct (closed_lsrk S Hok (irr S m) (irr' S m) (irr_tend S Hok Hdc m Hr N1 N2 Ev Hf) HL HA n steps m (fld St m)) as (y & Hy & Ly); auto using holds_fld.
    eapply U; eauto.
Qed.

Lemma C66_uniform_potential_vorticity_rk4_step_proof :
  forall (S : setup RA), setup_ok S -> (0 < (dc (mesh_of_setup S) : R))%R ->
  2 <= nx (mesh_of_setup S) -> 2 <= ny (mesh_of_setup S) -> Z.even (ny (mesh_of_setup S)) = true -> hook S = None ->
  disable_h (par_of S) = false -> disable_vn (par_of S) = false -> ((visc_del2 (par_of S) : R) <= 0)%R -> ((visc_del4 (par_of S) : R) <= 0)%R ->
  forall (Q : Z -> R) (t dt : R) (m : mem RA) (y k1 k2 k3 k4 : fields RA), ready S m -> holds S St m y ->
  let add (b : R) (x k : fields RA) := fmap2 (A:=RA) (fun u w => u + b * w)%R x k in
  let nonzero (y : fields RA) := forall j v, 0 <= j < d_nlayers (sdims S) -> 0 <= v < d_nvertices (sdims S) -> hvert m (fun c => fh y c j) v <> 0%R in
  tendency_of S t y k1 -> nonzero y ->
  tendency_of S (t + dt / 2)%R (add (dt / 2)%R y k1) k2 -> nonzero (add (dt / 2)%R y k1) ->
  tendency_of S (t + dt / 2)%R (add (dt / 2)%R y k2) k3 -> nonzero (add (dt / 2)%R y k2) ->
  tendency_of S (t + dt)%R (add dt y k3) k4 -> nonzero (add dt y k3) ->
  let uniform (m' : mem RA) := forall k v, 0 <= k < d_nlayers (sdims S) -> 0 <= v < d_nvertices (sdims S) ->
    (vort m (fun e => mr m' (VnEdge St) [e; k]) v + f0 (par_of S) = Q k * hvert m (fun c => mr m' (HCell St) [c; k]) v)%R in
  uniform m -> always (sdims S) (rk4_step S t dt) m uniform.
Proof.
  intros S Hok Hdc N1 N2 Ev Hf Dh Dv V2 V4 Q t dt m y k1 k2 k3 k4 Hr Hy add nonzero T1 Z1 T2 Z2 T3 Z3 T4 Z4 uniform HU.
  assert (Uy : upv S m Q y).
  { intros j v Hj Hv. destruct (Hy j Hj) as (E1 & E2 & _). rewrite <- (vort_ext S Hok m Hr (fun e => mr m (VnEdge St) [e; j])), <- (hvert_ext S Hok m Hr (fun c => mr m (HCell St) [c; j])) by (assumption || exact Hv).
    now apply HU. }
  assert (Ad : forall b z k, upv S m Q z -> upv' S m Q k -> upv S m Q (add b z k)) by (intros; now apply upv_add).
  pose proof (fun time y k => upv_tend S Hok Hdc m Hr N1 N2 Ev Hf Q time y k Dh Dv V2 V4) as UT.
  assert (K1 : upv' S m Q k1) by (eapply UT; eauto). assert (K2 : upv' S m Q k2) by (eapply UT; [|exact Z2|exact T2]; auto).
  assert (K3 : upv' S m Q k3) by (eapply UT; [|exact Z3|exact T3]; auto). assert (K4 : upv' S m Q k4) by (eapply UT; [|exact Z4|exact T4]; auto).
  assert (Hz : disabled_zero S Tend m) by (intros k Hk; rewrite Dh, Dv; split; discriminate).
  assert (Hu : disable_h (par_of S) = true \/ disable_vn (par_of S) = true -> hook S = None) by (intros _; exact Hf).
  pose proof (C39_rk4_is_classical_proof S Hok Hu t dt m y k1 k2 k3 k4 Hr Hy Hz T1 T2 T3 T4) as [C X]. split; [|exact X].
  intros o Ho. destruct (C o Ho) as (M & EM & HM). exists M. split; [exact EM|]. intros j v Hj Hv. destruct (HM j Hj) as (E1 & E2 & _). cbn [fh fv ft] in E1, E2.
  pose proof (Ad (dt / 6)%R _ _ (Ad (dt / 3)%R _ _ (Ad (dt / 3)%R _ _ (Ad (dt / 6)%R _ _ Uy K1) K2) K3) K4 j v Hj Hv) as W. unfold add in W. cbn [fmap2 fh fv ft] in W.
  match type of W with (vort m ?f v + _ = _ * hvert m ?g v)%R =>
    rewrite (vort_ext S Hok m Hr (fun e => mr M (VnEdge St) [e; j]) f v), (hvert_ext S Hok m Hr (fun c => mr M (HCell St) [c; j]) g v); [exact W| |exact Hv| |exact Hv] end.
  - intros c Hc. rewrite E1 by exact Hc. apply Rminus_diag_uniq. cbn [F RA]. field.
  - intros e He. rewrite E2 by exact He. apply Rminus_diag_uniq. cbn [F RA]. field.
Qed.

Lemma C66_uniform_potential_vorticity_lsrk_step_proof :
  forall (S : setup RA), setup_ok S -> (0 < (dc (mesh_of_setup S) : R))%R ->
  2 <= nx (mesh_of_setup S) -> 2 <= ny (mesh_of_setup S) -> Z.even (ny (mesh_of_setup S)) = true -> hook S = None ->
  disable_h (par_of S) = false -> disable_vn (par_of S) = false -> ((visc_del2 (par_of S) : R) <= 0)%R -> ((visc_del4 (par_of S) : R) <= 0)%R ->
  forall (q : Z -> R) n (t dt : R) (m : mem RA) (Y Q K : Z -> fields RA), 0 <= n -> ready S m -> holds S St m (Y 0) -> holds S Tend m (Q 0) ->
  (forall i, 0 <= i < n -> tendency_of S (t + lsrk_c (A:=RA) n i * dt)%R (Y i) (K i) /\
     Q (i + 1) = fmap2 (A:=RA) (fun u w => lsrk_a (A:=RA) n i * u + w)%R (Q i) (K i) /\
     Y (i + 1) = fmap2 (A:=RA) (fun u w => u + dt * lsrk_b (A:=RA) n i * w)%R (Y i) (Q (i + 1)) /\
     forall j v, 0 <= j < d_nlayers (sdims S) -> 0 <= v < d_nvertices (sdims S) -> hvert m (fun c => fh (Y i) c j) v <> 0%R) ->
  let uniform (m' : mem RA) := forall k v, 0 <= k < d_nlayers (sdims S) -> 0 <= v < d_nvertices (sdims S) ->
    (vort m (fun e => mr m' (VnEdge St) [e; k]) v + f0 (par_of S) = q k * hvert m (fun c => mr m' (HCell St) [c; k]) v)%R in
  uniform m -> always (sdims S) (lsrk_step S n t dt) m uniform.
Proof.
  intros S Hok Hdc N1 N2 Ev Hf Dh Dv V2 V4 q n t dt m Y Q K Hn Hr HY HQ H uniform HU.
  assert (Uy : upv S m q (Y 0)).
  { intros j v Hj Hv. destruct (HY j Hj) as (E1 & E2 & _). rewrite <- (vort_ext S Hok m Hr (fun e => mr m (VnEdge St) [e; j])), <- (hvert_ext S Hok m Hr (fun c => mr m (HCell St) [c; j])) by (assumption || exact Hv).
    now apply HU. }
  assert (G : forall j, 0 <= j -> j <= n -> upv S m q (Y j) /\ (1 <= j -> upv' S m q (Q j))).
  { apply (natlike_ind (fun j => j <= n -> upv S m q (Y j) /\ (1 <= j -> upv' S m q (Q j)))).
    - intros _. split; [exact Uy|lia].
    - intros j Hj IHj Hjn. destruct (IHj ltac:(lia)) as [L1 K1]. destruct (H j ltac:(lia)) as (Tj & Qj & Yj & Zj).
      rewrite <- Z.add_1_r.
      pose proof (upv_tend S Hok Hdc m Hr N1 N2 Ev Hf q _ _ _ Dh Dv V2 V4 L1 Zj Tj) as Kj.
      assert (KQ : upv' S m q (Q (j + 1))).
      { assert (C' : j = 0 \/ 1 <= j) by lia. destruct C' as [->|C'].
        - rewrite Qj, lsrk_a0. replace (fmap2 (A:=RA) _ _ _) with (K 0); [exact Kj|].
          apply feq; intros; cbn [fmap2 fh fv ft]; rring.
        - rewrite Qj. apply upv'_add; auto. }
      split; [|auto]. rewrite Yj. now apply upv_add. }
  eapply always_fn; [apply rd_lsrk; auto|]. intros M [_ E] j v Hj Hv.
  destruct (lsrk_holds S Hok n t dt m Y Q K Hn Hr HY HQ) as (_ & HM & _).
  { intros i Hi. destruct (H i Hi) as (a & b & c & _). auto. }
  destruct (HM j Hj) as (E1 & E2 & _).
  rewrite (vort_ext S Hok m Hr (fun e => mr M (VnEdge St) [e; j]) (fun e => fv (Y n) e j)), (hvert_ext S Hok m Hr (fun c => mr M (HCell St) [c; j]) (fun c => fh (Y n) c j)); [| |exact Hv| |exact Hv].
  - apply (proj1 (G n Hn ltac:(lia))); assumption.
  - intros c Hc. rewrite E. now apply E1.
  - intros e He. rewrite E. now apply E2.
Qed.

