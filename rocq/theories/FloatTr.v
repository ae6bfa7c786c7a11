(** Uniform tracers over a fluid at rest in binary64. *)
From Coq Require Import ZArith Reals List Bool Lia Lra.
From Coq Require Import Floats.SpecFloat.
From Flocq Require Import Core.Core.
From Verif Require Import Arith Arrays Prog Conc Launch Mesh AuxVars Tend Model Hex MeshProof MeshMem Over Formulas KernBase Terms KernAux KernTend TendFn StepFn Ready Rel RelRun Relate TendVal StepVal StepRun RSum FloatFacts FloatMass FloatRun FloatRest.
Import ListNotations.
Open Scope Z_scope.

(** The same number: the same bits, or two zeros. *)
Definition eqz (x y : spec_float) : Prop := x = y \/ zero x /\ zero y.
Lemma eqz_bd n x y : eqz x y -> bd n y -> bd n x.
Proof. intros [-> |[H _]] B; [exact B|]. now apply zero_bd. Qed.

Section TrRest.
Context (cc ss : spec_float -> spec_float) (pp : spec_float).
Local Notation A := (SFA cc ss pp).
Context (S : setup A) (Hok : setup_ok S).
Local Notation cf := (cfg_of S).
Local Notation P := (par_of S).
Local Notation D := (sdims S).
Local Notation h := (mesh_of_setup S).
Local Notation X := (nx h).
Local Notation Y := (ny h).
Local Notation NC := (X * Y).
Local Notation nl := (d_nlayers D).
Local Notation nt := (ntracers P).
Local Notation aux := (aux_fn cf D).
Implicit Types (m n : mem A).
Context (Hdc : ps (-100) 100 (dc h)) (Hf0 : bd 100 (f0 P)) (Hg : bd 100 (grav P)) (Hn2 : bd 100 (visc_del2 P)) (Hn4 : bd 100 (visc_del4 P)).
Context (Hk2 : bd 100 (eddy_diff2 P)) (Hk4 : bd 100 (eddy_diff4 P)).
Context (Ek : hook S = None).
Context (Hh : Z -> F A) (HHh : forall k, 0 <= k < nl -> ps (-100) 100 (Hh k)).
Context (Th : Z -> Z -> F A) (HTh : forall l k, 0 <= l < nt -> 0 <= k < nl -> bd 100 (Th l k)).
Ltac okk := split; lia.
Local Notation resting := (resting cc ss pp S Hh).
Local Notation zT := (zT cc ss pp S).
Local Notation zTd := (zTd cc ss pp S).
Definition trest (s : sid) n : Prop := forall l k, 0 <= l < nt -> 0 <= k < nl -> forall c, 0 <= c < NC -> eqz (mr n (TrCell s) [l; c; k]) (Th l k).
Definition zTr n : Prop := forall l k, 0 <= l < nt -> 0 <= k < nl -> forall c, 0 <= c < NC -> zero (mr n (TrCell Tend) [l; c; k]).
Local Notation Hw := (ok_wfd S Hok).
Local Lemma XY : 1 <= X /\ 1 <= Y. Proof. destruct Hok as ((Hx & Hy & _) & _). lia. Qed.

Section Zero.
Context (s : sid) (n : mem A) (Hr : ready S n) (HR : resting s n) (HT : trest s n).
Local Notation a := (aux s n).
Local Notation p := (trdel2_fn S (aux s n)).
Local Lemma Ra : ready S a. Proof. eapply ready_cst; [apply cst_aux|exact Hr]. Qed.
Local Lemma Rp : ready S p. Proof. eapply ready_cst; [|exact Ra]. unfold trdel2_fn. destruct (tracer_hyperdiff_enabled P); [now apply cst_upd|apply cst_refl]. Qed.
Local Lemma Ha : hexmem h nl a. Proof. exact (ready_hex S Hok a Ra). Qed.
Local Lemma Hp : hexmem h nl p. Proof. exact (ready_hex S Hok p Rp). Qed.
Lemma trmi b ix : mi p b ix = mi n b ix. Proof. unfold trdel2_fn. destruct (tracer_hyperdiff_enabled P); reflexivity. Qed.
Lemma psx_ihk k : 0 <= k < nl -> ps (-100) 100 (#1 / Hh k)%fp.
Proof. intros Hk. apply (ps_div cc ss pp 0 0 (-100) 100); [apply ps_1|now apply HHh|okk|okk]. Qed.
Lemma q_ntr l c k : 0 <= l < nt -> 0 <= k < nl -> 0 <= c < NC -> eqz (mr a NormTrCell [l; c; k]) (Th l k * (#1 / Hh k))%fp /\ bd 200 (mr a NormTrCell [l; c; k]).
Proof.
  intros Hl Hk Hc.
  assert (E : mr a NormTrCell [l; c; k] = f_ntr n s l c k).
  { apply (av_ntr S Hw s n k Hk l c); [|exact Hc]. now rewrite (d_ntr S). }
  rewrite E. unfold f_ntr. rewrite (proj1 (HR k Hk) c Hc). pose proof (psx_ihk k Hk) as I.
  assert (B : bd 200 (Th l k * (#1 / Hh k))%fp) by (apply (bd_mul cc ss pp 100 100); [now apply HTh|apply (ps_bd _ _ _ I)|okk]).
  destruct (HT l k Hl Hk c Hc) as [-> |[Z1 Z2]]; [split; [now left|exact B]|].
  assert (zero (mr n (TrCell s) [l; c; k] * (#1 / Hh k))%fp) by (apply z_mul_l; [exact Z1|apply (ps_fin _ _ _ I)]).
  split; [right; split; auto; apply z_mul_l; [exact Z2|apply (ps_fin _ _ _ I)]|now apply zero_bd].
Qed.
Lemma z_dntr l c c' k : 0 <= l < nt -> 0 <= k < nl -> 0 <= c < NC -> 0 <= c' < NC -> zero (mr a NormTrCell [l; c; k] - mr a NormTrCell [l; c'; k])%fp.
Proof.
  intros Hl Hk Hc Hc'. destruct (q_ntr l c k Hl Hk Hc) as [E1 B1], (q_ntr l c' k Hl Hk Hc') as [E2 B2].
  destruct E1 as [E1|[Z1 Q1]], E2 as [E2|[Z2 Q2]].
  - rewrite E1, E2 in *. apply z_self. apply (bd_fin _ _ B1).
  - rewrite E1 in *. now apply z_sub.
  - rewrite E2 in *. now apply z_sub.
  - now apply z_sub.
Qed.
Lemma z_grad l e k : 0 <= l < nt -> 0 <= k < nl -> 0 <= e < 3 * NC ->
  zero ((mr a NormTrCell [l; mi n CellsOnEdge [e; 1]; k] - mr a NormTrCell [l; mi n CellsOnEdge [e; 0]; k]) * (#1 / mr a DcEdge [e]))%fp.
Proof.
  intros Hl Hk He. rewrite (hm_dce _ _ _ Ha) by exact He. apply z_mul_l; [|apply (ps_fin _ _ _ (psx_idc cc ss pp S Hdc))].
  apply z_dntr; auto; apply (coe cc ss pp S Hok n); auto; lia.
Qed.
Lemma bd_geo c j e : 0 <= c < NC -> 0 <= e < 3 * NC -> bd 301 (mr a DvEdge [e] * (#1 / mr a AreaCell [c]) * fofZ (hesc h c j))%fp /\
  bd 301 ((#1 / mr a AreaCell [c]) * mr a DvEdge [e])%fp.
Proof.
  intros Hc He. rewrite (hm_dve _ _ _ Ha), (hm_area _ _ _ Ha) by assumption. pose proof (ps_bd _ _ _ (psx_dve cc ss pp S Hdc)) as B1. pose proof (ps_bd _ _ _ (psx_ia cc ss pp S Hdc)) as B2. split.
  - apply (bd_mul cc ss pp 301 0); [|apply bd_sign; unfold hesc; destruct (_ =? _); auto|okk]. apply (bd_mul cc ss pp 100 201); auto. okk.
  - apply (bd_mul cc ss pp 201 100); auto; okk.
Qed.
Lemma za_trdel2 l c k : 0 <= l < nt -> 0 <= k < nl -> 0 <= c < NC -> zero (f_trdel2 a FluxHEdge l c k).
Proof.
  intros Hl Hk Hc. pose proof XY. unfold f_trdel2. rewrite (hm_noc _ _ _ Ha) by exact Hc. apply z_iter; [lia|apply z0|]. intros j y Hj Hy. unfold s_trdel2. cbv zeta.
  rewrite (hm_eoc _ _ _ Ha), (hm_esc _ _ _ Ha) by lia. assert (He : 0 <= hE X Y c j < 3 * NC) by (apply hE_range; lia). rewrite !aux_mi.
  apply z_add; [exact Hy|]. apply z_mul_r; [|now apply z_grad]. rewrite (av_flux S Hw s n k Hk _ He).
  apply (bd_fin 401). apply (bd_mul cc ss pp 301 100); [now apply bd_geo|apply (ps_bd _ _ _ (psx_mean cc ss pp S Hok Hh HHh s n Hr HR k Hk _ He))|okk].
Qed.
Lemma zp_tr md l c k (x : F A) : 0 <= l < nt -> 0 <= k < nl -> 0 <= c < NC -> zero (zr md x) -> zero (g_tr S Tend s md p l c k x).
Proof.
  intros Hl Hk Hc Hx. pose proof XY as HXY. unfold g_tr. cbv zeta. generalize dependent (zr md x). clear x. intros x Hx.
  assert (Ep : forall b ix, b <> TracerDel2Cell -> mr p b ix = mr a b ix) by (intros; now apply trdel2_other).
  assert (M1 : bd 0 (@fofZ A 1)) by apply (ps_bd _ _ _ (ps_1 cc ss pp)).
  assert (C0 : forall j i, 0 <= j < 6 -> 0 <= i < 2 -> 0 <= mi n CellsOnEdge [hE X Y c j; i] < NC) by (intros; apply (coe cc ss pp S Hok n); auto; apply hE_range; lia).
  assert (X1 : zero (t_trhadv p (ksimd cf) MeanHEdge s l c k x)).
  { unfold t_trhadv. apply z_add; [exact Hx|]. rewrite (hm_noc _ _ _ Hp) by exact Hc. apply z_iter; [lia|apply z0|]. intros j y Hj Hy. unfold s_trhadv. cbv zeta.
    rewrite (hm_eoc _ _ _ Hp), (hm_esc _ _ _ Hp) by lia. assert (He : 0 <= hE X Y c j < 3 * NC) by (apply hE_range; lia). rewrite !trmi, !Ep by discriminate.
    apply z_sub; [exact Hy|]. rewrite (aux_other S s n (VnEdge s)) by reflexivity. apply z_mul_r; [|now apply HR].
    rewrite (av_mean S Hw s n k Hk _ He).
    assert (Q : bd 201 (mr a NormTrCell [l; mi n CellsOnEdge [hE X Y c j; 0]; k] + mr a NormTrCell [l; mi n CellsOnEdge [hE X Y c j; 1]; k])%fp).
    { apply (bd_add cc ss pp 200 200); [apply q_ntr; auto; apply C0; lia|apply q_ntr; auto; apply C0; lia|okk]. }
    assert (Q2 : bd 200 (if ksimd cf then fhalf * (mr a NormTrCell [l; mi n CellsOnEdge [hE X Y c j; 0]; k] + mr a NormTrCell [l; mi n CellsOnEdge [hE X Y c j; 1]; k])
       else (mr a NormTrCell [l; mi n CellsOnEdge [hE X Y c j; 0]; k] + mr a NormTrCell [l; mi n CellsOnEdge [hE X Y c j; 1]; k]) * fhalf)%fp).
    { pose proof (ps_bd _ _ _ (ps_half cc ss pp)) as HF. destruct (ksimd cf); [apply (bd_mul cc ss pp (-1) 201)|apply (bd_mul cc ss pp 201 (-1))]; auto; okk. }
    apply (bd_fin 601). apply (bd_mul cc ss pp 401 200); [|exact Q2|okk]. apply (bd_mul cc ss pp 301 100); [now apply bd_geo|apply (ps_bd _ _ _ (psx_mean cc ss pp S Hok Hh HHh s n Hr HR k Hk _ He))|okk]. }
  set (x1 := t_trhadv p (ksimd cf) MeanHEdge s l c k x) in *. clearbody x1. clear x Hx.
  assert (GE : forall (kap : F A) (e : Z) (j : Z), bd 100 kap -> 0 <= e < 3 * NC -> bd 401 (kap * (#1 / mr a AreaCell [c]) * mr a DvEdge [e] * fofZ (hesc h c j))%fp).
  { intros kap e j Hkap He. rewrite (hm_dve _ _ _ Ha), (hm_area _ _ _ Ha) by assumption. pose proof (ps_bd _ _ _ (psx_dve cc ss pp S Hdc)) as B1. pose proof (ps_bd _ _ _ (psx_ia cc ss pp S Hdc)) as B2.
    apply (bd_mul cc ss pp 401 0); [|apply bd_sign; unfold hesc; destruct (_ =? _); auto|okk]. apply (bd_mul cc ss pp 301 100); auto; [|okk]. apply (bd_mul cc ss pp 100 201); auto; okk. }
  assert (X2 : zero (if tracer_diff_enabled P then t_trdiff p (ksimd cf) (eddy_diff2 P) FluxHEdge l c k x1 else x1)).
  { destruct (tracer_diff_enabled P); [|exact X1]. unfold t_trdiff. apply z_add; [exact X1|]. rewrite (hm_noc _ _ _ Hp) by exact Hc. apply z_iter; [lia|apply z0|]. intros j y Hj Hy. unfold s_trdiff. cbv zeta.
    rewrite (hm_eoc _ _ _ Hp), (hm_esc _ _ _ Hp) by lia. assert (He : 0 <= hE X Y c j < 3 * NC) by (apply hE_range; lia). rewrite !trmi, !Ep by discriminate.
    rewrite (av_flux S Hw s n k Hk _ He). pose proof (ps_bd _ _ _ (psx_mean cc ss pp S Hok Hh HHh s n Hr HR k Hk _ He)) as Bm. rewrite (hm_sc2 _ _ _ Ha) by exact He.
    pose proof (GE _ _ j Hk2 He) as G. destruct (ksimd cf); (apply z_add; [exact Hy|]; apply z_mul_r; [|now apply z_grad]); apply (bd_fin 501).
    - apply (bd_mul cc ss pp 401 100); auto; [|okk]. apply (bd_mul cc ss pp 401 0); auto; okk.
    - apply (bd_mul cc ss pp 501 0); auto; [|okk]. apply (bd_mul cc ss pp 401 100); auto; okk. }
  destruct (tracer_hyperdiff_enabled P) eqn:Eh; [|exact X2].
  unfold t_trhyp. apply z_add; [exact X2|]. rewrite (hm_noc _ _ _ Hp) by exact Hc. apply z_iter; [lia|apply z0|]. intros j y Hj Hy. unfold s_trhyp. cbv zeta.
  rewrite (hm_eoc _ _ _ Hp), (hm_esc _ _ _ Hp) by lia. assert (He : 0 <= hE X Y c j < 3 * NC) by (apply hE_range; lia). rewrite !trmi, !(Ep AreaCell), !(Ep DvEdge), !(Ep DcEdge), !(Ep MeshScalingDel4) by discriminate.
  rewrite (hm_sc4 _ _ _ Ha), (hm_dce _ _ _ Ha) by exact He. apply z_sub; [exact Hy|]. apply z_mul_r.
  - apply (bd_fin 401). apply (bd_mul cc ss pp 401 0); auto. okk.
  - apply z_mul_l; [|apply (ps_fin _ _ _ (psx_idc cc ss pp S Hdc))].
    assert (E : forall c', 0 <= c' < NC -> zero (mr p TracerDel2Cell [l; c'; k])).
    { intros c' Hc'. unfold trdel2_fn. rewrite Eh. rewrite upd_same by (cbn [rext]; apply inb3; rewrite (d_ntr S); repeat split; tauto || lia). cbn [on3]. now apply za_trdel2. }
    apply z_sub; apply E, C0; lia.
Qed.
End Zero.

Lemma zTr_tend s time md n : s <> Tend -> ready S n -> resting s n -> trest s n -> (md = Increment -> zTr n) -> zTr (tendency_fn S Tend s time md n).
Proof.
  intros Hs Hr HR HT Hi l k Hl Hk c Hc. rewrite (val_tr S); auto using ok_wfd; [|now apply ready_wfm]. apply zp_tr; auto.
  destruct md; unfold zr; cbn [is_replace]; [apply z0|]. now apply Hi.
Qed.
Lemma axpy_tv dst base (dt b : F A) n l c k : 0 <= l < nt -> 0 <= k < nl -> 0 <= c < NC ->
  mr (axpy S dst base dt b n) (TrCell dst) [l; c; k] = (mr n (TrCell base) [l; c; k] + dt * b * mr n (TrCell Tend) [l; c; k])%fp.
Proof.
  intros Hl Hk Hc. unfold axpy. cbv zeta. replace (0 <? nt) with true by (symmetry; apply Z.ltb_lt; lia).
  rewrite upd_same by (cbn [rext]; apply inb3; rewrite (d_ntr S); repeat split; tauto || lia). cbn [on3]. rewrite !upd_other by discriminate.
  destruct (sid_eq_dec dst base) as [->|]; reflexivity.
Qed.
Lemma trest_axpy dst base (dt b : F A) n : bd 200 dt -> bd 1 b -> trest base n -> zTr n -> trest dst (axpy S dst base dt b n).
Proof.
  intros Hdt Hbb HT HZ l k Hl Hk c Hc. rewrite axpy_tv by assumption.
  assert (Fw : fin (dt * b)%fp) by (apply (bd_fin 201); apply (bd_mul cc ss pp 200 1); auto; okk).
  assert (Zw : zero (dt * b * mr n (TrCell Tend) [l; c; k])%fp) by (apply z_mul_r; auto; now apply HZ).
  destruct (HTh l k Hl Hk) as [Ft _]. destruct (HT l k Hl Hk c Hc) as [E|[Z1 Z2]]; [|right; split; [now apply z_add|exact Z2]].
  rewrite E. destruct (Req_dec (val (Th l k)) 0) as [V|V]; [|left; now apply add_z].
  assert (Zt : zero (Th l k)) by (split; auto). right. split; [now apply z_add|exact Zt].
Qed.
Lemma trest_other s n n' : (forall a ix, is_st s a = true -> mr n' a ix = mr n a ix) -> trest s n -> trest s n'.
Proof.
  intros E HR l k Hl Hk c Hc. assert (T : (if sid_eq_dec s s then true else false) = true) by (destruct (sid_eq_dec s s); congruence).
  rewrite E by exact T. now apply HR.
Qed.
Lemma zTr_other n n' : (forall a ix, is_st Tend a = true -> mr n' a ix = mr n a ix) -> zTr n -> zTr n'.
Proof. intros E HT l k Hl Hk c Hc. rewrite E by reflexivity. now apply HT. Qed.
Lemma trest_axpy_other r d b dt x n : r <> d -> trest r n -> trest r (axpy S d b dt x n).
Proof. intros Hr. apply trest_other. intros a ix Ha. apply axpy_other. now apply (is_st_ne r). Qed.
Lemma trest_tend_other r s time md n : r <> Tend -> trest r n -> trest r (tendency_fn S Tend s time md n).
Proof.
  intros Hr. apply trest_other. intros a ix Ha. assert (N : is_st Tend a = false) by now apply (is_st_ne r).
  apply tend_other; try (intros ->; discriminate); destruct a; try discriminate Ha; reflexivity.
Qed.
Lemma trest_save n : trest St n -> trest Old (save_fn S n).
Proof.
  intros H l k Hl Hk c Hc. unfold save_fn. cbv zeta. replace (0 <? nt) with true by (symmetry; apply Z.ltb_lt; lia).
  rewrite upd_same by (cbn [rext]; apply inb3; rewrite (d_ntr S); repeat split; tauto || lia). rewrite !upd_other by discriminate. now apply H.
Qed.
Definition rr (s : sid) n : Prop := resting s n /\ trest s n.
Definition zz n : Prop := zT n /\ zTr n.
Lemma rr_tend r s time md n : r <> Tend -> rr r n -> rr r (tendency_fn S Tend s time md n).
Proof. intros Hr [H1 H2]. split; [now apply (rest_tend_other cc ss pp S Hh r)|now apply trest_tend_other]. Qed.
Lemma rr_axpy_other r d b dt x n : r <> d -> rr r n -> rr r (axpy S d b dt x n).
Proof. intros Hr [H1 H2]. split; [now apply (rest_axpy_other cc ss pp S Hh r)|now apply trest_axpy_other]. Qed.
Lemma rr_axpy dst base (dt b : F A) n : bd 200 dt -> bd 1 b -> rr base n -> zz n -> rr dst (axpy S dst base dt b n).
Proof. intros Hdt Hb [H1 H2] [Z1 Z2]. split; [now apply (rest_axpy cc ss pp S Hh HHh)|now apply trest_axpy]. Qed.
Lemma zz_axpy d b dt x n : d <> Tend -> zz n -> zz (axpy S d b dt x n).
Proof.
  intros Hd [Z1 Z2]. assert (E : forall a ix, is_st Tend a = true -> mr (axpy S d b dt x n) a ix = mr n a ix) by (intros a ix Ha; apply axpy_other; apply (is_st_ne Tend); congruence).
  split; [eapply (zT_other cc ss pp S)|eapply zTr_other]; eauto.
Qed.
Lemma zz_tend s time md n : s <> Tend -> ready S n -> rr s n -> (md = Increment -> zz n) -> zTd n -> zz (tendency_fn S Tend s time md n).
Proof.
  intros Hs Hr [R1 R2] Hi Hz. split.
  - apply (zT_tend cc ss pp S Hok Hdc Hf0 Hg Hn2 Hn4 Ek Hh HHh); auto. intros E. apply (Hi E).
  - apply zTr_tend; auto. intros E. apply (Hi E).
Qed.
Lemma rr_rk4 (t dt : F A) n : bd 200 dt -> ready S n -> rr St n -> zTd n ->
  let n' := rk4_fn S t dt n in ready S n' /\ rr St n' /\ zTd n'.
Proof.
  intros Hdt Hr HR HZ. cbv zeta. rewrite rk4_eq. cbv zeta.
  assert (Rs : ready S (save_fn S n)) by (eapply ready_cst; [apply cst_save|exact Hr]).
  assert (Rt : rr St (save_fn S n)).
  { assert (E : forall a ix, is_st St a = true -> mr (save_fn S n) a ix = mr n a ix) by (intros a ix Ha; apply save_other; apply (is_st_ne St); congruence).
    destruct HR. split; [eapply (rest_other cc ss pp S Hh)|eapply trest_other]; eauto. }
  assert (Ro : rr Old (save_fn S n)) by (destruct HR; split; [now apply (rest_save cc ss pp S Hh)|now apply trest_save]).
  assert (Zt : zTd (save_fn S n)) by (eapply (zTd_other cc ss pp S); [|exact HZ]; intros a ix Ha; apply save_other; apply (is_st_ne Tend); congruence).
  pose (I n := ready S n /\ rr St n /\ rr Old n /\ zz n).
  assert (I0 : I (tendency_fn S Tend St t Replace (save_fn S n))).
  { split; [eapply ready_cst; [apply cst_tendency|exact Rs]|]. split; [apply rr_tend; [discriminate|exact Rt]|].
    split; [apply rr_tend; [discriminate|exact Ro]|]. apply zz_tend; auto; discriminate. }
  revert I0. generalize (tendency_fn S Tend St t Replace (save_fn S n)). clear n Hr HR HZ Rs Rt Ro Zt. intros n0 I0.
  assert (step : forall i n, I n -> I (tendency_fn S Tend Provis (t + rk4_c i * dt)%fp Replace (axpy S Provis Old dt (rk4_a i) (axpy S St St dt (rk4_b i) n)))).
  { intros i n (Hr & R1 & R2 & Z1). set (n1 := axpy S St St dt (rk4_b i) n). set (n2 := axpy S Provis Old dt (rk4_a i) n1).
    assert (Q1 : ready S n1) by (eapply ready_cst; [apply cst_axpy|exact Hr]). assert (Q2 : ready S n2) by (eapply ready_cst; [apply cst_axpy|exact Q1]).
    assert (A1 : rr St n1) by (apply rr_axpy; auto using bd_rkb). assert (A2 : rr Old n1) by (apply rr_axpy_other; [discriminate|exact R2]).
    assert (A3 : zz n1) by (apply zz_axpy; [discriminate|exact Z1]).
    assert (A4 : rr Provis n2) by (apply rr_axpy; auto using bd_rka). assert (A5 : rr St n2) by (apply rr_axpy_other; [discriminate|exact A1]).
    assert (A6 : rr Old n2) by (apply rr_axpy_other; [discriminate|exact A2]).
    assert (A7 : zz n2) by (apply zz_axpy; [discriminate|exact A3]).
    split; [eapply ready_cst; [apply cst_tendency|exact Q2]|]. split; [apply rr_tend; [discriminate|exact A5]|].
    split; [apply rr_tend; [discriminate|exact A6]|]. apply zz_tend; auto; [discriminate|]. apply (zT_zTd cc ss pp S). apply A7. }
  pose proof (step 2 _ (step 1 _ (step 0 _ I0))) as I3. revert I3. match goal with |- I ?z -> _ => generalize z end. clear - Hok Hdt HHh HTh.
  intros n (Hr & R1 & _ & Z1). split; [eapply ready_cst; [apply cst_axpy|exact Hr]|]. split; [apply rr_axpy; auto using bd_rkb|].
  apply (zT_zTd cc ss pp S). apply zz_axpy; [discriminate|exact Z1].
Qed.
Lemma rr_rk4_run steps n : (forall x, In x steps -> bd 200 (snd x)) -> ready S n -> rr St n -> zTd n -> rr St (rk4_run_fn S steps n).
Proof.
  revert n. induction steps as [|x l IH]; intros n Hx Hr HR HZ; [exact HR|].
  destruct (rr_rk4 (fst x) (snd x) n (Hx x (or_introl eq_refl)) Hr HR HZ) as (R1 & R2 & R3). apply IH; auto. intros y Hy. apply Hx. now right.
Qed.
Lemma scale_zTr (x : F A) n : bd 1 x -> zTr n -> zTr (scale_fn S x n).
Proof.
  intros Hx HT l k Hl Hk c Hc. unfold scale_fn. cbv zeta. replace (0 <? nt) with true by (symmetry; apply Z.ltb_lt; lia).
  rewrite upd_same by (cbn [rext]; apply inb3; rewrite (d_ntr S); repeat split; tauto || lia). cbn [on3]. rewrite !upd_other by discriminate.
  apply z_mul_l; [now apply HT|apply (bd_fin _ _ Hx)].
Qed.
Lemma rr_lsrk_stage k (t dt : F A) i n : bd 200 dt -> ready S n /\ rr St n /\ zz n ->
  let n' := lsrk_stage_fn S k t dt i n in ready S n' /\ rr St n' /\ zz n'.
Proof.
  intros Hdt (Hr & R1 & [Z1 Z1']). unfold lsrk_stage_fn. cbv zeta. set (n1 := scale_fn S (lsrk_a k i) n).
  assert (Q1 : ready S n1) by (eapply ready_cst; [apply cst_scale|exact Hr]).
  assert (S1 : rr St n1).
  { assert (E : forall a ix, is_st St a = true -> mr n1 a ix = mr n a ix) by (intros a ix Ha; apply scale_other; apply (is_st_ne St); congruence).
    destruct R1. split; [eapply (rest_other cc ss pp S Hh)|eapply trest_other]; eauto. }
  assert (Z2 : zz n1) by (split; [apply (scale_zT cc ss pp S)|apply scale_zTr]; auto using bd_lsa).
  set (n2 := tendency_fn S Tend St (t + lsrk_c k i * dt)%fp Increment n1).
  assert (Q2 : ready S n2) by (eapply ready_cst; [apply cst_tendency|exact Q1]).
  assert (S2 : rr St n2) by (apply rr_tend; [discriminate|exact S1]).
  assert (Z3 : zz n2) by (apply zz_tend; auto; [discriminate|apply (zT_zTd cc ss pp S); apply Z2]).
  split; [eapply ready_cst; [apply cst_axpy|exact Q2]|]. split; [apply rr_axpy; auto using bd_lsb|].
  apply zz_axpy; [discriminate|exact Z3].
Qed.
Lemma rr_lsrk k (t dt : F A) n : bd 200 dt -> ready S n /\ rr St n /\ zz n ->
  let n' := lsrk_fn S k t dt n in ready S n' /\ rr St n' /\ zz n'.
Proof.
  intros Hdt. unfold lsrk_fn. revert n. generalize (zseq k). induction l as [|i l IH]; intros n H; [exact H|]. cbn [fold_left]. apply IH. now apply rr_lsrk_stage.
Qed.
Lemma rr_lsrk_run k steps n : (forall x, In x steps -> bd 200 (snd x)) -> ready S n -> rr St n -> zz n -> rr St (lsrk_run_fn S k steps n).
Proof.
  revert n. induction steps as [|x l IH]; intros n Hx Hr HR HZ; [exact HR|].
  destruct (rr_lsrk k (fst x) (snd x) n (Hx x (or_introl eq_refl)) (conj Hr (conj HR HZ))) as (R1 & R2 & R3). apply IH; auto. intros y Hy. apply Hx. now right.
Qed.
End TrRest.
