(** The lemma of [Equiv.v] for whole time steps and for runs of any number of steps. *)
From Coq Require Import ZArith List Bool Lia.
From Verif Require Import Arith Arrays Prog Conc Launch Mesh AuxVars Tend Model Over Formulas KernBase Terms KernAux KernTend TendFn StepFn Rel RelRun Equiv Equiv2.
Import ListNotations.
Open Scope Z_scope.

(** Mesh arrays, the positions if [Pv], the Coriolis parameter if [Fv], and the states in [T]. *)
Definition gE (Fv Pv : Prop) (T : sid -> Prop) (a : rarr) : Prop :=
  match a with
  | HCell s | VnEdge s | TrCell s => T s
  | FVertex => Fv
  | XCell | YCell | XEdge | YEdge => Pv
  | _ => kmesh_arr a = true
  end.

Section EquivRun.
Context {A : Arith} (S1 : setup A) (ntr2 : Z) (p : renum).
Local Notation S2 := (with_tracers S1 ntr2).
Local Notation D1 := (sdims S1).
Local Notation D2 := (sdims S2).
Local Notation P1 := (par_of S1).
Local Notation P2 := (par_of S2).
Local Notation cf1 := (cfg_of S1).
Context (HS : psize D1 D2 p) (Hrl : forall k, 0 <= k < d_nlayers D1 -> 0 <= rv_layer cf1 k < d_nlayers D1).
Implicit Types (T : sid -> Prop) (m : mem A) (s : sid).
Local Notation ag := (eqv D1 p).
Context (Fv Pv : Prop) (HFv : disable_vn P1 = false -> Fv) (HPv : hook S1 = None \/ Pv).

Ltac bad H := cbn in H; rewrite ?andb_false_r in H; discriminate.
Lemma kmeshV_gE T : kmeshV (gE Fv Pv T).
Proof. intros a Hm. destruct a; try discriminate Hm; exact Hm. Qed.

Lemma g_tendency T t s time md m1 m2 :
  wfm D1 m1 -> ag (gE Fv Pv T) m1 m2 -> T s ->
  (md = Replace /\ disable_h P1 = false /\ disable_vn P1 = false) \/ T t ->
  ag (gE Fv Pv (also T t)) (tendency_fn S1 t s time md m1) (tendency_fn S2 t s time md m2).
Proof.
  intros Hw Ha Hs Htt. eapply eqv_weaken.
  - apply (r_tendency S1 ntr2 p HS Hrl) with (V := gE Fv Pv T); auto using kmeshV_gE; unfold posV; cbn; tauto.
  - intros a. unfold outV, also. destruct a; cbn; try tauto; try discriminate; try (intros [H| ->]; tauto).
Qed.

(** Updates of the three fields of state [d] one after the other. *)
Lemma g_upd3 T d m1 m2 gh1 gh2 gv1 gv2 gt1 gt2 (ign : Prop) :
  ag (gE Fv Pv T) m1 m2 -> ign \/ T d ->
  (forall c k x y, inb (rext D1 (HCell d)) [c; k] = true -> ign \/ x = y -> gh1 c k x = gh2 (pc p c) k y) ->
  (forall c k x y, inb (rext D1 (VnEdge d)) [c; k] = true -> ign \/ x = y -> gv1 c k x = gv2 (pe p c) k y) ->
  (forall l c k x y, inb (rext D1 (TrCell d)) [l; c; k] = true -> ign \/ x = y -> gt1 l c k x = gt2 (pt p l) (pc p c) k y) ->
  ag (gE Fv Pv (also T d))
    (let m1 := upd D1 (HCell d) m1 (on2 gh1) in let m2 := upd D1 (VnEdge d) m1 (on2 gv1) in
     if 0 <? ntracers P1 then upd D1 (TrCell d) m2 (on3 gt1) else m2)
    (let m1 := upd D2 (HCell d) m2 (on2 gh2) in let m2 := upd D2 (VnEdge d) m1 (on2 gv2) in
     if 0 <? ntracers P2 then upd D2 (TrCell d) m2 (on3 gt2) else m2).
Proof.
  intros Ha Hd Hh Hv Hr. cbv zeta.
  assert (A1 := eqv_upd D1 D2 p HS (gE Fv Pv T) (HCell d) m1 m2 (on2 gh1) (on2 gh2) ign Ha Hd).
  match type of A1 with ?X -> _ => assert (Q : X); [|specialize (A1 Q); clear Q] end.
  { intros ix x y I1 Hxy. destruct ix as [|c [|k [|z ix]]]; try bad I1. cbn [on2 rn hd1]. auto. }
  assert (A2 := eqv_upd D1 D2 p HS _ (VnEdge d) _ _ (on2 gv1) (on2 gv2) ign A1 ltac:(cbn; tauto)).
  match type of A2 with ?X -> _ => assert (Q : X); [|specialize (A2 Q); clear Q] end.
  { intros ix x y I1 Hxy. destruct ix as [|c [|k [|z ix]]]; try bad I1. cbn [on2 rn hd1]. auto. }
  cbv beta in A2.
  assert (Hn2 : 0 < ntracers P1 -> 0 < ntracers P2)
    by (intros Hn; pose proof (ps_pt _ _ _ HS 0 ltac:(cbn; lia)) as H0; cbn in H0 |- *; lia).
  destruct (Z.ltb_spec 0 (ntracers P1)) as [Hn|Hn]; [apply Hn2, Z.ltb_lt in Hn; rewrite Hn|].
  - assert (A3 := eqv_upd D1 D2 p HS _ (TrCell d) _ _ (on3 gt1) (on3 gt2) ign A2 ltac:(cbn; tauto)).
    match type of A3 with ?X -> _ => assert (Q : X); [|specialize (A3 Q); clear Q] end.
    { intros ix x y I1 Hxy. destruct ix as [|l [|c [|k [|z ix]]]]; try bad I1. cbn [on3 rn hd1]. auto. }
    eapply eqv_weaken; [exact A3|]. intros a. unfold also. destruct a; cbn; try tauto; intros [?| ->]; tauto.
  - eapply eqv_weaken; [apply agree_tr0 with (1 := Hn); destruct (0 <? ntracers P2); [apply eqv_right; [exact A2|]|exact A2]|].
    + intros _ ix. destruct (inb (rext D1 (TrCell _)) ix) eqn:I1; [|reflexivity].
      destruct ix as [|l [|c [|k [|z ix]]]]; try bad I1; cbn [rext] in I1; apply inb3 in I1;
      change (d_ntracers D1) with (ntracers P1) in I1; lia.
    + intros a. unfold also. destruct a; cbn; try tauto; intros [?| ->]; tauto.
Qed.

Lemma g_axpy T d b dt x m1 m2 :
  ag (gE Fv Pv T) m1 m2 -> T b -> T Tend -> ag (gE Fv Pv (also T d)) (axpy S1 d b dt x m1) (axpy S2 d b dt x m2).
Proof.
  intros Ha Hb Hr. unfold axpy. apply g_upd3 with (ign := d <> b); [exact Ha| | | |].
  - destruct (sid_eq_dec d b) as [->|]; auto.
  - intros c k y z I1 Hyz. rewrite !(proj2 Ha (HCell _)) by assumption.
    destruct (sid_eq_dec d b); [|reflexivity]. destruct Hyz as [?| ->]; [contradiction|reflexivity].
  - intros c k y z I1 Hyz. rewrite !(proj2 Ha (VnEdge _)) by assumption.
    destruct (sid_eq_dec d b); [|reflexivity]. destruct Hyz as [?| ->]; [contradiction|reflexivity].
  - intros l c k y z I1 Hyz. rewrite !(proj2 Ha (TrCell _)) by assumption.
    destruct (sid_eq_dec d b); [|reflexivity]. destruct Hyz as [?| ->]; [contradiction|reflexivity].
Qed.
Lemma g_weaken T T' m1 m2 : ag (gE Fv Pv T) m1 m2 -> (forall s, T' s -> T s) -> ag (gE Fv Pv T') m1 m2.
Proof. intros Ha H. eapply eqv_weaken; [exact Ha|]. intros a; destruct a; cbn; auto. Qed.
Lemma g_scale T a m1 m2 :
  ag (gE Fv Pv T) m1 m2 -> T Tend -> ag (gE Fv Pv T) (scale_fn S1 a m1) (scale_fn S2 a m2).
Proof.
  intros Ha Hr. eapply g_weaken with (T := also T Tend); [|unfold also; tauto].
  unfold scale_fn. apply g_upd3 with (ign := False); auto; intros; intuition congruence.
Qed.
Lemma g_init T m1 m2 : ag (gE Fv Pv T) m1 m2 -> ag (gE Fv Pv (also T Tend)) (lsrk_init_fn S1 m1) (lsrk_init_fn S2 m2).
Proof.
  intros Ha. unfold lsrk_init_fn. cbv zeta.
  assert (A1 := eqv_upd D1 D2 p HS (gE Fv Pv T) (HCell Tend) m1 m2 (fun _ _ => (#0)%fp) (fun _ _ => (#0)%fp) True Ha ltac:(tauto) ltac:(reflexivity)).
  assert (A2 := eqv_upd D1 D2 p HS _ (VnEdge Tend) _ _ (fun _ _ => (#0)%fp) (fun _ _ => (#0)%fp) True A1 ltac:(tauto) ltac:(reflexivity)).
  cbv beta in A2. assert (Hn2 : 0 < ntracers P1 -> 0 < ntracers P2)
    by (intros Hn; pose proof (ps_pt _ _ _ HS 0 ltac:(cbn; lia)) as H0; cbn in H0 |- *; lia).
  destruct (Z.ltb_spec 0 (ntracers P1)) as [Hn|Hn]; [apply Hn2, Z.ltb_lt in Hn; rewrite Hn|].
  - assert (A3 := eqv_upd D1 D2 p HS _ (TrCell Tend) _ _ (fun _ _ => (#0)%fp) (fun _ _ => (#0)%fp) True A2 ltac:(tauto) ltac:(reflexivity)).
    eapply eqv_weaken; [exact A3|]. intros a. unfold also. destruct a; cbn; try tauto; intros [?| ->]; tauto.
  - eapply eqv_weaken; [apply agree_tr0 with (1 := Hn); destruct (0 <? ntracers P2); [apply eqv_right; [exact A2|]|exact A2]|].
    + intros _ ix. destruct (inb (rext D1 (TrCell _)) ix) eqn:I1; [|reflexivity].
      destruct ix as [|l [|c [|k [|z ix]]]]; try bad I1; cbn [rext] in I1; apply inb3 in I1;
      change (d_ntracers D1) with (ntracers P1) in I1; lia.
    + intros a. unfold also. destruct a; cbn; try tauto; intros [?| ->]; tauto.
Qed.
Lemma g_save T m1 m2 : ag (gE Fv Pv T) m1 m2 -> T St -> ag (gE Fv Pv (also T Old)) (save_fn S1 m1) (save_fn S2 m2).
Proof.
  intros Ha Hs. unfold save_fn. cbv zeta.
  assert (A1 : ag (fun a => gE Fv Pv T a \/ a = HCell Old) (upd D1 (HCell Old) m1 (fun ix _ => mr m1 (HCell St) ix)) (upd D2 (HCell Old) m2 (fun ix _ => mr m2 (HCell St) ix))).
  { apply (eqv_upd D1 D2 p HS) with (ign := True); [exact Ha|tauto|]. intros. apply (proj2 Ha (HCell St)); assumption. }
  set (n1 := upd D1 _ _ _) in *. set (n2 := upd D2 _ _ _) in *.
  assert (A2 : ag (fun a => (gE Fv Pv T a \/ a = HCell Old) \/ a = VnEdge Old) (upd D1 (VnEdge Old) n1 (fun ix _ => mr n1 (VnEdge St) ix)) (upd D2 (VnEdge Old) n2 (fun ix _ => mr n2 (VnEdge St) ix))).
  { eapply (eqv_upd D1 D2 p HS) with (ign := True); [exact A1|tauto|]. intros. apply (proj2 A1 (VnEdge St)); try assumption. now left. }
  set (p1 := upd D1 _ n1 _) in *. set (p2 := upd D2 _ n2 _) in *.
  eapply eqv_weaken with (V := fun a => _ \/ _).
  - apply (eqv_upd D1 D2 p HS) with (ign := True); [exact A2|tauto|]. intros. apply (proj2 A2 (TrCell St)); try assumption. now left; left.
  - intros a. unfold also. destruct a; cbn; try tauto; intros [?| ->]; tauto.
Qed.

(** ** RK4: [tn] says that the stepper's tendency arrays agree beforehand. *)
Local Notation all_enabled := (disable_h P1 = false /\ disable_vn P1 = false).

Lemma g_rk4 (tn : Prop) (t dt : F A) m1 m2 :
  tn \/ all_enabled -> wfm D1 m1 -> ag (gE Fv Pv (rkT tn)) m1 m2 ->
  ag (gE Fv Pv (rkT True)) (rk4_fn S1 t dt m1) (rk4_fn S2 t dt m2).
Proof.
  intros Htn Hw Ha. unfold rk4_fn.
  set (T0 := fun s => match s with Provis => False | _ => True end).
  assert (A1 : ag (gE Fv Pv T0) (tendency_fn S1 Tend St t Replace (save_fn S1 m1)) (tendency_fn S2 Tend St t Replace (save_fn S2 m2))).
  { eapply g_weaken; [eapply g_tendency; [now apply wfm_save|apply g_save; [exact Ha|exact I]|left; exact I|]|].
    - unfold also. cbn. tauto.
    - intros s; destruct s; unfold also; cbn; tauto. }
  assert (W1 : wfm D1 (tendency_fn S1 Tend St t Replace (save_fn S1 m1))) by auto using wfm_tendency, wfm_save.
  set (n1 := tendency_fn S1 _ _ _ _ _) in *. set (n2 := tendency_fn S2 _ _ _ _ _) in *. clearbody n1 n2.
  apply g_weaken with (T := T0); [|intros s; destruct s; cbn; tauto].
  assert (Hl : forall i, In i (zseq 4) -> 0 <= i < 4) by (intros i; apply in_zseq).
  clear - HS Hrl HFv HPv A1 W1 Htn Hl. revert n1 n2 A1 W1 Hl. generalize (zseq 4).
  induction l as [|i l IH]; intros n1 n2 A1 W1 Hl; [exact A1|].
  cbn [fold_left]. apply IH; [|now apply wfm_rk4_stage|intros j Hj; apply Hl; now right].
  unfold rk4_stage_fn. cbv zeta.
  assert (A2 : ag (gE Fv Pv T0) (axpy S1 St St dt (rk4_b i) n1) (axpy S2 St St dt (rk4_b i) n2)).
  { eapply g_weaken; [apply g_axpy; [exact A1|exact I|exact I]|]. unfold also. tauto. }
  destruct (Z.ltb_spec i (4 - 1)) as [Hi|Hi]; [|exact A2].
  eapply g_weaken; [eapply g_tendency; [auto using wfm_axpy|eapply g_axpy; [exact A2|exact I|exact I]| |]|].
  - now right.
  - right. left. exact I.
  - intros s; destruct s; unfold also; cbn; tauto.
Qed.

Lemma g_lsrk n (t dt : F A) m1 m2 :
  wfm D1 m1 -> ag (gE Fv Pv (rkT True)) m1 m2 ->
  ag (gE Fv Pv (rkT True)) (lsrk_fn S1 n t dt m1) (lsrk_fn S2 n t dt m2).
Proof.
  intros Hw Ha. unfold lsrk_fn. revert m1 m2 Hw Ha.
  assert (Hl : forall i, In i (zseq n) -> 0 <= i < n) by (intros i; apply in_zseq).
  revert Hl. generalize (zseq n).
  induction l as [|i l IH]; intros Hl n1 n2 W1 A1; [exact A1|].
  cbn [fold_left]. apply IH; [intros j Hj; apply Hl; now right|now apply wfm_lsrk_stage|].
  unfold lsrk_stage_fn. eapply g_weaken; [eapply g_axpy; [eapply g_tendency; [now apply wfm_scale|apply g_scale; [exact A1|exact I]| |]| |]|];
    unfold also; cbn; try tauto. 
Qed.
End EquivRun.
