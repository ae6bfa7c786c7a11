(** The relational lemma of [Rel.v] for whole time steps and for runs of any number of steps. *)
From Coq Require Import ZArith List Bool Lia.
From Verif Require Import Arith Arrays Prog Conc Launch Mesh AuxVars Tend Model Over Formulas KernBase Terms KernAux KernTend TendFn StepFn Rel.
Import ListNotations.
Open Scope Z_scope.

(** Mesh arrays, the Coriolis parameter if [Fv], and the states in [T]. *)
Definition gV (Fv : Prop) (T : sid -> Prop) (a : rarr) : Prop :=
  match a with
  | HCell s | VnEdge s | TrCell s => T s
  | FVertex => Fv
  | _ => mesh_arr a = true
  end.
Definition also (T : sid -> Prop) (t s : sid) : Prop := T s \/ s = t.

Section RelRun.
Context {A : Arith} (S1 S2 : setup A) (K : Z -> Prop) (Ht : F A -> Prop) (HR : rel_ok S1 S2 K Ht).
Local Notation D1 := (sdims S1).
Local Notation D2 := (sdims S2).
Local Notation P1 := (par_of S1).
Local Notation P2 := (par_of S2).
Local Notation ag := (agree D1 D2 K).
Implicit Types (T : sid -> Prop) (m : mem A) (s : sid).
Context (Fv : Prop) (HFv : disable_vn P1 = false -> Fv).

Ltac bad H := cbn in H; rewrite ?andb_false_r in H; discriminate.
Lemma meshV_gV T : meshV (gV Fv T).
Proof. intros a Hm. destruct a; try discriminate Hm; exact Hm. Qed.

Lemma g_tendency T t s time md m1 m2 :
  Ht time -> wfm D1 m1 -> ag (gV Fv T) m1 m2 -> T s ->
  (md = Replace /\ disable_h P1 = false /\ disable_vn P1 = false) \/ T t ->
  ag (gV Fv (also T t)) (tendency_fn S1 t s time md m1) (tendency_fn S2 t s time md m2).
Proof.
  intros Htm Hw Ha Hs Htt. eapply agree_weaken.
  - apply r_tendency with (K := K) (Ht := Ht) (V := gV Fv T); auto using meshV_gV; cbn; tauto.
  - intros a. unfold outV, also. destruct a; cbn; try tauto; try discriminate; try (intros [H| ->]; tauto).
Qed.

(** Updates of the three fields of state [d] one after the other. *)
Lemma g_upd3 T d m1 m2 gh1 gh2 gv1 gv2 gt1 gt2 (ign : Prop) :
  ag (gV Fv T) m1 m2 -> ign \/ T d ->
  (forall c k x y, inb (rext D1 (HCell d)) [c; k] = true -> inb (rext D2 (HCell d)) [c; k] = true -> K k -> ign \/ x = y -> gh1 c k x = gh2 c k y) ->
  (forall c k x y, inb (rext D1 (VnEdge d)) [c; k] = true -> inb (rext D2 (VnEdge d)) [c; k] = true -> K k -> ign \/ x = y -> gv1 c k x = gv2 c k y) ->
  (forall l c k x y, inb (rext D1 (TrCell d)) [l; c; k] = true -> inb (rext D2 (TrCell d)) [l; c; k] = true -> K k -> ign \/ x = y -> gt1 l c k x = gt2 l c k y) ->
  ag (gV Fv (also T d))
    (let m1 := upd D1 (HCell d) m1 (on2 gh1) in let m2 := upd D1 (VnEdge d) m1 (on2 gv1) in
     if 0 <? ntracers P1 then upd D1 (TrCell d) m2 (on3 gt1) else m2)
    (let m1 := upd D2 (HCell d) m2 (on2 gh2) in let m2 := upd D2 (VnEdge d) m1 (on2 gv2) in
     if 0 <? ntracers P2 then upd D2 (TrCell d) m2 (on3 gt2) else m2).
Proof.
  intros Ha Hd Hh Hv Hr. cbv zeta.
  assert (A1 := agree_upd D1 D2 K (gV Fv T) (HCell d) m1 m2 (on2 gh1) (on2 gh2) ign Ha Hd).
  match type of A1 with ?X -> _ => assert (Q : X); [|specialize (A1 Q); clear Q] end.
  { intros ix x y I1 I2 IK Hxy. destruct ix as [|c [|k [|z ix]]]; try bad I1. cbn [on2]. auto. }
  assert (A2 := agree_upd D1 D2 K _ (VnEdge d) _ _ (on2 gv1) (on2 gv2) ign A1 ltac:(cbn; tauto)).
  match type of A2 with ?X -> _ => assert (Q : X); [|specialize (A2 Q); clear Q] end.
  { intros ix x y I1 I2 IK Hxy. destruct ix as [|c [|k [|z ix]]]; try bad I1. cbn [on2]. auto. }
  cbv beta in A2.
  rewrite (ro_nt _ _ _ _ HR). destruct (Z.ltb_spec 0 (ntracers P1)).
  - assert (A3 := agree_upd D1 D2 K _ (TrCell d) _ _ (on3 gt1) (on3 gt2) ign A2 ltac:(cbn; tauto)).
    match type of A3 with ?X -> _ => assert (Q : X); [|specialize (A3 Q); clear Q] end.
    { intros ix x y I1 I2 IK Hxy. destruct ix as [|l [|c [|k [|z ix]]]]; try bad I1. cbn [on3]. auto. }
    eapply agree_weaken; [exact A3|]. intros a. unfold also. destruct a; cbn; try tauto; intros [?| ->]; tauto.
  - eapply agree_weaken; [eapply agree_tr0; eauto|]. intros a. unfold also. destruct a; cbn; try tauto; intros [?| ->]; tauto.
Qed.

Lemma g_axpy T d b dt x m1 m2 :
  ag (gV Fv T) m1 m2 -> T b -> T Tend -> ag (gV Fv (also T d)) (axpy S1 d b dt x m1) (axpy S2 d b dt x m2).
Proof.
  intros Ha Hb Hr. unfold axpy. apply g_upd3 with (ign := d <> b); [exact Ha| | | |].
  - destruct (sid_eq_dec d b) as [->|]; auto.
  - intros c k y z I1 I2 IK Hyz. rewrite !(proj2 Ha (HCell _)) by assumption.
    destruct (sid_eq_dec d b); [|reflexivity]. destruct Hyz as [?| ->]; [contradiction|reflexivity].
  - intros c k y z I1 I2 IK Hyz. rewrite !(proj2 Ha (VnEdge _)) by assumption.
    destruct (sid_eq_dec d b); [|reflexivity]. destruct Hyz as [?| ->]; [contradiction|reflexivity].
  - intros l c k y z I1 I2 IK Hyz. rewrite !(proj2 Ha (TrCell _)) by assumption.
    destruct (sid_eq_dec d b); [|reflexivity]. destruct Hyz as [?| ->]; [contradiction|reflexivity].
Qed.
Lemma g_weaken T T' m1 m2 : ag (gV Fv T) m1 m2 -> (forall s, T' s -> T s) -> ag (gV Fv T') m1 m2.
Proof. intros Ha H. eapply agree_weaken; [exact Ha|]. intros a; destruct a; cbn; auto. Qed.
Lemma g_scale T a m1 m2 :
  ag (gV Fv T) m1 m2 -> T Tend -> ag (gV Fv T) (scale_fn S1 a m1) (scale_fn S2 a m2).
Proof.
  intros Ha Hr. eapply g_weaken with (T := also T Tend); [|unfold also; tauto].
  unfold scale_fn. apply g_upd3 with (ign := False); auto; intros; intuition congruence.
Qed.
Lemma g_init T m1 m2 : ag (gV Fv T) m1 m2 -> ag (gV Fv (also T Tend)) (lsrk_init_fn S1 m1) (lsrk_init_fn S2 m2).
Proof.
  intros Ha. unfold lsrk_init_fn. cbv zeta.
  assert (A1 := agree_upd D1 D2 K (gV Fv T) (HCell Tend) m1 m2 (fun _ _ => (#0)%fp) (fun _ _ => (#0)%fp) True Ha ltac:(tauto) ltac:(reflexivity)).
  assert (A2 := agree_upd D1 D2 K _ (VnEdge Tend) _ _ (fun _ _ => (#0)%fp) (fun _ _ => (#0)%fp) True A1 ltac:(tauto) ltac:(reflexivity)).
  cbv beta in A2. rewrite (ro_nt _ _ _ _ HR). destruct (Z.ltb_spec 0 (ntracers P1)).
  - assert (A3 := agree_upd D1 D2 K _ (TrCell Tend) _ _ (fun _ _ => (#0)%fp) (fun _ _ => (#0)%fp) True A2 ltac:(tauto) ltac:(reflexivity)).
    eapply agree_weaken; [exact A3|]. intros a. unfold also. destruct a; cbn; try tauto; intros [?| ->]; tauto.
  - eapply agree_weaken; [eapply agree_tr0; eauto|]. intros a. unfold also. destruct a; cbn; try tauto; intros [?| ->]; tauto.
Qed.
Lemma g_save T m1 m2 : ag (gV Fv T) m1 m2 -> T St -> ag (gV Fv (also T Old)) (save_fn S1 m1) (save_fn S2 m2).
Proof.
  intros Ha Hs. unfold save_fn. cbv zeta.
  assert (A1 : ag (fun a => gV Fv T a \/ a = HCell Old) (upd D1 (HCell Old) m1 (fun ix _ => mr m1 (HCell St) ix)) (upd D2 (HCell Old) m2 (fun ix _ => mr m2 (HCell St) ix))).
  { apply agree_upd with (ign := True); [exact Ha|tauto|]. intros. apply (proj2 Ha (HCell St)); assumption. }
  set (n1 := upd D1 _ _ _) in *. set (n2 := upd D2 _ _ _) in *.
  assert (A2 : ag (fun a => (gV Fv T a \/ a = HCell Old) \/ a = VnEdge Old) (upd D1 (VnEdge Old) n1 (fun ix _ => mr n1 (VnEdge St) ix)) (upd D2 (VnEdge Old) n2 (fun ix _ => mr n2 (VnEdge St) ix))).
  { eapply agree_upd with (ign := True); [exact A1|tauto|]. intros. apply (proj2 A1 (VnEdge St)); try assumption. now left. }
  set (p1 := upd D1 _ n1 _) in *. set (p2 := upd D2 _ n2 _) in *.
  eapply agree_weaken with (V := fun a => _ \/ _).
  - apply agree_upd with (ign := True); [exact A2|tauto|]. intros. apply (proj2 A2 (TrCell St)); try assumption. now left; left.
  - intros a. unfold also. destruct a; cbn; try tauto; intros [?| ->]; tauto.
Qed.

(** ** RK4: [tn] says that the stepper's tendency arrays agree beforehand. *)
Definition rkT (tn : Prop) (s : sid) : Prop := match s with St => True | Tend => tn | _ => False end.
Definition all_enabled : Prop := disable_h P1 = false /\ disable_vn P1 = false.

Lemma g_rk4 (tn : Prop) (t dt : F A) m1 m2 :
  Ht t -> (forall i, 0 <= i < 3 -> Ht (t + rk4_c i * dt)%fp) ->
  tn \/ all_enabled -> wfm D1 m1 -> ag (gV Fv (rkT tn)) m1 m2 ->
  ag (gV Fv (rkT True)) (rk4_fn S1 t dt m1) (rk4_fn S2 t dt m2).
Proof.
  intros Ht0 Hts Htn Hw Ha. unfold rk4_fn.
  set (T0 := fun s => match s with Provis => False | _ => True end).
  assert (A1 : ag (gV Fv T0) (tendency_fn S1 Tend St t Replace (save_fn S1 m1)) (tendency_fn S2 Tend St t Replace (save_fn S2 m2))).
  { eapply g_weaken; [eapply g_tendency; [exact Ht0|now apply wfm_save|apply g_save; [exact Ha|exact I]|left; exact I|]|].
    - unfold also. cbn. unfold all_enabled in *. tauto.
    - intros s; destruct s; unfold also; cbn; tauto. }
  assert (W1 : wfm D1 (tendency_fn S1 Tend St t Replace (save_fn S1 m1))) by auto using wfm_tendency, wfm_save.
  set (n1 := tendency_fn S1 _ _ _ _ _) in *. set (n2 := tendency_fn S2 _ _ _ _ _) in *. clearbody n1 n2.
  apply g_weaken with (T := T0); [|intros s; destruct s; cbn; tauto].
  assert (Hl : forall i, In i (zseq 4) -> 0 <= i < 4) by (intros i; apply in_zseq).
  clear - HR HFv A1 W1 Htn Ht0 Hts Hl. revert n1 n2 A1 W1 Hl. generalize (zseq 4).
  induction l as [|i l IH]; intros n1 n2 A1 W1 Hl; [exact A1|].
  cbn [fold_left]. apply IH; [|now apply wfm_rk4_stage|intros j Hj; apply Hl; now right].
  unfold rk4_stage_fn. cbv zeta.
  assert (A2 : ag (gV Fv T0) (axpy S1 St St dt (rk4_b i) n1) (axpy S2 St St dt (rk4_b i) n2)).
  { eapply g_weaken; [apply g_axpy; [exact A1|exact I|exact I]|]. unfold also. tauto. }
  destruct (Z.ltb_spec i (4 - 1)) as [Hi|Hi]; [|exact A2].
  eapply g_weaken; [eapply g_tendency; [apply Hts; specialize (Hl i (or_introl eq_refl)); lia|auto using wfm_axpy|eapply g_axpy; [exact A2|exact I|exact I]| |]|].
  - now right.
  - right. left. exact I.
  - intros s; destruct s; unfold also; cbn; tauto.
Qed.

Lemma g_lsrk n (t dt : F A) m1 m2 :
  (forall i, 0 <= i < n -> Ht (t + lsrk_c n i * dt)%fp) ->
  wfm D1 m1 -> ag (gV Fv (rkT True)) m1 m2 ->
  ag (gV Fv (rkT True)) (lsrk_fn S1 n t dt m1) (lsrk_fn S2 n t dt m2).
Proof.
  intros Hts Hw Ha. unfold lsrk_fn. revert m1 m2 Hw Ha.
  assert (Hl : forall i, In i (zseq n) -> 0 <= i < n) by (intros i; apply in_zseq).
  revert Hl. generalize (zseq n).
  induction l as [|i l IH]; intros Hl n1 n2 W1 A1; [exact A1|].
  cbn [fold_left]. apply IH; [intros j Hj; apply Hl; now right|now apply wfm_lsrk_stage|].
  unfold lsrk_stage_fn. eapply g_weaken; [eapply g_axpy; [eapply g_tendency; [apply Hts, Hl; now left|now apply wfm_scale|apply g_scale; [exact A1|exact I]| |]| |]|];
    unfold also; cbn; try tauto. 
Qed.
End RelRun.
