(** The lemma of [Equiv.v] for the tendencies. *)
From Coq Require Import ZArith List Bool Lia.
From Verif Require Import Arith Arrays Prog Conc Launch Mesh AuxVars Tend Model Over Formulas KernBase Terms KernAux KernTend TendFn StepFn Rel Equiv.
Import ListNotations.
Open Scope Z_scope.

(** ** Whole computations: the same setup with another number of tracers *)
Definition with_tracers {A} (S : setup A) (n : Z) : setup A :=
  mkSetup (cfg_of S) (mesh_of_setup S)
    (mkParams (f0 (par_of S)) (grav (par_of S)) (drag_coeff (par_of S)) (visc_del2 (par_of S)) (visc_del4 (par_of S))
       (eddy_diff2 (par_of S)) (eddy_diff4 (par_of S)) n (disable_h (par_of S)) (disable_vn (par_of S))) (hook S).
Lemma with_same {A} (S : setup A) : with_tracers S (ntracers (par_of S)) = S.
Proof. destruct S as [cf h [] hk]. reflexivity. Qed.

Section EquivStep.
Context {A : Arith} (S1 : setup A) (ntr2 : Z) (p : renum).
Local Notation S2 := (with_tracers S1 ntr2).
Local Notation D1 := (sdims S1).
Local Notation D2 := (sdims S2).
Local Notation P1 := (par_of S1).
Local Notation P2 := (par_of S2).
Local Notation cf1 := (cfg_of S1).
Local Notation cf2 := (cfg_of S2).
Context (HS : psize D1 D2 p) (Hrl : forall k, 0 <= k < d_nlayers D1 -> 0 <= rv_layer cf1 k < d_nlayers D1).
Implicit Types (V : rarr -> Prop) (m : mem A) (s t : sid).
Local Notation ag := (eqv D1 p).

Definition kmeshV V : Prop := forall a, kmesh_arr a = true -> V a.

Ltac bad H := cbn in H; rewrite ?andb_false_r in H; discriminate.

Ltac fm := lazymatch goal with |- ag _ _ _ => eassumption | _ => first [eassumption | tauto] end.
Lemma r_aux V s m1 m2 :
  wfm D1 m1 -> ag V m1 m2 -> kmeshV V -> V (HCell s) -> V (VnEdge s) -> V (TrCell s) \/ ntracers P1 <= 0 ->
  ag (auxV V) (aux_fn cf1 D1 s m1) (aux_fn cf2 D2 s m2).
Proof.
  intros Hw1 Ha HV Hh Hv Htr. unfold aux_fn. cbv zeta.
  (* vertices *)
  assert (A1 : ag (fun a => match a with RvortVertex | NormRvortVertex => True | NormPvortVertex => V FVertex | _ => V a end)
    (over m1 (lT2 D1 (S_va cf1 m1 s))) (over m2 (lT2 D2 (S_va cf2 m2 s)))).
  { eapply (eqv_over D1 D2 p HS); [exact Ha|]. intros a ix Hva I1 I2. unfold lT2.
    destruct a; cbn [S_va]; try exact Hva; destruct ix as [|v [|k [|z ix]]]; try bad I1; cbn [rn hd1] in I2 |- *; rewrite I1, I2;
      apply inb2 in I1.
    - eapply c_rvort; fm.
    - eapply c_nrv; fm.
    - eapply c_npv; fm. }
  set (n1 := over m1 _) in A1 |- *. set (n2 := over m2 _) in A1 |- *.
  assert (W1 : wfm D1 n1) by now apply wfm_over.
  clearbody n1 n2. set (V1 := fun a => _) in A1.
  assert (HV1 : kmeshV V1) by (intros a Hm; specialize (HV a Hm); destruct a; try discriminate Hm; exact HV).
  (* cells *)
  assert (A2 : ag (fun a => match a with KeCell | VelDivCell | NormTrCell => True | _ => V1 a end)
    (over n1 (cellT D1 n1 s)) (over n2 (cellT D2 n2 s))).
  { eapply (eqv_over D1 D2 p HS); [exact A1|]. intros a ix Hva I1 I2. unfold cellT.
    destruct a; try exact Hva.
    - destruct ix as [|c [|k [|z ix]]]; try bad I1; cbn [rn hd1] in I2 |- *; rewrite I1, I2; apply inb2 in I1. eapply c_ke; fm.
    - destruct ix as [|c [|k [|z ix]]]; try bad I1; cbn [rn hd1] in I2 |- *; rewrite I1, I2; apply inb2 in I1. eapply c_div; fm.
    - destruct ix as [|l [|c [|k [|z ix]]]]; try bad I1; cbn [rn hd1] in I2 |- *; rewrite I1, I2; apply inb3 in I1.
      destruct Htr as [Htr|Htr]; [eapply c_ntr; fm|]. change (d_ntracers D1) with (ntracers P1) in I1. lia. }
  set (p1 := over n1 _) in A2 |- *. set (p2 := over n2 _) in A2 |- *.
  assert (U1 : wfm D1 p1) by now apply wfm_over.
  clearbody p1 p2. set (V2 := fun a => _) in A2.
  assert (HV2 : kmeshV V2) by (intros a Hm; specialize (HV1 a Hm); destruct a; try discriminate Hm; exact HV1).
  eapply (eqv_over D1 D2 p HS); [exact A2|]. intros a ix Hva I1 I2. unfold lT2.
  destruct a; cbn [S_ea]; try exact Hva; destruct ix as [|e [|k [|z ix]]]; try bad I1; cbn [rn hd1] in I2 |- *; rewrite I1, I2;
    apply inb2 in I1.
  - eapply c_nre; fm.
  - eapply c_npe; fm.
  - eapply c_mean; fm.
  - eapply c_mean; fm.
Qed.

Lemma r_h V t s md m1 m2 :
  wfm D1 m1 -> ag V m1 m2 -> kmeshV V -> V (VnEdge s) -> V FluxHEdge -> md = Replace \/ V (HCell t) ->
  ag (plus V (HCell t)) (h_fn S1 t s md m1) (h_fn S2 t s md m2).
Proof.
  intros Hw1 Ha HV Hv Hf Hmd.
  unfold h_fn. apply (eqv_upd D1 D2 p HS) with (ign := md = Replace); [exact Ha|exact Hmd|].
  intros ix x y I1 Hxy. destruct ix as [|c [|k [|z ix]]]; try bad I1. cbn [on2 rn hd1]. apply inb2 in I1.
  replace (zr md y) with (zr md x) by (destruct Hxy as [->| ->]; reflexivity).
  eapply c_hadv; fm.
Qed.

Lemma r_vn V t s md m1 m2 :
  disable_vn P1 = false ->
  wfm D1 m1 -> ag V m1 m2 -> kmeshV V -> V (HCell s) -> V (VnEdge s) -> V FluxHEdge -> V NormRvortEdge -> V NormPvortEdge ->
  V KeCell -> V VelDivCell -> V RvortVertex -> md = Replace \/ V (VnEdge t) ->
  ag (plus V (VnEdge t)) (vn_fn S1 t s md m1) (vn_fn S2 t s md m2).
Proof.
  intros Hen Hw1 Ha HV Hh Hv Hf Hr Hp Hk Hdv Hrv Hmd.
  unfold vn_fn. cbv zeta.
  assert (A1 : ag (fun a => V a \/ (vel_hyperdiff_enabled P1 = true /\ (a = VelDel2DivCell \/ a = VelDel2RvortVertex)))
     (hyp_fn S1 m1) (hyp_fn S2 m2)).
  { unfold hyp_fn. change (vel_hyperdiff_enabled P2) with (vel_hyperdiff_enabled P1). destruct (vel_hyperdiff_enabled P1); [|eapply eqv_weaken; [exact Ha|]; intuition discriminate].
    assert (A1 : ag (plus V VelDel2Edge) (del2_fn S1 m1) (del2_fn S2 m2)).
    { apply (eqv_upd D1 D2 p HS) with (ign := True); auto.
      intros ix x y I1 Hxy. destruct ix as [|c [|k [|z ix]]]; try bad I1. cbn [on2 rn hd1]. apply inb2 in I1.
      eapply c_del2; fm. }
    set (V1 := plus V VelDel2Edge) in *. assert (HV1 : kmeshV V1) by (intros a Hm; left; auto).
    assert (Hd1 : V1 VelDel2Edge) by now right.
    assert (W1 : wfm D1 (del2_fn S1 m1)) by now apply wfm_upd.
    set (n1 := del2_fn S1 m1) in *. set (n2 := del2_fn S2 m2) in *.
    assert (A2 : ag (plus V1 VelDel2RvortVertex) (del2r_fn S1 n1) (del2r_fn S2 n2)).
    { apply (eqv_upd D1 D2 p HS) with (ign := True); auto.
      intros ix x y I1 Hxy. destruct ix as [|c [|k [|z ix]]]; try bad I1. cbn [on2 rn hd1]. apply inb2 in I1.
      eapply c_del2r; try fm. now apply Hrl. }
    set (V2 := plus V1 VelDel2RvortVertex) in *. assert (HV2 : kmeshV V2) by (intros a Hm; left; auto).
    assert (Hd2 : V2 VelDel2Edge) by now left.
    assert (X1 : wfm D1 (del2r_fn S1 n1)) by now apply wfm_upd.
    eapply eqv_weaken; [apply (eqv_upd D1 D2 p HS) with (ign := True); [exact A2|now left|]|].
    - intros ix x y I1 Hxy. destruct ix as [|c [|k [|z ix]]]; try bad I1. cbn [on2 rn hd1]. apply inb2 in I1.
      eapply c_del2d; fm.
    - unfold V2, V1, plus. intros a. tauto. }
  set (V1 := fun a => _) in A1. assert (HV1 : kmeshV V1) by (intros a Hm; left; auto).
  assert (W1 : wfm D1 (hyp_fn S1 m1)) by now apply wfm_hyp.
 
  set (n1 := hyp_fn S1 m1) in *. set (n2 := hyp_fn S2 m2) in *. clearbody n1 n2.
  eapply eqv_weaken; [apply (eqv_upd D1 D2 p HS) with (ign := md = Replace); [exact A1|unfold V1; tauto|]|unfold plus, V1; tauto].
  intros ix x y I1 Hxy. destruct ix as [|e [|k [|z ix]]]; try bad I1. cbn [on2 rn hd1]. apply inb2 in I1.
  unfold g_vn. replace (zr md y) with (zr md x) by (destruct Hxy as [->| ->]; reflexivity). cbv zeta.
  erewrite (c_pv D1 D2 p HS V1 n1 n2) by (unfold V1 in *; tauto).
  erewrite (c_kegrad D1 D2 p HS V1 n1 n2) by (unfold V1 in *; tauto).
  erewrite (c_sshgrad D1 D2 p HS V1 n1 n2) by (unfold V1 in *; tauto).
  change (vel_diff_enabled P2) with (vel_diff_enabled P1). change (vel_hyperdiff_enabled P2) with (vel_hyperdiff_enabled P1).
  change (grav P2) with (grav P1). change (visc_del4 P2) with (visc_del4 P1). change cf2 with cf1.
  set (u := t_sshgrad _ _ _ _ _ _).
  assert (Eu : (if vel_diff_enabled P1 then t_vdiff n1 (ksimd cf1) (visc_del2 P1) e k u else u) =
     (if vel_diff_enabled P1 then t_vdiff n2 (ksimd cf1) (visc_del2 P2) (pe p e) k u else u)).
  { destruct (vel_diff_enabled P1); [|reflexivity].
    apply (c_vdiff D1 D2 p HS V1 n1 n2); unfold V1 in *; tauto. }
  rewrite Eu. destruct (vel_hyperdiff_enabled P1) eqn:Eh; [|reflexivity].
  apply (c_vhyp D1 D2 p HS V1 n1 n2); unfold V1 in *; tauto.
Qed.

Lemma r_tr V t s md m1 m2 :
  0 < ntracers P1 ->
  wfm D1 m1 -> ag V m1 m2 -> kmeshV V -> V (VnEdge s) -> V FluxHEdge -> V MeanHEdge -> V NormTrCell ->
  md = Replace \/ V (TrCell t) ->
  ag (plus V (TrCell t)) (tr_fn S1 t s md m1) (tr_fn S2 t s md m2).
Proof.
  intros Hen Hw1 Ha HV Hv Hf Hme Hn Hmd.
  unfold tr_fn. cbv zeta.
  assert (A1 : ag (fun a => V a \/ (tracer_hyperdiff_enabled P1 = true /\ a = TracerDel2Cell)) (trdel2_fn S1 m1) (trdel2_fn S2 m2)).
  { unfold trdel2_fn. change (tracer_hyperdiff_enabled P2) with (tracer_hyperdiff_enabled P1). destruct (tracer_hyperdiff_enabled P1); [|eapply eqv_weaken; [exact Ha|]; intuition discriminate].
    eapply eqv_weaken; [apply (eqv_upd D1 D2 p HS) with (ign := True); [exact Ha|now left|]|intros a; tauto].
    intros ix x y I1 Hxy. destruct ix as [|l [|c [|k [|z ix]]]]; try bad I1. cbn [on3 rn hd1]. apply inb3 in I1.
    eapply c_trdel2; fm. }
  set (V1 := fun a => _) in A1. assert (HV1 : kmeshV V1) by (intros a Hm; left; auto).
  assert (W1 : wfm D1 (trdel2_fn S1 m1)) by now apply wfm_trdel2.
 
  set (n1 := trdel2_fn S1 m1) in *. set (n2 := trdel2_fn S2 m2) in *. clearbody n1 n2.
  eapply eqv_weaken; [apply (eqv_upd D1 D2 p HS) with (ign := md = Replace); [exact A1|unfold V1; tauto|]|unfold plus, V1; tauto].
  intros ix x y I1 Hxy. destruct ix as [|l [|c [|k [|z ix]]]]; try bad I1. cbn [on3 rn hd1]. apply inb3 in I1.
  unfold g_tr. replace (zr md y) with (zr md x) by (destruct Hxy as [->| ->]; reflexivity). cbv zeta.
  erewrite (c_trhadv D1 D2 p HS V1 n1 n2) by (unfold V1 in *; tauto).
  change (tracer_diff_enabled P2) with (tracer_diff_enabled P1). change (tracer_hyperdiff_enabled P2) with (tracer_hyperdiff_enabled P1).
  change (eddy_diff4 P2) with (eddy_diff4 P1). change cf2 with cf1.
  set (u := t_trhadv _ _ _ _ _ _ _ _).
  assert (Eu : (if tracer_diff_enabled P1 then t_trdiff n1 (ksimd cf1) (eddy_diff2 P1) FluxHEdge l c k u else u) =
     (if tracer_diff_enabled P1 then t_trdiff n2 (ksimd cf1) (eddy_diff2 P2) FluxHEdge (pt p l) (pc p c) k u else u)).
  { destruct (tracer_diff_enabled P1); [|reflexivity].
    apply (c_trdiff D1 D2 p HS V1 n1 n2); unfold V1 in *; tauto. }
  rewrite Eu. destruct (tracer_hyperdiff_enabled P1) eqn:Eh; [|reflexivity].
  apply (c_trhyp D1 D2 p HS V1 n1 n2); unfold V1 in *; tauto.
Qed.

(** The hook reads the positions. *)
Definition posV V : Prop := V XCell /\ V YCell /\ V XEdge /\ V YEdge.
Lemma r_hook V t time m1 m2 :
  hook S1 = None \/ posV V ->
  ag V m1 m2 -> kmeshV V -> V (HCell t) -> V (VnEdge t) -> ag V (hook_fn S1 t time m1) (hook_fn S2 t time m2).
Proof.
  intros Hpos Ha HV Hh Hv. unfold hook_fn. change (hook S2) with (hook S1).
  destruct (hook S1) as [fc|]; [|exact Ha]. destruct Hpos as [?|(X1 & X2 & X3 & X4)]; [discriminate|]. cbv zeta.
  assert (X5 : V AngleEdge) by now apply HV.
  assert (A1 : ag V (upd D1 (HCell t) m1 (on2 (hook_h fc time m1))) (upd D2 (HCell t) m2 (on2 (hook_h fc time m2)))).
  { eapply eqv_weaken; [apply (eqv_upd D1 D2 p HS) with (ign := False); [exact Ha|now right|]|intros; now left].
    intros ix x y I1 Hxy. destruct ix as [|c [|k [|z ix]]]; try bad I1. cbn [on2 rn hd1].
    destruct Hxy as [[]| ->]. cbn [rext] in I1. apply inb2 in I1. unfold hook_h.
    rewrite !(proj2 Ha) by (assumption || apply inb1; lia). reflexivity. }
  eapply eqv_weaken; [apply (eqv_upd D1 D2 p HS) with (ign := False); [exact A1|now right|]|intros; now left].
  intros ix x y I1 Hxy. destruct ix as [|c [|k [|z ix]]]; try bad I1. cbn [on2 rn hd1].
  destruct Hxy as [[]| ->]. cbn [rext] in I1. apply inb2 in I1. unfold hook_v.
  rewrite !(proj2 A1) by (assumption || apply inb1; lia). reflexivity.
Qed.

(** Without tracers the tracer arrays have no elements. *)
Lemma agree_tr0 V m1 m2 : ntracers P1 <= 0 -> ag V m1 m2 -> ag (fun a => V a \/ is_tr a) m1 m2.
Proof.
  intros Hn [Hi Hr]. split; [exact Hi|]. intros a ix [Hv|Hq] I1; [auto|].
  destruct a; try contradiction; destruct ix as [|l [|c [|k [|z ix]]]]; try bad I1; cbn [rext] in I1; apply inb3 in I1;
    change (d_ntracers D1) with (ntracers P1) in I1; lia.
Qed.

(** The tendencies. *)
Lemma r_tendency V t s time md m1 m2 :
  hook S1 = None \/ posV V -> wfm D1 m1 -> ag V m1 m2 -> kmeshV V -> V (HCell s) -> V (VnEdge s) -> V (TrCell s) \/ ntracers P1 <= 0 ->
  (disable_vn P1 = false -> V FVertex) ->
  (md = Replace /\ disable_h P1 = false) \/ V (HCell t) ->
  (md = Replace /\ disable_vn P1 = false) \/ V (VnEdge t) ->
  md = Replace \/ V (TrCell t) \/ ntracers P1 <= 0 ->
  ag (outV V t) (tendency_fn S1 t s time md m1) (tendency_fn S2 t s time md m2).
Proof.
  intros Hpos Hw1 Ha HV Hh Hv Htr Hf Oh Ov Ot. unfold tendency_fn. cbv zeta.
  pose proof (r_aux V s m1 m2 Hw1 Ha HV Hh Hv Htr) as A1.
  assert (W1 : wfm D1 (aux_fn cf1 D1 s m1)) by now apply wfm_aux.
  set (n1 := aux_fn cf1 D1 s m1) in *. set (n2 := aux_fn cf2 D2 s m2) in *. clearbody n1 n2.
  assert (HV1 : kmeshV (auxV V)) by (intros a Hm; specialize (HV a Hm); destruct a; try discriminate Hm; exact HV).
  assert (A2 : ag (plus (auxV V) (HCell t)) (if negb (disable_h P1) then h_fn S1 t s md n1 else n1)
                                            (if negb (disable_h P2) then h_fn S2 t s md n2 else n2)).
  { change (disable_h P2) with (disable_h P1). destruct (disable_h P1).
    - cbn. eapply eqv_weaken; [exact A1|]. unfold plus. intros a [H| ->]; [exact H|]. cbn. intuition discriminate.
    - apply r_h; auto. cbn. tauto. cbn. tauto. }
  assert (W2 : wfm D1 (if negb (disable_h P1) then h_fn S1 t s md n1 else n1)) by (apply wfm_if; auto using wfm_h).
  clear W1. set (p1 := if negb (disable_h P1) then h_fn S1 t s md n1 else n1) in *.
  set (p2 := if negb (disable_h P2) then h_fn S2 t s md n2 else n2) in *. clearbody p1 p2. clear n1 n2 A1.
  assert (HV2 : kmeshV (plus (auxV V) (HCell t))) by (intros a Hm; left; auto).
  assert (A3 : ag (plus (plus (auxV V) (HCell t)) (VnEdge t)) (if negb (disable_vn P1) then vn_fn S1 t s md p1 else p1)
                                            (if negb (disable_vn P2) then vn_fn S2 t s md p2 else p2)).
  { change (disable_vn P2) with (disable_vn P1). destruct (disable_vn P1) eqn:Edv.
    - cbn. eapply eqv_weaken; [exact A2|]. unfold plus. intros a [H| ->]; [exact H|]. cbn. intuition discriminate.
    - specialize (Hf eq_refl). apply r_vn; auto; unfold plus; cbn; tauto. }
  assert (W3 : wfm D1 (if negb (disable_vn P1) then vn_fn S1 t s md p1 else p1)) by (apply wfm_if; auto using wfm_vn).
  set (q1 := if negb (disable_vn P1) then vn_fn S1 t s md p1 else p1) in *.
  set (q2 := if negb (disable_vn P2) then vn_fn S2 t s md p2 else p2) in *. clearbody q1 q2. clear p1 p2 A2 W2.
  assert (A4 : ag (outV V t) (if 0 <? ntracers P1 then tr_fn S1 t s md q1 else q1)
                                            (if 0 <? ntracers P2 then tr_fn S2 t s md q2 else q2)).
  { destruct (Z.ltb_spec 0 (ntracers P1)) as [Hn|Hn].
    - assert (Hn2 : 0 < ntracers P2) by (pose proof (ps_pt _ _ _ HS 0 ltac:(cbn; lia)) as H0; cbn in H0 |- *; lia).
      apply Z.ltb_lt in Hn2. rewrite Hn2.
      eapply eqv_weaken; [apply r_tr; [exact Hn|exact W3|exact A3|intros a Hm; left; auto| | | | |]|];
        unfold outV, plus; cbn; try tauto. destruct Ot as [?|[?|?]]; [tauto|tauto|lia].
    - eapply eqv_weaken with (V := fun a => plus (plus (auxV V) (HCell t)) (VnEdge t) a \/ is_tr a);
        [|unfold outV, plus; intros a [?|[?|[?| ->]]]; cbn; tauto].
      apply (agree_tr0 _ _ _ Hn) in A3. destruct (0 <? ntracers P2); [|exact A3].
      assert (Hno : forall a, is_tr a -> forall ix, inb (rext D1 a) ix = false).
      { intros a Hq ix. destruct (inb (rext D1 a) ix) eqn:I1; [|reflexivity].
        destruct a; try contradiction; destruct ix as [|l [|c [|k [|z ix]]]]; try bad I1; cbn [rext] in I1; apply inb3 in I1;
        change (d_ntracers D1) with (ntracers P1) in I1; lia. }
      unfold tr_fn, trdel2_fn. destruct (tracer_hyperdiff_enabled P2); repeat apply eqv_right; auto;
        intros _; apply Hno; exact I. }
  apply r_hook; [|exact A4|intros a Hm; left; auto| |]; unfold outV; try tauto.
  destruct Hpos as [?|(X1 & X2 & X3 & X4)]; [tauto|right]. repeat split; left; assumption.
Qed.
End EquivStep.
