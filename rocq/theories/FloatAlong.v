(** Runs whose intermediate memories keep a bound: used to show that the hypotheses of the theorems on rounding errors
    are met by flows that move. *)
From Coq Require Import ZArith Reals List Bool Lia Lra.
From Coq Require Import Floats.SpecFloat.
From Flocq Require Import Core.Core.
From Verif Require Import Arith Arrays Prog Conc Launch Mesh AuxVars Tend Model Hex MeshProof MeshMem Over Formulas KernBase Terms KernAux KernTend TendFn StepFn Ready Rel RelRun Relate TendVal StepVal StepRun RSum FloatFacts FloatMass FloatRun FloatRest.
Import ListNotations.
Open Scope Z_scope.

Section Along.
Context {A : Arith} (D : dims).
Implicit Types (m : mem A) (Ls : list (launch A)).
Lemma exec_split L1 L2 m m2 : exec D (L1 ++ L2) m (OK m2) -> exists m1, exec D L1 m (OK m1) /\ exec D L2 m1 (OK m2).
Proof.
  revert m. induction L1 as [|L L1 IH]; intros m H; [exists m; split; [constructor|exact H]|].
  inversion H as [|L0 Ls0 m0 m' o Hl Hx|]; subst. destruct (IH _ Hx) as (m1 & H1 & H2). exists m1. split; [|exact H2]. econstructor; eauto.
Qed.
Lemma along_app L1 L2 m Q : along D L1 m Q -> (forall m1, exec D L1 m (OK m1) -> along D L2 m1 Q) -> along D (L1 ++ L2) m Q.
Proof.
  intros H1 H2 ls ls' m1 E Hx. revert H1 H2. destruct (Nat.le_gt_cases (length ls) (length L1)) as [H|H]; intros H1 H2.
  - apply (H1 ls (skipn (length ls) L1) m1); [|exact Hx]. assert (E1 : firstn (length ls) (L1 ++ L2) = ls) by now rewrite E, firstn_app, Nat.sub_diag, firstn_all, app_nil_r.
    rewrite firstn_app in E1. replace (length ls - length L1)%nat with 0%nat in E1 by lia. cbn [firstn] in E1. rewrite app_nil_r in E1.
    rewrite <- E1 at 1. symmetry. apply firstn_skipn.
  - assert (E1 : firstn (length L1) ls = L1).
    { assert (E2 : firstn (length L1) (L1 ++ L2) = L1) by now rewrite firstn_app, Nat.sub_diag, firstn_all, app_nil_r.
      rewrite E, firstn_app in E2. replace (length L1 - length ls)%nat with 0%nat in E2 by lia. cbn [firstn] in E2. now rewrite app_nil_r in E2. }
    rewrite <- (firstn_skipn (length L1) ls), E1 in Hx, E. destruct (exec_split _ _ _ _ Hx) as (m2 & X1 & X2).
    apply (H2 m2 X1 _ ls' m1) in X2; [exact X2|]. rewrite <- app_assoc in E. now apply app_inv_head in E.
Qed.
Lemma along_fn L1 L2 m Q (f : mem A -> mem A) : hsafe D L1 m (fun M => meq M (f m)) -> along D L1 m Q -> along D L2 (f m) Q -> along D (L1 ++ L2) m Q.
Proof.
  intros H H1 H2. apply along_app; [exact H1|]. intros m1 Hx. destruct (hsafe_always _ _ _ _ H) as [G _].
  destruct (G _ Hx) as (m3 & E & E3). injection E as <-. apply meq_eq in E3. now subst m1.
Qed.
Lemma along_nil m (Q : mem A -> Prop) : Q m -> along D [] m Q.
Proof. intros H ls ls' m1 E Hx. symmetry in E. apply app_eq_nil in E as [-> ->]. inversion Hx; subst. exact H. Qed.
Lemma along_one L m (Q : mem A -> Prop) (f : mem A -> mem A) : hsafe D [L] m (fun M => meq M (f m)) -> Q m -> Q (f m) -> along D [L] m Q.
Proof.
  intros H H0 H1 ls ls' m1 E Hx. destruct ls as [|a [|b ls]].
  - inversion Hx; subst. exact H0.
  - injection E as <- <-. destruct (hsafe_always _ _ _ _ H) as [G _]. destruct (G _ Hx) as (m3 & E & E3). injection E as <-. apply meq_eq in E3. now subst m1.
  - discriminate E.
Qed.
Lemma along_cons L L2 m (Q : mem A -> Prop) (f : mem A -> mem A) : hsafe D [L] m (fun M => meq M (f m)) -> Q m -> along D L2 (f m) Q -> along D (L :: L2) m Q.
Proof.
  intros H H0 H1. apply (along_fn [L] L2 m Q f H); [|exact H1]. apply (along_one L m Q f H H0). now apply along_here in H1.
Qed.
End Along.

(** Launches of a model that only moves the thickness. *)
Section Frozen.
Context {A : Arith} (S : setup A) (Hok : setup_ok S).
Local Notation cf := (cfg_of S).
Local Notation P := (par_of S).
Local Notation D := (sdims S).
Context (En : noif cf = false) (Ev : disable_vn P = true) (Eh : disable_h P = false) (Et : ntracers P = 0) (Ek : hook S = None).
Implicit Types (m n : mem A) (Q : mem A -> Prop).
Local Notation Hw := (ok_wfd S Hok).
(** A property of the state and of the provisional state. *)
Definition about Q : Prop := forall m m', (forall a ix, is_st St a = true \/ is_st Provis a = true -> mr m' a ix = mr m a ix) -> Q m -> Q m'.
Lemma along_tend Q s time md n : about Q -> s <> Tend -> ready S n -> Q n -> along D (compute_tendency S Tend s time md) n Q.
Proof.
  intros HQ Hs Hr H0. pose proof (ready_wfm S Hok n Hr) as Hm. unfold compute_tendency, aux_compute. rewrite Ev, Eh, Et. unfold additional_tendency. rewrite Ek.
  cbn [negb whenL Z.ltb Z.compare app]. rewrite app_nil_r.
  apply (along_cons D _ _ n Q (fun n => over n (lT2 D (S_va cf n s))) (hs_vertex cf D Hw s n Hm) H0).
  set (n1 := over n _). assert (Q1 : Q n1) by (apply (HQ n); [|exact H0]; intros a ix [Ha|Ha]; destruct a; try discriminate Ha; reflexivity).
  assert (M1 : wfm D n1) by now apply wfm_over.
  apply (along_cons D _ _ n1 Q (fun n => over n (cellT D n s)) (hs_cell cf D Hw s n1 M1 ltac:(cbn; lia)) Q1).
  set (n2 := over n1 _). assert (Q2 : Q n2) by (apply (HQ n1); [|exact Q1]; intros a ix [Ha|Ha]; destruct a; try discriminate Ha; reflexivity).
  assert (M2 : wfm D n2) by now apply wfm_over.
  apply (along_cons D _ _ n2 Q (fun n => over n (lT2 D (S_ea n s))) (hs_edge cf D Hw s n2 M2) Q2).
  set (n3 := over n2 _). assert (Q3 : Q n3) by (apply (HQ n2); [|exact Q2]; intros a ix [Ha|Ha]; destruct a; try discriminate Ha; reflexivity).
  assert (M3 : wfm D n3) by now apply wfm_over.
  pose proof (hs_h S Hw Tend s md n3 M3) as H3. unfold compute_h_tendency in *. rewrite En in *.
  apply (along_one D _ n3 Q (h_fn S Tend s md) H3 Q3). apply (HQ n3); [|exact Q3].
  intros a ix Ha. unfold h_fn. apply upd_other. intros ->. destruct Ha; discriminate.
Qed.

(** A property that holds of each value by itself. *)
Definition mixes Q : Prop := forall m1 m2 m, (forall a ix, is_st St a = true \/ is_st Provis a = true -> mr m a ix = mr m1 a ix \/ mr m a ix = mr m2 a ix) ->
  Q m1 -> Q m2 -> Q m.
Lemma mixes_about Q : mixes Q -> about Q.
Proof. intros H m m' E HQ. apply (H m m m'); auto. Qed.
Ltac pvld := cbn [validb rext iext]; first [apply inb1 | apply inb2 | apply inb3]; repeat split; (assumption || lia).
Ltac prok := first [ left; reflexivity | right; cbn [own_pt]; destruct (rarr_eq_dec _ _); [reflexivity|congruence] ].
Ltac pwok := unfold Wr; cbn [own_pt]; destruct (rarr_eq_dec _ _); [reflexivity|congruence].
Ltac px :=
  repeat (cbv beta zeta;
    lazymatch goal with
    | |- safe _ (bind _ _) _ _ _ _ => apply safe_bind
    | |- safe _ (rdr _ _) _ _ _ _ => apply safe_rdr; [pvld | prok | ]
    | |- safe _ (str _ _ _) _ _ _ _ => apply safe_str; [pvld | pwok | ]
    end); cbv beta zeta; rewrite ?ov_same; try reflexivity.
Lemma axpy_half Q dst base (dt b : F A) n L1 L2 : mixes Q -> Q n -> Q (axpy S dst base dt b n) ->
  hsafe D [L1] n (fun M => meq M (upd D (HCell dst) n (on2 (fun c k x => if sid_eq_dec dst base then x + dt * b * mr n (HCell Tend) [c; k]
                                     else mr n (HCell base) [c; k] + dt * b * mr n (HCell Tend) [c; k])%fp))) ->
  hsafe D [L2] (upd D (HCell dst) n (on2 (fun c k x => if sid_eq_dec dst base then x + dt * b * mr n (HCell Tend) [c; k]
                                     else mr n (HCell base) [c; k] + dt * b * mr n (HCell Tend) [c; k])%fp)) (fun M => meq M (axpy S dst base dt b n)) ->
  along D [L1; L2] n Q.
Proof.
  intros HQ Q0 Q1 H1 H2. apply (along_cons D L1 [L2] n Q (fun n => upd D (HCell dst) n (on2 (fun c k x => if sid_eq_dec dst base then x + dt * b * mr n (HCell Tend) [c; k]
                                     else mr n (HCell base) [c; k] + dt * b * mr n (HCell Tend) [c; k])%fp)) H1 Q0).
  cbv beta. set (n1 := upd D (HCell dst) n _) in *.
  apply (along_one D L2 n1 Q (fun _ => axpy S dst base dt b n) H2); [|exact Q1].
  apply (HQ n (axpy S dst base dt b n)); auto. intros a ix _. unfold axpy. rewrite Et. change (0 <? 0) with false. cbv zeta iota. fold n1.
  destruct (rarr_eq_dec a (VnEdge dst)) as [->|Na]; [left; unfold n1; apply upd_other; discriminate|right; symmetry; now apply upd_other].
Qed.
Lemma along_acc Q (dt b : F A) n : mixes Q -> Q n -> Q (axpy S St St dt b n) -> along D (accumulate S dt b) n Q.
Proof.
  intros HQ Q0 Q1. unfold accumulate. rewrite Et. cbn [whenL Z.ltb Z.compare app].
  apply (axpy_half Q St St dt b n); auto.
  - apply hs_pt2; [reflexivity|]; intros i k T Hi Hk; px.
  - unfold axpy. rewrite Et. change (0 <? 0) with false. cbv zeta iota. apply hs_pt2; [reflexivity|]; intros i k T Hi Hk; px.
Qed.
Lemma along_prov Q (dt b : F A) n : mixes Q -> Q n -> Q (axpy S Provis Old dt b n) -> along D (provis S dt b) n Q.
Proof.
  intros HQ Q0 Q1. unfold provis. rewrite Et. cbn [whenL Z.ltb Z.compare app].
  apply (axpy_half Q Provis Old dt b n); auto.
  - apply hs_pt2; [reflexivity|]; intros i k T Hi Hk; px.
  - unfold axpy. rewrite Et. change (0 <? 0) with false. cbv zeta iota. apply hs_pt2; [reflexivity|]; intros i k T Hi Hk; px.
Qed.
Lemma about_upd Q (t : rarr) n g : about Q -> is_st St t = false -> is_st Provis t = false -> Q n -> Q (upd D t n g).
Proof. intros HQ N1 N2. apply HQ. intros a ix Ha. apply upd_other. intros ->. destruct Ha; congruence. Qed.
Lemma along_save Q n : about Q -> Q n ->
  along D [deep_copy_rr D (HCell Old) (HCell St); deep_copy_rr D (VnEdge Old) (VnEdge St); deep_copy_rr D (TrCell Old) (TrCell St)] n Q.
Proof.
  intros HQ Q0. eapply (along_cons D _ _ n Q (fun m => upd D (HCell Old) m (fun ix _ => mr m (HCell St) ix))); [apply hs_copy; [discriminate|reflexivity]|exact Q0|].
  cbv beta. set (n1 := upd D (HCell Old) n _). assert (Q1 : Q n1) by now apply about_upd.
  eapply (along_cons D _ _ n1 Q (fun m => upd D (VnEdge Old) m (fun ix _ => mr m (VnEdge St) ix))); [apply hs_copy; [discriminate|reflexivity]|exact Q1|].
  cbv beta. set (n2 := upd D (VnEdge Old) n1 _). assert (Q2 : Q n2) by now apply about_upd.
  eapply (along_one D _ n2 Q (fun m => upd D (TrCell Old) m (fun ix _ => mr m (TrCell St) ix))); [apply hs_copy; [discriminate|reflexivity]|exact Q2|].
  now apply about_upd.
Qed.
Lemma along_scale Q (x : F A) n : about Q -> Q n -> along D (scale_tend S x) n Q.
Proof.
  intros HQ Q0. unfold scale_tend. rewrite Et. cbn [whenL Z.ltb Z.compare app].
  eapply (along_cons D _ _ n Q (fun m => upd D (HCell Tend) m (on2 (fun c k y => y * x)%fp))); [apply hs_pt2; [reflexivity|]; intros i k T Hi Hk; px|exact Q0|].
  cbv beta. set (n1 := upd D (HCell Tend) n _). assert (Q1 : Q n1) by now apply about_upd.
  eapply (along_one D _ n1 Q (fun m => upd D (VnEdge Tend) m (on2 (fun c k y => y * x)%fp))); [apply hs_pt2; [reflexivity|]; intros i k T Hi Hk; px|exact Q1|].
  now apply about_upd.
Qed.
End Frozen.
