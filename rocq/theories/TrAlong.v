(** Runs of a model that only moves the tracers: launches between which a property of the states is kept. Used to show that
    the hypotheses of the theorems on the tracer content are met by tracers that move. *)
From Coq Require Import ZArith Reals List Bool Lia Lra.
From Coq Require Import Floats.SpecFloat.
From Verif Require Import Arith Arrays Prog Conc Launch Mesh AuxVars Tend Model Hex MeshProof MeshMem Over Formulas KernBase Terms KernAux KernTend TendFn StepFn Ready Rel RelRun Relate TendVal StepVal StepRun RSum FloatFacts FloatMass FloatRun FloatRest FloatAlong.
Import ListNotations.
Open Scope Z_scope.

Section Frozen.
Context {A : Arith} (S : setup A) (Hok : setup_ok S).
Local Notation cf := (cfg_of S).
Local Notation P := (par_of S).
Local Notation D := (sdims S).
Context (En : noif cf = false) (Ev : disable_vn P = true) (Eh : disable_h P = true) (Et : 0 < ntracers P) (Ek : hook S = None).
Implicit Types (m n : mem A) (Q : mem A -> Prop).
Local Notation Hw := (ok_wfd S Hok).
Lemma trb : (0 <? ntracers P) = true. Proof. now apply Z.ltb_lt. Qed.
Lemma along_two L1 L2 n Q (f g : mem A -> mem A) : hsafe D [L1] n (fun M => meq M (f n)) -> hsafe D [L1; L2] n (fun M => meq M (g n)) ->
  Q n -> Q (f n) -> Q (g n) -> along D [L1; L2] n Q.
Proof.
  intros H1 H2 Q0 Q1 Q2 ls ls' m1 E Hx. destruct ls as [|a [|b [|b' ls]]].
  - inversion Hx; subst. exact Q0.
  - injection E as <- <-. destruct (hsafe_always _ _ _ _ H1) as [G _]. destruct (G _ Hx) as (m3 & E & E3). injection E as <-. apply meq_eq in E3. now subst m1.
  - injection E as <- <- <-. destruct (hsafe_always _ _ _ _ H2) as [G _]. destruct (G _ Hx) as (m3 & E & E3). injection E as <-. apply meq_eq in E3. now subst m1.
  - discriminate E.
Qed.
Lemma along_tend Q s time md n : about Q -> s <> Tend -> ready S n -> Q n -> along D (compute_tendency S Tend s time md) n Q.
Proof.
  intros HQ Hs Hr H0. pose proof (ready_wfm S Hok n Hr) as Hm. unfold compute_tendency, aux_compute. rewrite Ev, Eh, trb. unfold additional_tendency. rewrite Ek.
  cbn [negb whenL app]. rewrite app_nil_r.
  apply (along_cons D _ _ n Q (fun n => over n (lT2 D (S_va cf n s))) (hs_vertex cf D Hw s n Hm) H0).
  set (n1 := over n _). assert (Q1 : Q n1) by (apply (HQ n); [|exact H0]; intros a ix [Ha|Ha]; destruct a; try discriminate Ha; reflexivity).
  assert (M1 : wfm D n1) by now apply wfm_over.
  apply (along_cons D _ _ n1 Q (fun n => over n (cellT D n s)) (hs_cell cf D Hw s n1 M1 ltac:(cbn; lia)) Q1).
  set (n2 := over n1 _). assert (Q2 : Q n2) by (apply (HQ n1); [|exact Q1]; intros a ix [Ha|Ha]; destruct a; try discriminate Ha; reflexivity).
  assert (M2 : wfm D n2) by now apply wfm_over.
  apply (along_cons D _ _ n2 Q (fun n => over n (lT2 D (S_ea n s))) (hs_edge cf D Hw s n2 M2) Q2).
  set (n3 := over n2 _). assert (Q3 : Q n3) by (apply (HQ n2); [|exact Q2]; intros a ix [Ha|Ha]; destruct a; try discriminate Ha; reflexivity).
  assert (M3 : wfm D n3) by now apply wfm_over.
  pose proof (hs_tr S Hw Tend s md n3 M3) as H3.
  assert (G : forall a ix, is_st St a = true \/ is_st Provis a = true -> mr (tr_fn S Tend s md n3) a ix = mr n3 a ix).
  { intros a ix Ha. unfold tr_fn. cbv zeta. rewrite upd_other by (intros ->; destruct Ha; discriminate). unfold trdel2_fn.
    destruct (tracer_hyperdiff_enabled P); [|reflexivity]. apply upd_other. intros ->. destruct Ha; discriminate. }
  assert (Q4 : Q (tr_fn S Tend s md n3)) by (now apply (HQ n3)).
  unfold compute_tr_tendency in *. cbv zeta in *. rewrite En in *. destruct (tracer_hyperdiff_enabled P) eqn:E4; cbn [whenL app] in *.
  - apply (along_two _ _ n3 Q (trdel2_fn S) (tr_fn S Tend s md)); [|exact H3|exact Q3| |exact Q4].
    + unfold trdel2_fn. rewrite E4. apply hterm_set. apply hterm_par3 with (cf := cf); [exact Hw|reflexivity|].
      intros l c kc Hl Hc Hkc. apply term_of with (G := fun n k _ => f_trdel2 n FluxHEdge l c k); [exact M3| |].
      * intros n' Hn. apply (k_trdel2 cf D Hw); auto. now right.
      * reflexivity.
    + apply (HQ n3); [|exact Q3]. intros a ix Ha. unfold trdel2_fn. rewrite E4. apply upd_other. intros ->. destruct Ha; discriminate.
  - apply (along_one D _ n3 Q (tr_fn S Tend s md) H3 Q3 Q4).
Qed.

Ltac pvld := cbn [validb rext iext]; rewrite ?d_ntr; first [apply inb1 | apply inb2 | apply inb3]; repeat split; (assumption || lia).
Ltac prok := first [ left; reflexivity | right; cbn [own_pt]; destruct (rarr_eq_dec _ _); [reflexivity|congruence] ].
Ltac pwok := unfold Wr; cbn [own_pt]; destruct (rarr_eq_dec _ _); [reflexivity|congruence].
Ltac px :=
  repeat (cbv beta zeta;
    lazymatch goal with
    | |- safe _ (bind _ _) _ _ _ _ => apply safe_bind
    | |- safe _ (rdr _ _) _ _ _ _ => apply safe_rdr; [pvld | prok | ]
    | |- safe _ (str _ _ _) _ _ _ _ => apply safe_str; [pvld | pwok | ]
    end); cbv beta zeta; rewrite ?ov_same; try reflexivity.
(** The memories after one and after two of the three loops of an update. *)
Definition ax1 dst base (dt b : F A) n : mem A :=
  upd D (HCell dst) n (on2 (fun c k x => if sid_eq_dec dst base then x + dt * b * mr n (HCell Tend) [c; k]
                                     else mr n (HCell base) [c; k] + dt * b * mr n (HCell Tend) [c; k])%fp).
Definition ax2 dst base (dt b : F A) n : mem A :=
  upd D (VnEdge dst) (ax1 dst base dt b n) (on2 (fun e k x => if sid_eq_dec dst base then x + dt * b * mr n (VnEdge Tend) [e; k]
                                     else mr n (VnEdge base) [e; k] + dt * b * mr n (VnEdge Tend) [e; k])%fp).
Lemma ax_mix dst base (dt b : F A) n Q : mixes Q -> Q n -> Q (axpy S dst base dt b n) -> Q (ax1 dst base dt b n) /\ Q (ax2 dst base dt b n).
Proof.
  intros HQ Q0 Q1. unfold axpy in Q1. rewrite trb in Q1. cbv zeta in Q1. fold (ax1 dst base dt b n) in Q1. fold (ax2 dst base dt b n) in Q1.
  match type of Q1 with Q ?x => set (n3 := x) in * end.
  assert (E2 : forall a ix, a <> TrCell dst -> mr n3 a ix = mr (ax2 dst base dt b n) a ix) by (intros; unfold n3; now apply upd_other).
  assert (E1 : forall a ix, a <> VnEdge dst -> mr (ax2 dst base dt b n) a ix = mr (ax1 dst base dt b n) a ix) by (intros; unfold ax2; now apply upd_other).
  assert (E0 : forall a ix, a <> HCell dst -> mr (ax1 dst base dt b n) a ix = mr n a ix) by (intros; unfold ax1; now apply upd_other).
  split; apply (HQ n n3); auto; intros a ix _.
  - destruct (rarr_eq_dec a (HCell dst)) as [->|Na]; [right; now rewrite E2, E1 by discriminate|left; now apply E0].
  - destruct (rarr_eq_dec a (TrCell dst)) as [->|Na]; [left; now rewrite E1, E0 by discriminate|right; symmetry; now apply E2].
Qed.
Lemma along_three L1 L2 L3 dst base (dt b : F A) n Q : mixes Q -> Q n -> Q (axpy S dst base dt b n) ->
  hsafe D [L1] n (fun M => meq M (ax1 dst base dt b n)) ->
  hsafe D [L2] (ax1 dst base dt b n) (fun M => meq M (ax2 dst base dt b n)) ->
  hsafe D [L3] (ax2 dst base dt b n) (fun M => meq M (axpy S dst base dt b n)) ->
  along D [L1; L2; L3] n Q.
Proof.
  intros HQ Q0 Q3 H1 H2 H3. destruct (ax_mix dst base dt b n Q HQ Q0 Q3) as [Q1 Q2].
  apply (along_cons D L1 [L2; L3] n Q (fun _ => ax1 dst base dt b n) H1 Q0).
  apply (along_cons D L2 [L3] (ax1 dst base dt b n) Q (fun _ => ax2 dst base dt b n) H2 Q1).
  now apply (along_one D L3 (ax2 dst base dt b n) Q (fun _ => axpy S dst base dt b n) H3).
Qed.
Lemma along_acc Q (dt b : F A) n : mixes Q -> Q n -> Q (axpy S St St dt b n) -> along D (accumulate S dt b) n Q.
Proof.
  intros HQ Q0 Q1. unfold accumulate. rewrite trb. cbn [whenL app].
  apply (along_three _ _ _ St St dt b n Q HQ Q0 Q1).
  - unfold ax1. apply hs_pt2; [reflexivity|]; intros i k T Hi Hk; px.
  - unfold ax2, ax1. apply hs_pt2; [reflexivity|]; intros i k T Hi Hk; px.
  - unfold axpy. rewrite trb. cbv zeta. unfold ax2, ax1. apply hs_pt3; [reflexivity|]; intros l i k T Hl Hi Hk; px.
Qed.
Lemma along_prov Q (dt b : F A) n : mixes Q -> Q n -> Q (axpy S Provis Old dt b n) -> along D (provis S dt b) n Q.
Proof.
  intros HQ Q0 Q1. unfold provis. rewrite trb. cbn [whenL app].
  apply (along_three _ _ _ Provis Old dt b n Q HQ Q0 Q1).
  - unfold ax1. apply hs_pt2; [reflexivity|]; intros i k T Hi Hk; px.
  - unfold ax2, ax1. apply hs_pt2; [reflexivity|]; intros i k T Hi Hk; px.
  - unfold axpy. rewrite trb. cbv zeta. unfold ax2, ax1. apply hs_pt3; [reflexivity|]; intros l i k T Hl Hi Hk; px.
Qed.
Lemma along_scale Q (x : F A) n : about Q -> Q n -> along D (scale_tend S x) n Q.
Proof.
  intros HQ Q0. unfold scale_tend. rewrite trb. cbn [whenL app].
  eapply (along_cons D _ _ n Q (fun m => upd D (HCell Tend) m (on2 (fun c k y => y * x)%fp))); [apply hs_pt2; [reflexivity|]; intros i k T Hi Hk; px|exact Q0|].
  cbv beta. set (n1 := upd D (HCell Tend) n _). assert (Q1 : Q n1) by now apply about_upd.
  eapply (along_cons D _ _ n1 Q (fun m => upd D (VnEdge Tend) m (on2 (fun c k y => y * x)%fp))); [apply hs_pt2; [reflexivity|]; intros i k T Hi Hk; px|exact Q1|].
  cbv beta. set (n2 := upd D (VnEdge Tend) n1 _). assert (Q2 : Q n2) by now apply about_upd.
  eapply (along_one D _ n2 Q (fun m => upd D (TrCell Tend) m (on3 (fun l c k y => y * x)%fp))); [apply hs_pt3; [reflexivity|]; intros l i k T Hl Hi Hk; px|exact Q2|].
  now apply about_upd.
Qed.
End Frozen.
