(** The constructors and the initial condition as functions on memories; what they leave behind. *)
From Coq Require Import ZArith List Bool Lia.
From Verif Require Import Arith Arrays Prog Conc Launch Mesh AuxVars Tend Model Hex MeshProof MeshMem Over Formulas KernBase Terms KernAux KernTend TendFn StepFn Ready Rel RelRun Relate TendVal StepVal Driver.
Import ListNotations.
Open Scope Z_scope.

Section DriverFn.
Context {A : Arith} (S : setup A).
Local Notation cf := (cfg_of S).
Local Notation P := (par_of S).
Local Notation D := (sdims S).
Implicit Types (m : mem A).

Definition zero_fields : fields A := mkFields (fun _ _ => (#0)%fp) (fun _ _ => (#0)%fp) (fun _ _ _ => (#0)%fp).

Definition zero_fn (s : sid) m : mem A :=
  upd D (TrCell s) (upd D (VnEdge s) (upd D (HCell s) m (fun _ _ => (#0)%fp)) (fun _ _ => (#0)%fp)) (fun _ _ => (#0)%fp).
Lemma hs_state_ctor s m : hsafe D (state_ctor S s) m (fun M => meq M (zero_fn s m)).
Proof.
  unfold state_ctor, zero_fn. apply (hsafe_seq D [_; _] [_] _ (upd D (VnEdge s) (upd D (HCell s) m (fun _ _ => (#0)%fp)) (fun _ _ => (#0)%fp))); [|apply hs_fill].
  apply (hsafe_seq D [_] [_] _ (upd D (HCell s) m (fun _ _ => (#0)%fp))); apply hs_fill.
Qed.
Definition stepper_fn (st : stepper) m : mem A :=
  match st with RK4 => zero_fn Old (zero_fn Provis (zero_fn Tend m)) | LSRK _ => lsrk_init_fn S (zero_fn Tend m) end.
Lemma hs_stepper_ctor st m : hsafe D (stepper_ctor S st) m (fun M => meq M (stepper_fn st m)).
Proof.
  destruct st as [|n]; cbn [stepper_ctor stepper_fn].
  - unfold rk4_ctor. eapply hsafe_seq; [apply hs_state_ctor|]. eapply hsafe_seq; apply hs_state_ctor.
  - eapply hsafe_seq; [apply hs_state_ctor|]. apply hs_lsrk_ctor.
Qed.

Ltac pvld := cbn [validb rext iext]; rewrite ?d_ntr; first [apply inb1 | apply inb2 | apply inb3]; repeat split; (assumption || lia).
Ltac prok :=
  first [ left; reflexivity
        | right; cbn [own_pt]; destruct (rarr_eq_dec _ _); [reflexivity|congruence] ].
Ltac pwok := unfold Wr; cbn [own_pt]; destruct (rarr_eq_dec _ _); [reflexivity|congruence].
Ltac px :=
  repeat (cbv beta zeta;
    lazymatch goal with
    | |- safe _ (bind _ _) _ _ _ _ => apply safe_bind
    | |- safe _ (rdr _ _) _ _ _ _ => apply safe_rdr; [pvld | prok | ]
    | |- safe _ (str _ _ _) _ _ _ _ => apply safe_str; [pvld | pwok | ]
    end); cbv beta zeta; rewrite ?ov_same; try reflexivity.

Definition ih (I : initial A) m (c k : Z) (_ : F A) : F A := ini_h I (mr m XCell [c]) (mr m YCell [c]).
Definition it (I : initial A) m (l c k : Z) (_ : F A) : F A := ini_tr I l (mr m XCell [c]) (mr m YCell [c]).
Definition iv (I : initial A) m (e k : Z) (_ : F A) : F A :=
  (fcos (mr m AngleEdge [e]) * ini_vx I (mr m XEdge [e]) (mr m YEdge [e]) +
   fsin (mr m AngleEdge [e]) * ini_vy I (mr m XEdge [e]) (mr m YEdge [e]))%fp.
Definition init_fn (I : initial A) m : mem A :=
  let m1 := upd D (HCell St) m (on2 (ih I m)) in
  let m2 := if 0 <? ntracers P then upd D (TrCell St) m1 (on3 (it I m1)) else m1 in
  upd D (VnEdge St) m2 (on2 (iv I m2)).
Lemma hs_init I m : hsafe D (init_state S I) m (fun M => meq M (init_fn I m)).
Proof.
  unfold init_state, init_fn. cbv zeta. eapply hsafe_seq; [|eapply hsafe_seq].
  - apply hs_pt2 with (a := HCell St) (g := ih I m); [reflexivity|]. intros i k T Hi Hk. px.
  - eapply hsafe_when with (f := fun m1 => upd D (TrCell St) m1 (on3 (it I m1))).
    apply hs_pt3 with (a := TrCell St) (g := it I _); [reflexivity|]. intros l i k T Hl Hi Hk. px.
  - apply hs_pt2 with (a := VnEdge St) (g := iv I _); [reflexivity|]. intros i k T Hi Hk. px.
Qed.

Lemma cst_zero s m : cst m (zero_fn s m).
Proof. unfold zero_fn. repeat (apply cst_upd'; [reflexivity|]). apply cst_refl. Qed.
Lemma cst_stepper st m : cst m (stepper_fn st m).
Proof.
  destruct st; cbn [stepper_fn].
  - eapply cst_trans; [eapply cst_trans|]; apply cst_zero.
  - eapply cst_trans; [apply cst_zero|apply cst_init].
Qed.
Lemma cst_init_state I m : cst m (init_fn I m).
Proof.
  unfold init_fn. cbv zeta. apply cst_upd'; [reflexivity|]. apply cst_if; repeat (apply cst_upd'; [reflexivity|]); apply cst_refl.
Qed.

Lemma holds_zero s m : holds S s (zero_fn s m) zero_fields.
Proof.
  intros k Hk. repeat split; intros; unfold zero_fn.
  - rewrite !upd_other by discriminate. apply upd_same. now apply inb2.
  - rewrite upd_other by discriminate. apply upd_same. now apply inb2.
  - apply upd_same. now apply inb3.
Qed.
Lemma holds_zero_other s s' m y : s <> s' -> holds S s m y -> holds S s (zero_fn s' m) y.
Proof.
  intros Hn H k Hk. destruct (H k Hk) as (H1 & H2 & H3). unfold zero_fn.
  repeat split; intros; rewrite !upd_other by congruence; auto.
Qed.
Lemma holds_lsrk_init m : holds S Tend (lsrk_init_fn S m) zero_fields.
Proof.
  intros k Hk. unfold lsrk_init_fn. cbv zeta. destruct (Z.ltb_spec 0 (ntracers P)); repeat split; intros.
  - rewrite !upd_other by discriminate. apply upd_same. now apply inb2.
  - rewrite upd_other by discriminate. apply upd_same. now apply inb2.
  - apply upd_same. now apply inb3.
  - rewrite upd_other by discriminate. apply upd_same. now apply inb2.
  - apply upd_same. now apply inb2.
  - lia.
Qed.
Lemma holds_stepper st m : holds S Tend (stepper_fn st m) zero_fields.
Proof.
  destruct st; cbn [stepper_fn]; [|apply holds_lsrk_init].
  apply holds_zero_other; [discriminate|]. apply holds_zero_other; [discriminate|]. apply holds_zero.
Qed.
Definition ini_fields (I : initial A) m : fields A :=
  mkFields (fun c k => ini_h I (mr m XCell [c]) (mr m YCell [c]))
    (fun e k => (fcos (mr m AngleEdge [e]) * ini_vx I (mr m XEdge [e]) (mr m YEdge [e]) +
       fsin (mr m AngleEdge [e]) * ini_vy I (mr m XEdge [e]) (mr m YEdge [e]))%fp)
    (fun l c k => ini_tr I l (mr m XCell [c]) (mr m YCell [c])).
Lemma holds_init I m : holds S St (init_fn I m) (ini_fields I m).
Proof.
  intros k Hk. unfold init_fn. cbv zeta. destruct (Z.ltb_spec 0 (ntracers P)); repeat split; intros.
  - rewrite !upd_other by discriminate. rewrite upd_same by now apply inb2. reflexivity.
  - rewrite upd_same by now apply inb2. cbn [on2]. unfold iv. rewrite !upd_other by discriminate. reflexivity.
  - rewrite upd_other by discriminate. rewrite upd_same by now apply inb3. cbn [on3]. unfold it.
    rewrite !upd_other by discriminate. reflexivity.
  - rewrite upd_other by discriminate. rewrite upd_same by now apply inb2. reflexivity.
  - rewrite upd_same by now apply inb2. cbn [on2]. unfold iv. rewrite !upd_other by discriminate. reflexivity.
  - lia.
Qed.
Lemma init_other I m s y : s <> St -> holds S s m y -> holds S s (init_fn I m) y.
Proof.
  intros Hs H k Hk. destruct (H k Hk) as (H1 & H2 & H3). unfold init_fn. cbv zeta.
  destruct (0 <? ntracers P); repeat split; intros; rewrite !upd_other by congruence; auto.
Qed.

Context (Hok : setup_ok S).

(** A hierarchical proof of safety and one execution determine all results. *)
Lemma hsafe_exec Ls m (Q : mem A -> Prop) m0 : hsafe D Ls m Q -> exec D Ls m (OK m0) -> hsafe D Ls m (fun M => meq M m0).
Proof.
  intros H. revert m0. induction H as [m Q HQ|L Ls m W Q Post Hd Hk IH]; intros m0 Hx.
  - inversion Hx; subst. constructor. apply meq_refl.
  - inversion Hx as [|? ? ? m' ? Hl Hx'|]; subst.
    destruct (drf_lexec _ _ _ _ _ _ Hd Hl) as (M' & E & HM'). injection E as <-.
    econstructor; [exact Hd|]. intros M HM. specialize (IH _ HM' _ Hx').
    eapply hsafe_meq; [|  |exact IH].
    + exact (final_char_det _ _ _ _ _ _ _ HM' HM).
    + cbn. intros n n' E1 E2. eapply meq_trans; [apply meq_sym; exact E1|exact E2].
Qed.

Lemma hs_constructors st : exists m0, constructed S m0 /\
  hsafe D (constructors S st) (mzero A) (fun M => meq M (stepper_fn st (zero_fn St m0))).
Proof.
  destruct (constructed_ex S Hok) as (m0 & H0). exists m0. split; [exact H0|].
  unfold constructors. eapply hsafe_seq; [eapply hsafe_exec; [apply (ctor_hsafe S Hok); apply meq_refl|exact H0]|].
  eapply hsafe_seq; [apply hs_state_ctor|apply hs_stepper_ctor].
Qed.
Lemma constructed_ready m0 : constructed S m0 -> ready S m0.
Proof. intros H. exists m0. auto. Qed.

Lemma hs_prologue st I : exists m0, constructed S m0 /\
  hsafe D (prologue S st I) (mzero A) (fun M => meq M (init_fn I (stepper_fn st (zero_fn St m0)))).
Proof.
  destruct (hs_constructors st) as (m0 & H0 & H). exists m0. split; [exact H0|].
  unfold prologue. eapply hsafe_seq; [exact H|apply hs_init].
Qed.
Definition run_fn (st : stepper) steps m : mem A :=
  match st with RK4 => rk4_run_fn S steps m | LSRK n => lsrk_run_fn S n steps m end.
Lemma hs_stepper_run st steps m : wfm D m -> hsafe D (stepper_run S st steps) m (fun M => meq M (run_fn st steps m)).
Proof. intros Hm. destruct st; [now apply hs_rk4_run|now apply hs_lsrk_run]. Qed.

Lemma prologue_ready st I m0 : constructed S m0 -> ready S (init_fn I (stepper_fn st (zero_fn St m0))).
Proof.
  intros H. apply constructed_ready in H. eapply ready_cst; [|exact H].
  eapply cst_trans; [eapply cst_trans|]; [apply cst_zero|apply cst_stepper|apply cst_init_state].
Qed.
Lemma hs_program st I steps : exists m0, constructed S m0 /\
  hsafe D (program S st I steps) (mzero A) (fun M => meq M (run_fn st steps (init_fn I (stepper_fn st (zero_fn St m0))))).
Proof.
  destruct (hs_prologue st I) as (m0 & H0 & H). exists m0. split; [exact H0|].
  unfold program. eapply hsafe_seq; [exact H|]. apply hs_stepper_run. apply ready_wfm; auto. now apply prologue_ready.
Qed.

(** What the steps start from. *)
Lemma prologue_spec st I m : exec D (prologue S st I) (mzero A) (OK m) ->
  ready S m /\ holds S Tend m zero_fields /\ holds S St m (ini_fields I m).
Proof.
  intros Hx. destruct (hs_prologue st I) as (m0 & H0 & H). apply hsafe_always in H. destruct H as [H _].
  destruct (H _ Hx) as (m' & E & HE). injection E as <-. apply meq_sym in HE.
  pose proof (prologue_ready st I m0 H0) as R. split; [exact (ready_meq S _ _ HE R)|]. split.
  - eapply holds_meq; [exact HE|]. apply init_other; [discriminate|]. apply holds_stepper.
  - eapply holds_meq; [exact HE|]. pose proof (holds_init I (stepper_fn st (zero_fn St m0))) as Hi.
    assert (C : forall a ix, const_loc (LR a ix) = true -> mr m a ix = mr (stepper_fn st (zero_fn St m0)) a ix).
    { intros a ix Ha. rewrite <- (proj2 HE). apply mget_r. now apply cst_init_state. }
    intros k Hk. destruct (Hi k Hk) as (H1 & H2 & H3). unfold ini_fields in *. cbn [fh fv ft] in *.
    repeat split; intros; rewrite !C by reflexivity; auto.
Qed.
Lemma program_split st I steps (Q : mem A -> mem A -> Prop) :
  (forall m, exec D (prologue S st I) (mzero A) (OK m) -> always D (stepper_run S st steps) m (Q m)) ->
  always D (program S st I steps) (mzero A) (fun m' => exists m, exec D (prologue S st I) (mzero A) (OK m) /\ Q m m').
Proof.
  intros H. destruct (hs_prologue st I) as (m0 & _ & Hp). apply hsafe_always in Hp. destruct Hp as [P1 [m P2]].
  split.
  - intros o Ho. unfold program in Ho. apply exec_app in Ho. destruct Ho as [(m1 & X1 & X2)|[-> X]].
    + destruct (H m1 X1) as [G _]. destruct (G _ X2) as (m2 & -> & HQ). exists m2. split; [reflexivity|]. eauto.
    + destruct (P1 _ X) as (m1 & E & _). discriminate.
  - destruct (H m P2) as [_ [m2 X2]]. exists m2. unfold program. apply exec_app. left. eauto.
Qed.

Lemma fresh_spec st m : fresh S st m -> ready S m /\ holds S Tend m zero_fields.
Proof.
  intros (m1 & Hx & Hm). destruct (hs_constructors st) as (m0 & H0 & H). apply hsafe_always in H. destruct H as [H _].
  destruct (H _ Hx) as (m' & E & HE). injection E as <-.
  assert (C : cst m0 m1).
  { eapply cst_meq; [exact HE|]. eapply cst_trans; [apply cst_zero|apply cst_stepper]. }
  split.
  - eapply ready_frame; [|exact (constructed_ready m0 H0)]. intros l Hl. rewrite <- (C l Hl). apply Hm.
    intros ix. repeat split; intros ->; discriminate.
  - apply meq_sym in HE. pose proof (holds_meq S Tend _ _ _ HE (holds_stepper st (zero_fn St m0))) as Z.
    intros k Hk. destruct (Z k Hk) as (Z1 & Z2 & Z3).
    repeat split; intros;
      match goal with |- mr _ ?a ?ix = _ => rewrite (mget_r m m1 a ix) by (apply Hm; intros ?; repeat split; discriminate) end; auto.
Qed.
(** The prologue leaves a fresh memory, so does any contents of the state. *)
Lemma fresh_any st (g : rarr -> list Z -> F A) : exists m, fresh S st m /\
  forall ix, mr m (HCell St) ix = g (HCell St) ix /\ mr m (VnEdge St) ix = g (VnEdge St) ix /\ mr m (TrCell St) ix = g (TrCell St) ix.
Proof.
  destruct (hs_constructors st) as (m0 & H0 & H). apply hsafe_always in H. destruct H as [_ [m1 H]].
  exists (Mem (mi m1) (fun a ix => match a with HCell St | VnEdge St | TrCell St => g a ix | _ => mr m1 a ix end)).
  split; [|intros; auto]. exists m1. split; [exact H|].
  intros [a ix|a ix] Hl; [reflexivity|]. 
  destruct a; try reflexivity; destruct s; try reflexivity; destruct (Hl ix) as (E1 & E2 & E3); congruence.
Qed.
End DriverFn.
