(** The time steppers in terms of the prognostic fields only. *)
From Coq Require Import ZArith List Bool Lia.
From Verif Require Import Arith Arrays Prog Conc Launch Mesh AuxVars Tend Model Hex MeshProof MeshMem Over Formulas KernBase Terms KernAux KernTend TendFn StepFn Ready Rel RelRun Relate TendVal.
Import ListNotations.
Open Scope Z_scope.

(** Prognostic fields: thickness [fh c k], normal velocity [fv e k], tracers [ft l c k]. *)
Record fields (A : Arith) : Type := mkFields {
  fh : Z -> Z -> F A; fv : Z -> Z -> F A; ft : Z -> Z -> Z -> F A
}.
Arguments mkFields {_} _ _ _.
Arguments fh {_} _ _ _.
Arguments fv {_} _ _ _.
Arguments ft {_} _ _ _ _.

(** State [s] of memory [m] holds the fields [y]. *)
Definition holds {A} (S : setup A) (s : sid) (m : mem A) (y : fields A) : Prop :=
  forall k, 0 <= k < d_nlayers (sdims S) ->
    (forall c, 0 <= c < d_ncells (sdims S) -> mr m (HCell s) [c; k] = fh y c k) /\
    (forall e, 0 <= e < d_nedges (sdims S) -> mr m (VnEdge s) [e; k] = fv y e k) /\
    (forall l c, 0 <= l < ntracers (par_of S) -> 0 <= c < d_ncells (sdims S) -> mr m (TrCell s) [l; c; k] = ft y l c k).

(** Pointwise operations on fields. *)
Definition fmap2 {A} (f : F A -> F A -> F A) (x y : fields A) : fields A :=
  mkFields (fun c k => f (fh x c k) (fh y c k)) (fun e k => f (fv x e k) (fv y e k))
           (fun l c k => f (ft x l c k) (ft y l c k)).

(** The components whose tendency is disabled hold zero in state [s]. *)
Definition disabled_zero {A} (S : setup A) (s : sid) (m : mem A) : Prop :=
  forall k, 0 <= k < d_nlayers (sdims S) ->
    (disable_h (par_of S) = true -> forall c, 0 <= c < d_ncells (sdims S) -> mr m (HCell s) [c; k] = (#0)%fp) /\
    (disable_vn (par_of S) = true -> forall e, 0 <= e < d_nedges (sdims S) -> mr m (VnEdge s) [e; k] = (#0)%fp).

(** [k] is the tendency of the fields [y] at time [time]: what compute_tendency leaves in replace mode in every
    memory in which the state passed in holds [y] (and in which the components of the output that are not written
    are zero). *)
Definition tendency_of {A} (S : setup A) (time : F A) (y k : fields A) : Prop :=
  forall s m, s <> Tend -> ready S m -> holds S s m y -> disabled_zero S Tend m ->
    always (sdims S) (compute_tendency S Tend s time Replace) m (fun m' => holds S Tend m' k).

Section StepVal.
Context {A : Arith} (S : setup A) (Hok : setup_ok S).
Local Notation cf := (cfg_of S).
Local Notation P := (par_of S).
Local Notation D := (sdims S).
Implicit Types (m : mem A) (y : fields A) (md : add_mode).
Local Notation aux := (aux_fn cf D).

Lemma holds_meq s m m' y : meq m m' -> holds S s m y -> holds S s m' y.
Proof. intros [_ E] H k Hk. destruct (H k Hk) as (H1 & H2 & H3). repeat split; intros; rewrite <- E; auto. Qed.
Lemma holds_self s m : holds S s m (mkFields (fun c k => mr m (HCell s) [c; k]) (fun e k => mr m (VnEdge s) [e; k])
   (fun l c k => mr m (TrCell s) [l; c; k])).
Proof. intros k Hk. auto. Qed.
Lemma holds_eq s m1 m2 y : holds S s m1 y -> holds S s m2 y -> state_eq S (allK S) s m1 m2.
Proof.
  intros H1 H2 k Hk. destruct (H1 k Hk) as (A1 & B1 & C1), (H2 k Hk) as (A2 & B2 & C2).
  repeat split; intros; [rewrite A1, A2|rewrite B1, B2|rewrite C1, C2]; auto.
Qed.
Lemma eq_holds s m1 m2 y : state_eq S (allK S) s m1 m2 -> holds S s m1 y -> holds S s m2 y.
Proof.
  intros H1 H2 k Hk. destruct (H1 k Hk) as (A1 & B1 & C1), (H2 k Hk) as (A2 & B2 & C2).
  repeat split; intros; [rewrite <- A1|rewrite <- B1|rewrite <- C1]; auto.
Qed.

(** ** Where the state is stored does not matter *)
Definition sw (a : sid) (b : sid) (s : sid) : sid := if sid_eq_dec s a then b else if sid_eq_dec s b then a else s.
Definition swa (a b : sid) (x : rarr) : rarr :=
  match x with HCell s => HCell (sw a b s) | VnEdge s => VnEdge (sw a b s) | TrCell s => TrCell (sw a b s) | _ => x end.
Definition ren (a b : sid) m : mem A := Mem (mi m) (fun x ix => mr m (swa a b x) ix).

Lemma ren_ready a b m : ready S m -> ready S (ren a b m).
Proof. apply ready_frame. intros [x ix|x ix] Hx; [reflexivity|]. destruct x; try discriminate Hx; reflexivity. Qed.
Lemma ren_wfm a b m : wfm D m -> wfm D (ren a b m).
Proof. intros H. apply (wfm_over D m (fun x ix => Some (mr m (swa a b x) ix))) in H. revert H. intros [H1 H2 H3 H4 H5 H6 H7 H8].
  constructor; assumption. Qed.

Lemma ren_hadv s m c k x : s <> Tend ->
  t_hadv (aux s m) s c k x = t_hadv (aux St (ren s St m)) St c k x.
Proof. intros H. destruct s; try congruence; reflexivity. Qed.
Lemma ren_vn s md m e k x : s <> Tend ->
  g_vn S Tend s md (hyp_fn S (aux s m)) e k x = g_vn S Tend St md (hyp_fn S (aux St (ren s St m))) e k x.
Proof.
  intros H. unfold hyp_fn, g_vn. destruct (vel_hyperdiff_enabled P); destruct s; try congruence; reflexivity.
Qed.
Lemma ren_tr s md m l c k x : s <> Tend ->
  g_tr S Tend s md (trdel2_fn S (aux s m)) l c k x = g_tr S Tend St md (trdel2_fn S (aux St (ren s St m))) l c k x.
Proof.
  intros H. unfold trdel2_fn, g_tr. destruct (tracer_hyperdiff_enabled P); destruct s; try congruence; reflexivity.
Qed.

Lemma tend_ren s time md m : s <> Tend -> wfm D m ->
  state_eq S (allK S) Tend (tendency_fn S Tend s time md m) (tendency_fn S Tend St time md (ren s St m)).
Proof.
  intros Hs Hm k Hk. pose proof (ok_wfd S Hok) as Hd. pose proof (ren_wfm s St m Hm) as Hm'.
  assert (E : forall x ix, x = HCell Tend \/ x = VnEdge Tend \/ x = TrCell Tend -> mr (ren s St m) x ix = mr m x ix).
  { intros x ix [->|[->| ->]]; destruct s; try congruence; reflexivity. }
  repeat split; intros.
  - rewrite !val_h by assumption. rewrite E by auto. unfold hk_h. rewrite (ren_hadv s) by exact Hs. reflexivity.
  - rewrite !val_v by (assumption || congruence). rewrite E by auto. unfold hk_v. rewrite (ren_vn s) by exact Hs. reflexivity.
  - rewrite !val_tr by (assumption || congruence). rewrite E by auto. now rewrite (ren_tr s).
Qed.
Lemma ren_holds s m y : s <> Tend -> holds S s m y -> holds S St (ren s St m) y.
Proof.
  intros Hs H k Hk. destruct (H k Hk) as (H1 & H2 & H3).
  assert (E : sw s St St = s) by (destruct s; reflexivity).
  repeat split; intros; cbn [ren mr swa]; rewrite E; auto.
Qed.
Lemma ren_tend s m x ix : s <> Tend -> x = HCell Tend \/ x = VnEdge Tend \/ x = TrCell Tend ->
  mr (ren s St m) x ix = mr m x ix.
Proof. intros Hs [->|[->| ->]]; destruct s; try congruence; reflexivity. Qed.

(** ** Two memories with the same state *)
Definition eqH s m1 m2 : Prop := forall c k, 0 <= c < d_ncells D -> 0 <= k < d_nlayers D -> mr m1 (HCell s) [c; k] = mr m2 (HCell s) [c; k].
Definition eqV s m1 m2 : Prop := forall e k, 0 <= e < d_nedges D -> 0 <= k < d_nlayers D -> mr m1 (VnEdge s) [e; k] = mr m2 (VnEdge s) [e; k].
Definition eqT s m1 m2 : Prop := forall l c k, 0 <= l < ntracers P -> 0 <= c < d_ncells D -> 0 <= k < d_nlayers D ->
  mr m1 (TrCell s) [l; c; k] = mr m2 (TrCell s) [l; c; k].
Lemma eq3 s m1 m2 : state_eq S (allK S) s m1 m2 <-> eqH s m1 m2 /\ eqV s m1 m2 /\ eqT s m1 m2.
Proof.
  split.
  - intros H. repeat split; intros ?; intros; eapply H; eauto.
  - intros (H1 & H2 & H3) k Hk. repeat split; auto.
Qed.

Ltac bad H := cbn in H; rewrite ?andb_false_r in H; discriminate.
Lemma tend_det t s time md m1 m2 :
  s <> t -> ready S m1 -> ready S m2 -> state_eq S (allK S) s m1 m2 ->
  (md = Replace /\ disable_h P = false) \/ eqH t m1 m2 ->
  (md = Replace /\ disable_vn P = false) \/ eqV t m1 m2 ->
  md = Replace \/ eqT t m1 m2 ->
  state_eq S (allK S) t (tendency_fn S t s time md m1) (tendency_fn S t s time md m2).
Proof.
  intros Hst R1 R2 Hs Oh Ov Ot. pose proof (ok_wfd S Hok) as Hd.
  pose proof (rel_refl S Hd) as HR.
  assert (Hag := ready_agree S S (allK S) _ HR Hok Hok (conj eq_refl (conj eq_refl eq_refl)) (fun r => r = s) m1 m2 R1 R2 ltac:(intros ? ->; exact Hs)).
  pose (V := fun a => gV (f0 P = f0 P) (fun r => r = s) a \/ (a = HCell t /\ eqH t m1 m2) \/ (a = VnEdge t /\ eqV t m1 m2) \/ (a = TrCell t /\ eqT t m1 m2)).
  assert (Ha : agree D D (allK S) V m1 m2).
  { destruct Hag as [Hi Hr]. split; [exact Hi|]. intros a ix [Hv|[[-> Hv]|[[-> Hv]|[-> Hv]]]] I1 I2 IK; [auto| | |].
    - destruct ix as [|c [|k [|? ?]]]; try bad I1. apply inb2 in I1. apply Hv; tauto.
    - destruct ix as [|c [|k [|? ?]]]; try bad I1. apply inb2 in I1. apply Hv; tauto.
    - destruct ix as [|l [|c [|k [|? ?]]]]; try bad I1. apply inb3 in I1. apply Hv; tauto. }
  assert (Q : agree D D (allK S) (outV V t) (tendency_fn S t s time md m1) (tendency_fn S t s time md m2)).
  { apply (r_tendency S S (allK S) _ HR); auto.
    - now apply ready_wfm.
    - intros a Hm. left. destruct a; try discriminate Hm; exact Hm.
    - left. reflexivity.
    - left. reflexivity.
    - left. left. reflexivity.
    - intros _. left. reflexivity.
    - destruct Oh; [tauto|]. right. right. left. auto.
    - destruct Ov; [tauto|]. right. right. right. left. auto.
    - destruct Ot; [tauto|]. right. left. right. right. right. auto. }
  destruct Q as [_ Q]. intros k Hk. unfold allK in Hk. repeat split; intros; apply Q; try exact Hk; unfold outV; auto;
    cbn [rext]; first [apply inb2 | apply inb3; rewrite d_ntr]; lia.
Qed.

(** ** Tendencies exist and are unique *)
Lemma tend_always s time md m (Q : mem A -> Prop) : s <> Tend -> ready S m ->
  (always D (compute_tendency S Tend s time md) m Q <-> forall M, meq M (tendency_fn S Tend s time md m) -> exec D (compute_tendency S Tend s time md) m (OK M) -> Q M).
Proof.
  intros Hs Hr. pose proof (rd_tendency S Hok Tend s time md m Hr ltac:(congruence)) as H. split.
  - intros [H1 _] M E X. destruct (H1 _ X) as (M' & EM & HQ). injection EM as <-. exact HQ.
  - intros HQ. apply hsafe_always in H. destruct H as [H1 H2]. split; [|exact H2].
    intros o Ho. destruct (H1 o Ho) as (M & -> & E). exists M. split; [reflexivity|]. now apply HQ.
Qed.
Lemma holds_fn s md time m k : s <> Tend -> ready S m ->
  (always D (compute_tendency S Tend s time md) m (fun m' => holds S Tend m' k) <-> holds S Tend (tendency_fn S Tend s time md m) k).
Proof.
  intros Hs Hr. rewrite tend_always by assumption. split.
  - intros H. pose proof (rd_tendency S Hok Tend s time md m Hr ltac:(congruence)) as Hh.
    apply hsafe_always in Hh. destruct Hh as [H1 [M X]]. destruct (H1 _ X) as (M' & EM & E). injection EM as <-.
    eapply holds_meq; [exact E|]. now apply H.
  - intros H M E _. eapply holds_meq; [apply meq_sym; exact E|exact H].
Qed.
Lemma disabled_eq m1 m2 : disabled_zero S Tend m1 -> disabled_zero S Tend m2 ->
  (Replace = Replace /\ disable_h P = false) \/ eqH Tend m1 m2.
Proof.
  intros H1 H2. destruct (disable_h P) eqn:E; [right|tauto]. intros c k Hc Hk.
  rewrite (proj1 (H1 k Hk) E c Hc), (proj1 (H2 k Hk) E c Hc). reflexivity.
Qed.
Lemma disabled_eqv m1 m2 : disabled_zero S Tend m1 -> disabled_zero S Tend m2 ->
  (Replace = Replace /\ disable_vn P = false) \/ eqV Tend m1 m2.
Proof.
  intros H1 H2. destruct (disable_vn P) eqn:E; [right|tauto]. intros c k Hc Hk.
  rewrite (proj2 (H1 k Hk) E c Hc), (proj2 (H2 k Hk) E c Hc). reflexivity.
Qed.
Lemma ren_disabled s m : s <> Tend -> disabled_zero S Tend m -> disabled_zero S Tend (ren s St m).
Proof. intros Hs H k Hk. destruct (H k Hk) as [H1 H2]. split; intros; rewrite ren_tend; auto. Qed.

Lemma tendency_ex time y : exists k, tendency_of S time y k.
Proof.
  destruct (ready_any S Hok (fun a ix => match a, ix with
    | HCell St, [c; k] => fh y c k | VnEdge St, [e; k] => fv y e k | TrCell St, [l; c; k] => ft y l c k | _, _ => (#0)%fp end)) as (m0 & R0 & H0).
  assert (Hy : holds S St m0 y) by (intros k Hk; repeat split; intros; now rewrite H0).
  assert (Hz : disabled_zero S Tend m0) by (intros k Hk; split; intros; now rewrite H0).
  eexists. intros s m Hs Hr Hm Hzm. apply holds_fn; [exact Hs|exact Hr|].
  eapply eq_holds; [|apply (holds_self Tend (tendency_fn S Tend St time Replace m0))].
  pose proof (tend_ren s time Replace m Hs (ready_wfm S Hok m Hr)) as E1.
  assert (E2 : state_eq S (allK S) Tend (tendency_fn S Tend St time Replace m0) (tendency_fn S Tend St time Replace (ren s St m))).
  { apply tend_det; auto using ren_ready, disabled_eq, disabled_eqv, ren_disabled; try discriminate.
    eapply holds_eq; [exact Hy|]. now apply ren_holds. }
  intros k Hk. destruct (E1 k Hk) as (A1 & B1 & C1), (E2 k Hk) as (A2 & B2 & C2).
  repeat split; intros; [rewrite A1, A2|rewrite B1, B2|rewrite C1, C2]; auto.
Qed.
End StepVal.
