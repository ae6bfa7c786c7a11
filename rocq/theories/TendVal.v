(** The values [compute_tendency] leaves in the tendency and in the auxiliary arrays. *)
From Coq Require Import ZArith List Bool Lia.
From Verif Require Import Arith Arrays Prog Conc Launch Mesh AuxVars Tend Model Over Formulas KernBase Terms KernAux KernTend TendFn StepFn Rel.
Import ListNotations.
Open Scope Z_scope.

Section TendVal.
Context {A : Arith} (S : setup A).
Local Notation cf := (cfg_of S).
Local Notation P := (par_of S).
Local Notation D := (sdims S).
Context (Hd : wfd cf D).
Implicit Types (m : mem A) (t s : sid) (md : add_mode).
Local Notation aux := (aux_fn cf D).

(** ** Auxiliary variables *)
Definition is_aux (a : rarr) : bool :=
  match a with
  | RvortVertex | NormRvortVertex | NormPvortVertex | NormRvortEdge | NormPvortEdge | KeCell | VelDivCell | MeanHEdge
  | FluxHEdge | NormTrCell => true
  | _ => false
  end.
Lemma aux_other s m a ix : is_aux a = false -> mr (aux s m) a ix = mr m a ix.
Proof. intros H. destruct a; try discriminate H; reflexivity. Qed.
Lemma aux_mi s m a ix : mi (aux s m) a ix = mi m a ix.
Proof. reflexivity. Qed.

Ltac dv H := cbn [mr over lT2 S_ea S_va cellT rext]; rewrite H.
Section AuxVal.
Set Default Proof Using "All".
Context (s : sid) (m : mem A) (k : Z) (Hk : 0 <= k < d_nlayers D).
Lemma av_rvort v : 0 <= v < d_nvertices D -> mr (aux s m) RvortVertex [v; k] = f_rvort m s v k.
Proof. intros H. assert (E : inb [d_nvertices D; d_nlayers D] [v; k] = true) by (apply inb2; lia).
  unfold aux_fn. cbv zeta. dv E. reflexivity. Qed.
Lemma av_nrv v : 0 <= v < d_nvertices D -> mr (aux s m) NormRvortVertex [v; k] = f_nrv m (ksimd cf) s v k.
Proof. intros H. assert (E : inb [d_nvertices D; d_nlayers D] [v; k] = true) by (apply inb2; lia).
  unfold aux_fn. cbv zeta. dv E. reflexivity. Qed.
Lemma av_npv v : 0 <= v < d_nvertices D -> mr (aux s m) NormPvortVertex [v; k] = f_npv m s v k.
Proof. intros H. assert (E : inb [d_nvertices D; d_nlayers D] [v; k] = true) by (apply inb2; lia).
  unfold aux_fn. cbv zeta. dv E. reflexivity. Qed.
Lemma av_ke c : 0 <= c < d_ncells D -> mr (aux s m) KeCell [c; k] = f_ke m s c k.
Proof. intros H. assert (E : inb [d_ncells D; d_nlayers D] [c; k] = true) by (apply inb2; lia).
  unfold aux_fn. cbv zeta. dv E. reflexivity. Qed.
Lemma av_div c : 0 <= c < d_ncells D -> mr (aux s m) VelDivCell [c; k] = f_div m s c k.
Proof. intros H. assert (E : inb [d_ncells D; d_nlayers D] [c; k] = true) by (apply inb2; lia).
  unfold aux_fn. cbv zeta. dv E. reflexivity. Qed.
Lemma av_ntr l c : 0 <= l < d_ntracers D -> 0 <= c < d_ncells D -> mr (aux s m) NormTrCell [l; c; k] = f_ntr m s l c k.
Proof. intros Hl H. assert (E : inb [d_ntracers D; d_ncells D; d_nlayers D] [l; c; k] = true) by (apply inb3; lia).
  unfold aux_fn. cbv zeta. dv E. reflexivity. Qed.
Lemma av_mean e : 0 <= e < d_nedges D -> mr (aux s m) MeanHEdge [e; k] = f_mean m s e k.
Proof. intros H. assert (E : inb [d_nedges D; d_nlayers D] [e; k] = true) by (apply inb2; lia).
  unfold aux_fn. cbv zeta. dv E. reflexivity. Qed.
Lemma av_flux e : 0 <= e < d_nedges D -> mr (aux s m) FluxHEdge [e; k] = f_mean m s e k.
Proof. intros H. assert (E : inb [d_nedges D; d_nlayers D] [e; k] = true) by (apply inb2; lia).
  unfold aux_fn. cbv zeta. dv E. reflexivity. Qed.
Lemma av_nre e : 0 <= e < d_nedges D -> 0 <= mi m VerticesOnEdge [e; 0] < d_nvertices D -> 0 <= mi m VerticesOnEdge [e; 1] < d_nvertices D ->
  mr (aux s m) NormRvortEdge [e; k] =
    (fhalf * (f_nrv m (ksimd cf) s (mi m VerticesOnEdge [e; 0]) k + f_nrv m (ksimd cf) s (mi m VerticesOnEdge [e; 1]) k))%fp.
Proof. intros H H0 H1. assert (E : inb [d_nedges D; d_nlayers D] [e; k] = true) by (apply inb2; lia).
  rewrite <- !av_nrv by assumption. unfold aux_fn at 1. cbv zeta. dv E. reflexivity. Qed.
Lemma av_npe e : 0 <= e < d_nedges D -> 0 <= mi m VerticesOnEdge [e; 0] < d_nvertices D -> 0 <= mi m VerticesOnEdge [e; 1] < d_nvertices D ->
  mr (aux s m) NormPvortEdge [e; k] =
    (fhalf * (f_npv m s (mi m VerticesOnEdge [e; 0]) k + f_npv m s (mi m VerticesOnEdge [e; 1]) k))%fp.
Proof. intros H H0 H1. assert (E : inb [d_nedges D; d_nlayers D] [e; k] = true) by (apply inb2; lia).
  rewrite <- !av_npv by assumption. unfold aux_fn at 1. cbv zeta. dv E. reflexivity. Qed.
Unset Default Proof Using.
End AuxVal.

(** ** Tendencies *)
Definition allK (k : Z) : Prop := 0 <= k < d_nlayers D.
Lemma rv_range k : allK k -> allK (rv_layer cf k).
Proof.
  unfold allK, rv_layer. destruct (ksimd cf); [|auto]. intros Hk. pose proof (wd_vl _ _ Hd).
  split; [apply Z.mul_nonneg_nonneg; [apply Z.div_pos; lia|lia]|].
  pose proof (Z.mul_div_le k (vector_length cf)). lia.
Qed.
Lemma rel_refl : rel_ok S S allK (fun _ => True).
Proof.
  constructor; auto.
  - unfold hook_eq. destruct (hook S); auto.
  - intros _. split; auto. intros _. split; auto. intros k Hk. split; auto using rv_range.
Qed.
Lemma agree_refl_other t m m' a : mi m' = mi m -> (forall b ix, b <> a -> mr m' b ix = mr m b ix) ->
  agree D D allK (fun b => b <> a) m' m.
Proof. intros Hi Hr. split; [intros; now rewrite Hi|]. intros. now apply Hr. Qed.
Lemma mesh_no a : mesh_arr a = false -> meshV (fun b => b <> a).
Proof. intros H b Hb ->. congruence. Qed.

Definition hk_h time m (c k : Z) (x : F A) : F A :=
  match hook S with None => x | Some fc => hook_h fc time m c k x end.
Definition hk_v time m (e k : Z) (x : F A) : F A :=
  match hook S with None => x | Some fc => hook_v fc time m e k x end.

Lemma hyp_other m b ix : b <> VelDel2Edge -> b <> VelDel2RvortVertex -> b <> VelDel2DivCell ->
  mr (hyp_fn S m) b ix = mr m b ix.
Proof.
  intros N1 N2 N3. unfold hyp_fn. destruct (vel_hyperdiff_enabled P); [|reflexivity].
  unfold del2d_fn, del2r_fn, del2_fn. now rewrite !upd_other.
Qed.
Lemma trdel2_other m b ix : b <> TracerDel2Cell -> mr (trdel2_fn S m) b ix = mr m b ix.
Proof. intros N. unfold trdel2_fn. destruct (tracer_hyperdiff_enabled P); [|reflexivity]. now rewrite upd_other. Qed.
Lemma vn_other t s md m b ix : b <> VelDel2Edge -> b <> VelDel2RvortVertex -> b <> VelDel2DivCell -> b <> VnEdge t ->
  mr (vn_fn S t s md m) b ix = mr m b ix.
Proof. intros. unfold vn_fn. cbv zeta. rewrite upd_other by assumption. now apply hyp_other. Qed.
Lemma tr_other t s md m b ix : b <> TracerDel2Cell -> b <> TrCell t -> mr (tr_fn S t s md m) b ix = mr m b ix.
Proof. intros. unfold tr_fn. cbv zeta. rewrite upd_other by assumption. now apply trdel2_other. Qed.
Lemma h_other t s md m b ix : b <> HCell t -> mr (h_fn S t s md m) b ix = mr m b ix.
Proof. intros. unfold h_fn. now rewrite upd_other. Qed.
Lemma hook_other t time m b ix : b <> HCell t -> b <> VnEdge t -> mr (hook_fn S t time m) b ix = mr m b ix.
Proof. intros. unfold hook_fn. destruct (hook S); [|reflexivity]. cbv zeta. now rewrite !upd_other. Qed.

Lemma hook_vh t time m c k : 0 <= c < d_ncells D -> 0 <= k < d_nlayers D ->
  mr (hook_fn S t time m) (HCell t) [c; k] = hk_h time m c k (mr m (HCell t) [c; k]).
Proof.
  intros. unfold hook_fn, hk_h. destruct (hook S); [|reflexivity]. cbv zeta.
  rewrite upd_other by discriminate. rewrite upd_same by (cbn [rext]; apply inb2; lia). reflexivity.
Qed.
Lemma hook_vv t time m e k : 0 <= e < d_nedges D -> 0 <= k < d_nlayers D ->
  mr (hook_fn S t time m) (VnEdge t) [e; k] = hk_v time m e k (mr m (VnEdge t) [e; k]).
Proof.
  intros. unfold hook_fn, hk_v. destruct (hook S); [|reflexivity]. cbv zeta.
  rewrite upd_same by (cbn [rext]; apply inb2; lia). cbn [on2]. rewrite upd_other by discriminate.
  unfold hook_v. rewrite !upd_other by discriminate. reflexivity.
Qed.
(** The hook reads mesh arrays only. *)
Definition pos_eq m m' : Prop :=
  (forall ix, mr m' XCell ix = mr m XCell ix) /\ (forall ix, mr m' YCell ix = mr m YCell ix) /\
  (forall ix, mr m' XEdge ix = mr m XEdge ix) /\ (forall ix, mr m' YEdge ix = mr m YEdge ix) /\
  (forall ix, mr m' AngleEdge ix = mr m AngleEdge ix).
Lemma hk_h_ext time m m' c k x : pos_eq m m' -> hk_h time m' c k x = hk_h time m c k x.
Proof. intros (H1 & H2 & _). unfold hk_h, hook_h. destruct (hook S); [|reflexivity]. now rewrite H1, H2. Qed.
Lemma hk_v_ext time m m' e k x : pos_eq m m' -> hk_v time m' e k x = hk_v time m e k x.
Proof. intros (_ & _ & H1 & H2 & H3). unfold hk_v, hook_v. destruct (hook S); [|reflexivity]. now rewrite H1, H2, H3. Qed.

(** The memory before the hook is applied. *)
Definition prehook t s md m : mem A :=
  let m := aux s m in
  let m := if negb (disable_h P) then h_fn S t s md m else m in
  let m := if negb (disable_vn P) then vn_fn S t s md m else m in
  if 0 <? ntracers P then tr_fn S t s md m else m.
Lemma prehook_other t s md m b ix : is_aux b = false ->
  b <> VelDel2Edge -> b <> VelDel2RvortVertex -> b <> VelDel2DivCell -> b <> TracerDel2Cell ->
  b <> HCell t -> b <> VnEdge t -> b <> TrCell t -> mr (prehook t s md m) b ix = mr m b ix.
Proof.
  intros N0 N1 N2 N3 N4 N5 N6 N7. unfold prehook. cbv zeta.
  destruct (0 <? ntracers P), (disable_vn P), (disable_h P); cbn [negb];
    rewrite ?tr_other, ?vn_other, ?h_other, ?aux_other by assumption; reflexivity.
Qed.
Lemma prehook_pos t s md m : pos_eq m (prehook t s md m).
Proof. repeat split; intros; apply prehook_other; try reflexivity; discriminate. Qed.
Lemma tend_prehook t s time md m : tendency_fn S t s time md m = hook_fn S t time (prehook t s md m).
Proof. reflexivity. Qed.

Lemma tend_other t s time md m b ix : is_aux b = false ->
  b <> VelDel2Edge -> b <> VelDel2RvortVertex -> b <> VelDel2DivCell -> b <> TracerDel2Cell ->
  b <> HCell t -> b <> VnEdge t -> b <> TrCell t -> mr (tendency_fn S t s time md m) b ix = mr m b ix.
Proof. intros. rewrite tend_prehook, hook_other by assumption. now apply prehook_other. Qed.

Lemma val_h t s time md m c k : 0 <= c < d_ncells D -> 0 <= k < d_nlayers D ->
  mr (tendency_fn S t s time md m) (HCell t) [c; k] =
  hk_h time m c k (if disable_h P then mr m (HCell t) [c; k] else t_hadv (aux s m) s c k (zr md (mr m (HCell t) [c; k]))).
Proof.
  intros Hc Hk. rewrite tend_prehook, hook_vh by assumption.
  rewrite (hk_h_ext time m) by apply prehook_pos. f_equal. unfold prehook. cbv zeta.
  transitivity (mr (if negb (disable_h P) then h_fn S t s md (aux s m) else aux s m) (HCell t) [c; k]).
  - destruct (0 <? ntracers P), (disable_vn P); cbn [negb]; rewrite ?tr_other, ?vn_other by discriminate; reflexivity.
  - destruct (disable_h P); cbn [negb]; [now rewrite aux_other|].
    unfold h_fn. rewrite upd_same by (cbn [rext]; apply inb2; lia). cbn [on2]. now rewrite aux_other.
Qed.

Lemma val_v t s time md m e k : s <> t -> wfm D m -> 0 <= e < d_nedges D -> 0 <= k < d_nlayers D ->
  mr (tendency_fn S t s time md m) (VnEdge t) [e; k] =
  hk_v time m e k (if disable_vn P then mr m (VnEdge t) [e; k]
                   else g_vn S t s md (hyp_fn S (aux s m)) e k (mr m (VnEdge t) [e; k])).
Proof.
  intros Hts Hm He Hk. rewrite tend_prehook, hook_vv by assumption.
  rewrite (hk_v_ext time m) by apply prehook_pos. f_equal. unfold prehook. cbv zeta.
  set (a := aux s m). set (b := if negb (disable_h P) then h_fn S t s md a else a).
  transitivity (mr (if negb (disable_vn P) then vn_fn S t s md b else b) (VnEdge t) [e; k]).
  { destruct (0 <? ntracers P); rewrite ?tr_other by discriminate; reflexivity. }
  assert (Hb : forall x ix, x <> HCell t -> mr b x ix = mr a x ix).
  { intros x ix Hx. unfold b. destruct (disable_h P); [reflexivity|now apply h_other]. }
  assert (Hbi : mi b = mi a) by (unfold b; destruct (disable_h P); reflexivity).
  assert (Ha : mr a (VnEdge t) [e; k] = mr m (VnEdge t) [e; k]) by now apply aux_other.
  destruct (disable_vn P) eqn:E; cbn [negb].
  { rewrite Hb by discriminate. exact Ha. }
  transitivity (mr (vn_fn S t s md a) (VnEdge t) [e; k]).
  - assert (R : agree D D allK (plus (fun x => x <> HCell t) (VnEdge t)) (vn_fn S t s md b) (vn_fn S t s md a)).
    { apply (r_vn S S allK (fun _ => True) rel_refl); auto; try discriminate; try congruence.
      - unfold b. apply wfm_if; [|apply wfm_h]; now apply wfm_aux.
      - now apply agree_refl_other.
      - now apply mesh_no.
      - right. discriminate. }
    apply R; [left; discriminate| | |exact Hk]; apply inb2; lia.
  - unfold vn_fn. cbv zeta. rewrite upd_same by (cbn [rext]; apply inb2; lia). cbn [on2].
    rewrite hyp_other by discriminate. now rewrite Ha.
Qed.

Lemma val_tr t s time md m l c k : s <> t -> wfm D m -> 0 <= l < ntracers P -> 0 <= c < d_ncells D -> 0 <= k < d_nlayers D ->
  mr (tendency_fn S t s time md m) (TrCell t) [l; c; k] =
  g_tr S t s md (trdel2_fn S (aux s m)) l c k (mr m (TrCell t) [l; c; k]).
Proof.
  intros Hts Hm Hl Hc Hk. rewrite tend_prehook, hook_other by discriminate. unfold prehook. cbv zeta.
  set (a := aux s m). set (b := if negb (disable_h P) then h_fn S t s md a else a).
  set (d := if negb (disable_vn P) then vn_fn S t s md b else b).
  replace (0 <? ntracers P) with true by (symmetry; apply Z.ltb_lt; lia).
  set (W := fun x => x = HCell t \/ x = VnEdge t \/ x = VelDel2Edge \/ x = VelDel2RvortVertex \/ x = VelDel2DivCell).
  assert (Hb : forall x ix, ~ W x -> mr d x ix = mr a x ix).
  { intros x ix Hx. unfold W in Hx. unfold d, b. destruct (disable_vn P), (disable_h P); cbn [negb];
      rewrite ?vn_other, ?h_other by tauto; reflexivity. }
  assert (Hbi : mi d = mi a).
  { unfold d, b, vn_fn, hyp_fn. destruct (disable_vn P), (disable_h P), (vel_hyperdiff_enabled P); reflexivity. }
  assert (Ha : mr a (TrCell t) [l; c; k] = mr m (TrCell t) [l; c; k]) by now apply aux_other.
  transitivity (mr (tr_fn S t s md a) (TrCell t) [l; c; k]).
  - assert (R : agree D D allK (plus (fun x => ~ W x) (TrCell t)) (tr_fn S t s md d) (tr_fn S t s md a)).
    { apply (r_tr S S allK (fun _ => True) rel_refl); unfold W; auto; try (intuition congruence).
      - lia.
      - unfold d, b. apply wfm_if; [|apply wfm_vn]; (apply wfm_if; [|apply wfm_h]); now apply wfm_aux.
      - split; [intros; now rewrite Hbi|]. intros. now apply Hb.
      - intros x Hx Hw. destruct Hw as [->|[->|[->|[->| ->]]]]; discriminate. }
    apply R; [left; unfold W; intuition discriminate| | |exact Hk]; apply inb3; rewrite d_ntr; lia.
  - unfold tr_fn. cbv zeta. rewrite upd_same by (cbn [rext]; apply inb3; rewrite d_ntr; lia). cbn [on3].
    rewrite trdel2_other by discriminate. now rewrite Ha.
Qed.
End TendVal.
