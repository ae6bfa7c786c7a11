(** Translations of the torus and renumberings of the tracers: executions on memories left by the
    constructors. *)
From Coq Require Import ZArith List Bool Lia.
From Verif Require Import Arith Arrays Prog Conc Launch Mesh AuxVars Tend Model Hex MeshProof MeshMem Over Formulas KernBase Terms KernAux KernTend TendFn StepFn Ready Rel RelRun Shift Equiv Equiv2 Equiv3.
Import ListNotations.
Open Scope Z_scope.

(** The prognostic fields of state [s] of [m2] are those of [m1] at the renumbered cells, edges and
    tracers. *)
Definition moved {A} (S : setup A) (p : renum) (s : sid) (m1 m2 : mem A) : Prop :=
  forall k, 0 <= k < d_nlayers (sdims S) ->
    (forall c, 0 <= c < d_ncells (sdims S) -> mr m2 (HCell s) [pc p c; k] = mr m1 (HCell s) [c; k]) /\
    (forall e, 0 <= e < d_nedges (sdims S) -> mr m2 (VnEdge s) [pe p e; k] = mr m1 (VnEdge s) [e; k]) /\
    (forall l c, 0 <= l < ntracers (par_of S) -> 0 <= c < d_ncells (sdims S) ->
       mr m2 (TrCell s) [pt p l; pc p c; k] = mr m1 (TrCell s) [l; c; k]).

Section Equivariant.
Context {A : Arith} (S1 : setup A) (ntr2 : Z) (p : renum).
Local Notation S2 := (with_tracers S1 ntr2).
Local Notation D1 := (sdims S1).
Local Notation D2 := (sdims S2).
Local Notation P1 := (par_of S1).
Local Notation ag := (eqv D1 p).
Context (Hok1 : setup_ok S1) (Hok2 : setup_ok S2) (HS : psize D1 D2 p).
Implicit Types (m : mem A) (T : sid -> Prop).

(** The renumbering preserves what the constructor builds. *)
Context (Pv : Prop) (HPv : hook S1 = None \/ Pv).
Context (Hmesh : forall m1 m2, ready S1 m1 -> ready S2 m2 -> eqv D1 p (gE True Pv (fun _ => False)) m1 m2).

Lemma rv_in k : 0 <= k < d_nlayers D1 -> 0 <= rv_layer (cfg_of S1) k < d_nlayers D1.
Proof using Hok1.
  intros Hk. unfold rv_layer. destruct (ksimd (cfg_of S1)); [|exact Hk].
  assert (HVL : 1 <= vector_length (cfg_of S1)).
  { unfold vector_length. destruct (no_simd (cfg_of S1)); [lia|apply Hok1]. }
  pose proof (Z.mul_div_le k (vector_length (cfg_of S1)) ltac:(lia)).
  pose proof (Z.div_pos k (vector_length (cfg_of S1)) ltac:(lia) ltac:(lia)). nia.
Qed.

Lemma moved_eqv T m1 m2 : ready S1 m1 -> ready S2 m2 -> (forall s, T s -> moved S1 p s m1 m2) -> ag (gE True Pv T) m1 m2.
Proof using Hmesh HPv.
  intros R1 R2 HT. destruct (Hmesh m1 m2 R1 R2) as [Hi Hr]. split; [exact Hi|].
  intros a ix Ha I1. destruct a; try (apply Hr; [exact Ha|exact I1]); cbn [gE] in Ha; cbn [rext] in I1.
  - destruct ix as [|c [|k [|? ?]]]; try (cbn in I1; rewrite ?andb_false_r in I1; discriminate I1).
    apply inb2 in I1. symmetry. apply (HT s Ha k); tauto.
  - destruct ix as [|c [|k [|? ?]]]; try (cbn in I1; rewrite ?andb_false_r in I1; discriminate I1).
    apply inb2 in I1. symmetry. apply (HT s Ha k); tauto.
  - destruct ix as [|l [|c [|k [|? ?]]]]; try (cbn in I1; rewrite ?andb_false_r in I1; discriminate I1).
    apply inb3 in I1. symmetry. apply (HT s Ha k); tauto.
Qed.
Lemma eqv_moved T s m1 m2 : ag (gE True Pv T) m1 m2 -> T s -> moved S1 p s m1 m2.
Proof using HPv.
  intros [_ Ha] HT k Hk. split; [|split]; intros; symmetry.
  - apply (Ha (HCell s) [c; k]); [exact HT|apply inb2; tauto].
  - apply (Ha (VnEdge s) [e; k]); [exact HT|apply inb2; tauto].
  - apply (Ha (TrCell s) [l; c; k]); [exact HT|apply inb3; tauto].
Qed.

Lemma el_tendency t s time md m1 m2 m1' m2' :
  s <> t -> ready S1 m1 -> ready S2 m2 -> moved S1 p s m1 m2 ->
  (md = Replace /\ disable_h P1 = false /\ disable_vn P1 = false) \/ moved S1 p t m1 m2 ->
  exec D1 (compute_tendency S1 t s time md) m1 (OK m1') ->
  exec D2 (compute_tendency S2 t s time md) m2 (OK m2') -> moved S1 p t m1' m2'.
Proof using All.
  intros Hne R1 R2 Hs Htt X1 X2.
  apply exec_fn with (f := tendency_fn S1 t s time md) in X1; [|now apply rd_tendency].
  apply exec_fn with (f := tendency_fn S2 t s time md) in X2; [|now apply rd_tendency].
  eapply (eqv_moved (also (fun r => moved S1 p r m1 m2) t)); [|now right].
  eapply eqv_meq; [exact X1|exact X2|].
  apply (g_tendency S1 ntr2 p HS rv_in True Pv); auto using ready_wfm. now apply moved_eqv.
Qed.

Lemma el_rk4_run steps m1 m2 m1' m2' :
  ready S1 m1 -> ready S2 m2 -> moved S1 p St m1 m2 ->
  (disable_h P1 = false /\ disable_vn P1 = false) \/ moved S1 p Tend m1 m2 ->
  exec D1 (rk4_run S1 steps) m1 (OK m1') -> exec D2 (rk4_run S2 steps) m2 (OK m2') -> moved S1 p St m1' m2'.
Proof using All.
  intros R1 R2 Hs Htn X1 X2.
  apply exec_fn with (f := rk4_run_fn S1 steps) in X1; [|apply hs_rk4_run; auto using ready_wfm].
  apply exec_fn with (f := rk4_run_fn S2 steps) in X2; [|apply hs_rk4_run; auto using ready_wfm].
  assert (Ha : ag (gE True Pv (rkT (moved S1 p Tend m1 m2))) m1 m2).
  { apply moved_eqv; auto. intros []; cbn; tauto. }
  assert (Hb : ag (gE True Pv (fun s => s = St)) (rk4_run_fn S1 steps m1) (rk4_run_fn S2 steps m2)).
  2:{ eapply eqv_moved; [eapply eqv_meq; [exact X1|exact X2|exact Hb]|reflexivity]. }
  assert (W : wfm D1 m1) by auto using ready_wfm.
  assert (Htn' : moved S1 p Tend m1 m2 \/ (disable_h P1 = false /\ disable_vn P1 = false)) by tauto.
  revert Ha Htn'. generalize (moved S1 p Tend m1 m2). clear R1 R2 Hs Htn X1 X2 m1' m2'. intros tn Ha Htn.
  revert tn Ha Htn. revert m1 m2 W. induction steps as [|[t dt] l IH]; intros m1 m2 W tn Ha Htn.
  - eapply g_weaken; [exact Ha|]. intros s ->. exact I.
  - apply (IH (rk4_fn S1 t dt m1) (rk4_fn S2 t dt m2) (wfm_rk4 S1 t dt m1 W) True); [|now left].
    eapply (g_rk4 S1 ntr2 p HS rv_in True Pv); eauto.
Qed.

Lemma el_lsrk_run n steps m1 m2 m1' m2' :
  ready S1 m1 -> ready S2 m2 -> moved S1 p St m1 m2 -> moved S1 p Tend m1 m2 ->
  exec D1 (lsrk_run S1 n steps) m1 (OK m1') -> exec D2 (lsrk_run S2 n steps) m2 (OK m2') -> moved S1 p St m1' m2'.
Proof using All.
  intros R1 R2 Hs Htn X1 X2.
  apply exec_fn with (f := lsrk_run_fn S1 n steps) in X1; [|apply hs_lsrk_run; auto using ready_wfm].
  apply exec_fn with (f := lsrk_run_fn S2 n steps) in X2; [|apply hs_lsrk_run; auto using ready_wfm].
  assert (Ha : ag (gE True Pv (rkT True)) m1 m2).
  { apply moved_eqv; auto. intros []; cbn; tauto. }
  assert (Hb : ag (gE True Pv (rkT True)) (lsrk_run_fn S1 n steps m1) (lsrk_run_fn S2 n steps m2)).
  2:{ eapply eqv_moved; [eapply eqv_meq; [exact X1|exact X2|exact Hb]|exact I]. }
  assert (W : wfm D1 m1) by auto using ready_wfm.
  clear R1 R2 Hs Htn X1 X2 m1' m2'.
  revert m1 m2 W Ha. induction steps as [|[t dt] l IH]; intros m1 m2 W Ha; [exact Ha|].
  apply (IH (lsrk_fn S1 n t dt m1) (lsrk_fn S2 n t dt m2) (wfm_lsrk S1 n t dt m1 W)).
  eapply (g_lsrk S1 ntr2 p HS rv_in True Pv); eauto.
Qed.
End Equivariant.

(** ** Translations *)
Definition shift_by {A} (h : hexargs A) (a b : Z) : renum :=
  {| pc := shc (nx h) (ny h) a b; pe := she (nx h) (ny h) a b; pv := shv (nx h) (ny h) a b; pt := fun l => l |}.

Section Translate.
Context {A : Arith} (S : setup A) (Hok : setup_ok S) (a b : Z).
Local Notation h := (mesh_of_setup S).
Local Notation D := (sdims S).
Context (Hb : sh_ok (ny h) b) (Hhk : hook S = None).
Local Notation p := (shift_by h a b).
Let Hx : 1 <= nx h := proj1 (proj1 Hok).
Let Hy : 1 <= ny h := proj1 (proj2 (proj1 Hok)).

Lemma sh_psize : psize D D p.
Proof using Hok.
  constructor; try reflexivity; intros; cbn [sdims dims_of d_ncells d_nedges d_nvertices pc pe pv pt shift_by];
    first [now apply shc_range | now apply she_range | now apply shv_range | assumption].
Qed.
Ltac ixs H := match type of H with inb _ ?ix = true =>
  first [ destruct ix as [|? [|? ?]]; try (cbn in H; rewrite ?andb_false_r in H; discriminate H); apply inb1 in H
        | destruct ix as [|? [|? [|? ?]]]; try (cbn in H; rewrite ?andb_false_r in H; discriminate H); apply inb2 in H ] end.
Lemma sh_mesh m1 m2 : ready S m1 -> ready S m2 -> eqv D p (gE True False (fun _ => False)) m1 m2.
Proof using All.
  intros R1 R2.
  pose proof (ready_hex S Hok m1 R1) as H1. pose proof (ready_hex S Hok m2 R2) as H2.
  pose proof (shc_range (nx h) (ny h) Hx Hy a b) as Rc. pose proof (she_range (nx h) (ny h) Hx Hy a b) as Re.
  pose proof (shv_range (nx h) (ny h) Hx Hy a b) as Rv.
  split.
  - constructor; cbn [sdims dims_of d_ncells d_nedges d_nvertices pc pe pv shift_by]; intros.
    + now rewrite (hm_noc _ _ _ H1), (hm_noc _ _ _ H2) by auto.
    + now rewrite (hm_noe _ _ _ H1), (hm_noe _ _ _ H2) by auto.
    + rewrite (hm_eoc _ _ _ H1), (hm_eoc _ _ _ H2) by auto. now apply s_hE.
    + rewrite (hm_coe _ _ _ H1), (hm_coe _ _ _ H2) by auto. now apply s_hcoe.
    + rewrite (hm_voe _ _ _ H1), (hm_voe _ _ _ H2) by auto. now apply s_hvoe.
    + rewrite (hm_noe _ _ _ H1) in * by auto. rewrite (hm_eoe _ _ _ H1), (hm_eoe _ _ _ H2) by (auto; lia). now apply s_heoe.
    + rewrite (hm_eov _ _ _ H1), (hm_eov _ _ _ H2) by auto. now apply s_heov.
    + rewrite (hm_cov _ _ _ H1), (hm_cov _ _ _ H2) by auto. now apply s_hcov.
  - intros q ix Ha I1.
    destruct q; try discriminate Ha; try contradiction; cbn [rext] in I1; ixs I1;
      cbn [sdims dims_of d_ncells d_nedges d_nvertices] in I1; cbn [rn hd1 pc pe pv shift_by];
      first [rewrite (hm_area _ _ _ H1), (hm_area _ _ _ H2) by (tauto || auto)
          |rewrite (hm_esc _ _ _ H1), (hm_esc _ _ _ H2) by (tauto || auto)
          |rewrite (hm_dce _ _ _ H1), (hm_dce _ _ _ H2) by (tauto || auto)
          |rewrite (hm_dve _ _ _ H1), (hm_dve _ _ _ H2) by (tauto || auto)
          |rewrite (hm_ang _ _ _ H1), (hm_ang _ _ _ H2) by (tauto || auto)
          |rewrite (hm_w _ _ _ H1), (hm_w _ _ _ H2) by (tauto || auto)
          |rewrite (hm_sc2 _ _ _ H1), (hm_sc2 _ _ _ H2) by (tauto || auto)
          |rewrite (hm_sc4 _ _ _ H1), (hm_sc4 _ _ _ H2) by (tauto || auto)
          |rewrite (hm_mask _ _ _ H1), (hm_mask _ _ _ H2) by (tauto || auto)
          |rewrite (hm_atri _ _ _ H1), (hm_atri _ _ _ H2) by (tauto || auto)
          |rewrite (hm_kite _ _ _ H1), (hm_kite _ _ _ H2) by (tauto || auto)
          |rewrite (hm_esv _ _ _ H1), (hm_esv _ _ _ H2) by (tauto || auto)
          |rewrite (ready_fv S Hok m1), (ready_fv S Hok m2) by (cbn; tauto || auto)]; try reflexivity.
    + unfold hesc. rewrite <- s_hE, <- s_hcoe, sc_eqb by (destruct I1; auto using hcoe_range, hE_range). reflexivity.
    + unfold hang. rewrite se_mod by auto. reflexivity.
    + unfold hw, hw0. rewrite se_mod by auto. reflexivity.
    + unfold hesv. rewrite <- s_heov, <- s_hvoe, sv_eqb by (destruct I1; auto using hvoe_range, heov_range). reflexivity.
Qed.
End Translate.
