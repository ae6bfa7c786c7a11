(** The relational lemmas of [Rel.v] and [RelRun.v] for executions on memories left by the
    constructors. *)
From Coq Require Import ZArith List Bool Lia.
From Verif Require Import Arith Arrays Prog Conc Launch Mesh AuxVars Tend Model Hex MeshProof MeshMem Over Formulas KernBase Terms KernAux KernTend TendFn StepFn Ready Rel RelRun.
Import ListNotations.
Open Scope Z_scope.

(** The prognostic fields of state [s] have the same values in both memories, in the layers [K]. *)
Definition state_eq {A} (S : setup A) (K : Z -> Prop) (s : sid) (m1 m2 : mem A) : Prop :=
  forall k, K k ->
    (forall c, 0 <= c < d_ncells (sdims S) -> mr m1 (HCell s) [c; k] = mr m2 (HCell s) [c; k]) /\
    (forall e, 0 <= e < d_nedges (sdims S) -> mr m1 (VnEdge s) [e; k] = mr m2 (VnEdge s) [e; k]) /\
    (forall l c, 0 <= l < ntracers (par_of S) -> 0 <= c < d_ncells (sdims S) ->
       mr m1 (TrCell s) [l; c; k] = mr m2 (TrCell s) [l; c; k]).

(** The same mesh, except for the number of layers. *)
Definition same_mesh {A} (h1 h2 : hexargs A) : Prop :=
  nx h1 = nx h2 /\ ny h1 = ny h2 /\ dc h1 = dc h2.

Section Relate.
Context {A : Arith} (S1 S2 : setup A) (K : Z -> Prop) (Ht : F A -> Prop) (HR : rel_ok S1 S2 K Ht).
Context (Hok1 : setup_ok S1) (Hok2 : setup_ok S2) (Hsm : same_mesh (mesh_of_setup S1) (mesh_of_setup S2)).
Context (Hf : disable_vn (par_of S1) = false -> f0 (par_of S1) = f0 (par_of S2)).
Local Notation D1 := (sdims S1).
Local Notation D2 := (sdims S2).
Local Notation P1 := (par_of S1).
Local Notation ag := (agree D1 D2 K).
Local Notation Fv := (f0 (par_of S1) = f0 (par_of S2)).
Implicit Types (m : mem A) (T : sid -> Prop).

Ltac ixs H := match type of H with inb _ ?ix = true =>
  first [ destruct ix as [|? [|? ?]]; try (cbn in H; rewrite ?andb_false_r in H; discriminate H); apply inb1 in H
        | destruct ix as [|? [|? [|? ?]]]; try (cbn in H; rewrite ?andb_false_r in H; discriminate H); apply inb2 in H ] end.

Lemma ready_agree T m1 m2 :
  ready S1 m1 -> ready S2 m2 -> (forall s, T s -> state_eq S1 K s m1 m2) -> ag (gV Fv T) m1 m2.
Proof.
  intros R1 R2 HT.
  pose proof (ready_hex S1 Hok1 m1 R1) as H1. pose proof (ready_hex S2 Hok2 m2 R2) as H2.
  pose proof (ready_fv S1 Hok1 m1) as F1. pose proof (ready_fv S2 Hok2 m2) as F2.
  assert (E1 : nx (mesh_of_setup S1) = nx (mesh_of_setup S2)) by apply Hsm.
  assert (E2 : ny (mesh_of_setup S1) = ny (mesh_of_setup S2)) by apply Hsm.
  assert (E3 : dc (mesh_of_setup S1) = dc (mesh_of_setup S2)) by apply Hsm.
  pose proof (ro_nt _ _ _ _ HR) as Ent. 
  split.
  - intros a ix Ha I. destruct a; try discriminate Ha; cbn [iext] in I; ixs I; cbn [sdims dims_of d_ncells d_nedges d_nvertices] in I;
    first [rewrite (hm_noc _ _ _ H1), (hm_noc _ _ _ H2) by (rewrite <- ?E1, <- ?E2; tauto)
          |rewrite (hm_eoc _ _ _ H1), (hm_eoc _ _ _ H2) by (rewrite <- ?E1, <- ?E2; tauto)
          |rewrite (hm_coe _ _ _ H1), (hm_coe _ _ _ H2) by (rewrite <- ?E1, <- ?E2; tauto)
          |rewrite (hm_voe _ _ _ H1), (hm_voe _ _ _ H2) by (rewrite <- ?E1, <- ?E2; tauto)
          |rewrite (hm_eoe _ _ _ H1), (hm_eoe _ _ _ H2) by (rewrite <- ?E1, <- ?E2; tauto)
          |rewrite (hm_cov _ _ _ H1), (hm_cov _ _ _ H2) by (rewrite <- ?E1, <- ?E2; tauto)
          |rewrite (hm_eov _ _ _ H1), (hm_eov _ _ _ H2) by (rewrite <- ?E1, <- ?E2; tauto)
          |rewrite (hm_noe _ _ _ H1), (hm_noe _ _ _ H2) by (rewrite <- ?E1, <- ?E2; tauto)];
    rewrite ?E1, ?E2; reflexivity.
  - intros a ix Ha I1 I2 IK.
    assert (Hmesh : mesh_arr a = true -> mr m1 a ix = mr m2 a ix).
    { clear F1 F2 HT R1 R2 Hf Ha. intros Hm.
      destruct (mesh_of_setup S1) as [x1 y1 d1 l1] eqn:M1. destruct (mesh_of_setup S2) as [x2 y2 d2 l2] eqn:M2.
      cbn in E1, E2, E3. subst x2 y2 d2.
      destruct a; try discriminate Hm; cbn [rext] in I1, I2; ixs I1;
        first [apply inb1 in I2 | apply inb2 in I2];
        cbn [sdims dims_of d_ncells d_nedges d_nvertices] in I1, I2; rewrite M1 in I1; rewrite M2 in I2; cbn [nx ny] in I1, I2;
      first [rewrite (hm_area _ _ _ H1), (hm_area _ _ _ H2) by tauto
          |rewrite (hm_xc _ _ _ H1), (hm_xc _ _ _ H2) by tauto
          |rewrite (hm_yc _ _ _ H1), (hm_yc _ _ _ H2) by tauto
          |rewrite (hm_esc _ _ _ H1), (hm_esc _ _ _ H2) by tauto
          |rewrite (hm_dce _ _ _ H1), (hm_dce _ _ _ H2) by tauto
          |rewrite (hm_dve _ _ _ H1), (hm_dve _ _ _ H2) by tauto
          |rewrite (hm_ang _ _ _ H1), (hm_ang _ _ _ H2) by tauto
          |rewrite (hm_xe _ _ _ H1), (hm_xe _ _ _ H2) by tauto
          |rewrite (hm_ye _ _ _ H1), (hm_ye _ _ _ H2) by tauto
          |rewrite (hm_w _ _ _ H1), (hm_w _ _ _ H2) by tauto
          |rewrite (hm_sc2 _ _ _ H1), (hm_sc2 _ _ _ H2) by tauto
          |rewrite (hm_sc4 _ _ _ H1), (hm_sc4 _ _ _ H2) by tauto
          |rewrite (hm_mask _ _ _ H1), (hm_mask _ _ _ H2) by tauto
          |rewrite (hm_atri _ _ _ H1), (hm_atri _ _ _ H2) by tauto
          |rewrite (hm_kite _ _ _ H1), (hm_kite _ _ _ H2) by tauto
          |rewrite (hm_esv _ _ _ H1), (hm_esv _ _ _ H2) by tauto]; reflexivity. }
    destruct a; try (apply Hmesh; exact Ha); clear Hmesh; cbn [gV] in Ha; cbn [rext] in I1, I2.
    all: try (ixs I1; apply (HT s Ha _ IK); tauto).
    + destruct ix as [|l [|c [|k [|? ?]]]]; try (cbn in I1; rewrite ?andb_false_r in I1; discriminate I1).
      apply inb3 in I1. apply (HT s Ha _ IK); tauto.
    + ixs I1. apply inb1 in I2. rewrite F1, F2 by (assumption || (cbn in *; lia)). exact Ha.
Qed.

Lemma agree_state T s m1 m2 : ag (gV Fv T) m1 m2 -> T s -> state_eq S1 K s m1 m2.
Proof.
  intros [_ Ha] HT k Hk.
  pose proof (ro_K1 _ _ _ _ HR k Hk). pose proof (ro_K2 _ _ _ _ HR k Hk).
  pose proof (ro_nc _ _ _ _ HR). pose proof (ro_ne _ _ _ _ HR). pose proof (ro_nt _ _ _ _ HR) as Hnt.
  assert (Ent : d_ntracers D2 = d_ntracers D1) by exact Hnt.
  assert (Ent1 : d_ntracers D1 = ntracers P1) by reflexivity.
  split; [|split]; intros; apply Ha; try exact HT; try exact Hk; cbn [rext]; first [apply inb2 | apply inb3]; lia.
Qed.

Lemma rl_tendency t s time md m1 m2 m1' m2' :
  Ht time -> s <> t -> ready S1 m1 -> ready S2 m2 -> state_eq S1 K s m1 m2 ->
  (md = Replace /\ disable_h P1 = false /\ disable_vn P1 = false) \/ state_eq S1 K t m1 m2 ->
  exec D1 (compute_tendency S1 t s time md) m1 (OK m1') ->
  exec D2 (compute_tendency S2 t s time md) m2 (OK m2') -> state_eq S1 K t m1' m2' /\ state_eq S1 K s m1' m2'.
Proof.
  intros Htm Hne R1 R2 Hs Htt X1 X2.
  apply exec_fn with (f := tendency_fn S1 t s time md) in X1; [|now apply rd_tendency].
  apply exec_fn with (f := tendency_fn S2 t s time md) in X2; [|now apply rd_tendency].
  assert (Ha : ag (gV Fv (also (fun r => state_eq S1 K r m1 m2) t)) m1' m2').
  { eapply agree_meq; [exact X1|exact X2|]. eapply g_tendency; eauto using ready_wfm.
    now apply ready_agree. }
  split; eapply agree_state; eauto; unfold also; auto.
Qed.

Lemma rl_rk4_run steps m1 m2 m1' m2' :
  (forall t dt, In (t, dt) steps -> Ht t /\ forall i, 0 <= i < 3 -> Ht (t + rk4_c i * dt)%fp) ->
  ready S1 m1 -> ready S2 m2 -> state_eq S1 K St m1 m2 ->
  (disable_h P1 = false /\ disable_vn P1 = false) \/ state_eq S1 K Tend m1 m2 ->
  exec D1 (rk4_run S1 steps) m1 (OK m1') -> exec D2 (rk4_run S2 steps) m2 (OK m2') -> state_eq S1 K St m1' m2'.
Proof.
  intros Hts R1 R2 Hs Htn X1 X2.
  apply exec_fn with (f := rk4_run_fn S1 steps) in X1; [|apply hs_rk4_run; auto using ready_wfm].
  apply exec_fn with (f := rk4_run_fn S2 steps) in X2; [|apply hs_rk4_run; auto using ready_wfm].
  assert (Ha : ag (gV Fv (rkT (state_eq S1 K Tend m1 m2))) m1 m2).
  { apply ready_agree; auto. intros []; cbn; tauto. }
  assert (Hb : ag (gV Fv (fun s => s = St)) (rk4_run_fn S1 steps m1) (rk4_run_fn S2 steps m2)).
  2:{ eapply agree_state; [eapply agree_meq; [exact X1|exact X2|exact Hb]|reflexivity]. }
  assert (W : wfm D1 m1) by auto using ready_wfm.
  assert (Htn' : state_eq S1 K Tend m1 m2 \/ all_enabled S1) by (unfold all_enabled; tauto).
  revert Ha Htn'. generalize (state_eq S1 K Tend m1 m2). clear R1 R2 Hs Htn X1 X2 m1' m2'. intros tn Ha Htn.
  revert tn Ha Htn. revert m1 m2 W. induction steps as [|[t dt] l IH]; intros m1 m2 W tn Ha Htn.
  - eapply g_weaken; [exact Ha|]. intros s ->. exact I.
  - destruct (Hts t dt ltac:(now left)) as [H0 H3].
    apply (IH (fun t' dt' Hi => Hts t' dt' (or_intror Hi)) (rk4_fn S1 t dt m1) (rk4_fn S2 t dt m2) (wfm_rk4 S1 t dt m1 W) True);
      [|now left]. eapply g_rk4; eauto.
Qed.

Lemma rl_lsrk_run n steps m1 m2 m1' m2' :
  (forall t dt, In (t, dt) steps -> forall i, 0 <= i < n -> Ht (t + lsrk_c n i * dt)%fp) ->
  ready S1 m1 -> ready S2 m2 -> state_eq S1 K St m1 m2 -> state_eq S1 K Tend m1 m2 ->
  exec D1 (lsrk_run S1 n steps) m1 (OK m1') -> exec D2 (lsrk_run S2 n steps) m2 (OK m2') -> state_eq S1 K St m1' m2'.
Proof.
  intros Hts R1 R2 Hs Htn X1 X2.
  apply exec_fn with (f := lsrk_run_fn S1 n steps) in X1; [|apply hs_lsrk_run; auto using ready_wfm].
  apply exec_fn with (f := lsrk_run_fn S2 n steps) in X2; [|apply hs_lsrk_run; auto using ready_wfm].
  assert (Ha : ag (gV Fv (rkT True)) m1 m2).
  { apply ready_agree; auto. intros []; cbn; tauto. }
  assert (Hb : ag (gV Fv (rkT True)) (lsrk_run_fn S1 n steps m1) (lsrk_run_fn S2 n steps m2)).
  2:{ eapply agree_state; [eapply agree_meq; [exact X1|exact X2|exact Hb]|exact I]. }
  assert (W : wfm D1 m1) by auto using ready_wfm.
  clear R1 R2 Hs Htn X1 X2 m1' m2'.
  revert m1 m2 W Ha. induction steps as [|[t dt] l IH]; intros m1 m2 W Ha; [exact Ha|].
  apply (IH (fun t' dt' Hi => Hts t' dt' (or_intror Hi)) (lsrk_fn S1 n t dt m1) (lsrk_fn S2 n t dt m2) (wfm_lsrk S1 n t dt m1 W)).
  eapply g_lsrk; eauto. intros. eapply Hts; eauto. now left.
Qed.
End Relate.

(** [S1] and [S2] leave the same values in the layers [K] whenever they are started from memories with
    the same values in these layers: [compute_tendency] leaves the same tendencies, and any number of
    steps of either stepper leave the same prognostic fields.  The previous contents of the tendency
    arrays have to agree only where the code reads them. *)
Definition same_results {A} (S1 S2 : setup A) (K : Z -> Prop) : Prop :=
  (forall t s time md m1 m2 m1' m2', s <> t -> ready S1 m1 -> ready S2 m2 -> state_eq S1 K s m1 m2 ->
     (md = Replace /\ disable_h (par_of S1) = false /\ disable_vn (par_of S1) = false) \/ state_eq S1 K t m1 m2 ->
     exec (sdims S1) (compute_tendency S1 t s time md) m1 (OK m1') ->
     exec (sdims S2) (compute_tendency S2 t s time md) m2 (OK m2') -> state_eq S1 K t m1' m2') /\
  (forall steps m1 m2 m1' m2', ready S1 m1 -> ready S2 m2 -> state_eq S1 K St m1 m2 ->
     (disable_h (par_of S1) = false /\ disable_vn (par_of S1) = false) \/ state_eq S1 K Tend m1 m2 ->
     exec (sdims S1) (rk4_run S1 steps) m1 (OK m1') ->
     exec (sdims S2) (rk4_run S2 steps) m2 (OK m2') -> state_eq S1 K St m1' m2') /\
  (forall n steps m1 m2 m1' m2', ready S1 m1 -> ready S2 m2 -> state_eq S1 K St m1 m2 -> state_eq S1 K Tend m1 m2 ->
     exec (sdims S1) (lsrk_run S1 n steps) m1 (OK m1') ->
     exec (sdims S2) (lsrk_run S2 n steps) m2 (OK m2') -> state_eq S1 K St m1' m2').

Lemma rel_same_results {A} (S1 S2 : setup A) K :
  rel_ok S1 S2 K (fun _ => True) -> setup_ok S1 -> setup_ok S2 ->
  same_mesh (mesh_of_setup S1) (mesh_of_setup S2) ->
  (disable_vn (par_of S1) = false -> f0 (par_of S1) = f0 (par_of S2)) -> same_results S1 S2 K.
Proof.
  intros HR O1 O2 Hm Hf. repeat split; intros.
  1-3: eapply (rl_tendency S1 S2 K _ HR O1 O2 Hm Hf t s time md m1 m2 m1' m2'); eauto.
  1-3: eapply (rl_rk4_run S1 S2 K _ HR O1 O2 Hm Hf steps m1 m2 m1' m2'); eauto.
  1-3: eapply (rl_lsrk_run S1 S2 K _ HR O1 O2 Hm Hf n steps m1 m2 m1' m2'); eauto.
Qed.

(** The layer from which the vorticity of the Laplacian is computed is the layer itself. *)
Lemma rv_self cf k : ksimd cf = false \/ vector_length cf = 1 -> rv_layer cf k = k.
Proof. unfold rv_layer. destruct (ksimd cf); [|reflexivity]. intros [H|H]; [discriminate|]. rewrite H, Z.div_1_r. lia. Qed.

(** Setups that differ in the build and in the number of layers only. *)
Lemma rel_build {A} cf1 cf2 (h1 h2 : hexargs A) (P : params A) hk (K : Z -> Prop) :
  same_mesh h1 h2 ->
  (forall k, K k -> 0 <= k < d_nlayers (dims_of cf1 h1 (ntracers P)) /\ 0 <= k < d_nlayers (dims_of cf2 h2 (ntracers P))) ->
  ksimd cf1 = ksimd cf2 \/ mul_AC A ->
  disable_vn P = true \/ vel_hyperdiff_enabled P = false \/
    (forall k, K k -> K (rv_layer cf1 k) /\ rv_layer cf1 k = rv_layer cf2 k) ->
  rel_ok (mkSetup cf1 h1 P hk) (mkSetup cf2 h2 P hk) K (fun _ => True).
Proof.
  intros (Ex & Ey & Ed) HK Hs Hv. constructor; cbn; rewrite ?Ex, ?Ey; auto; try (intros; now apply HK).
  - unfold hook_eq. destruct hk; auto.
  - intros E. split; [reflexivity|]. intros E'. split; [reflexivity|].
    destruct Hv as [Hv|[Hv|Hv]]; [congruence|congruence|exact Hv].
Qed.
