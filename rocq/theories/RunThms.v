(** Proofs of the properties of [PropsRun.v]. *)
From Coq Require Import ZArith Reals List Bool Lia Lra.
From Verif Require Import Arith Arrays Prog Conc Launch Mesh AuxVars Tend Model Hex MeshProof MeshMem Over Formulas KernBase Terms KernAux KernTend TendFn StepFn Ready Rel RelRun Relate TendVal.
Import ListNotations.
Open Scope Z_scope.

Lemma mul_AC_R : mul_AC RA.
Proof. split; intros; cbn; ring. Qed.

Lemma C15_layer_padding_proof :
  forall (A : Arith) (cf : config) (h : hexargs A) (ntr : Z), mesh_ok cf h ->
  let D := dims_of cf h ntr in let VL := vector_length cf in
  nlayers h <= d_nlayers D < nlayers h + VL /\
  (exists q, d_nlayers D = q * VL) /\
  (forall q, nlayers h <= q * VL -> d_nlayers D <= q * VL) /\
  d_nlayers_vec D * VL = d_nlayers D /\
  (forall k, 0 <= k < d_nlayers D -> exists kchunk kvec,
     (0 <= kchunk < d_nlayers_vec D /\ 0 <= kvec < VL /\ k = kchunk * VL + kvec) /\
     forall kchunk' kvec', 0 <= kvec' < VL -> k = kchunk' * VL + kvec' -> kchunk' = kchunk /\ kvec' = kvec) /\
  (forall kchunk kvec, 0 <= kchunk < d_nlayers_vec D -> 0 <= kvec < VL -> 0 <= kchunk * VL + kvec < d_nlayers D) /\
  always (dims_of cf h 0) (mesh_ctor cf h) (mzero A) (fun m =>
    forall c, 0 <= c < d_ncells D -> mi m MaxLevelCell [c] = d_nlayers D).
Proof.
  intros A cf h ntr H. cbv zeta.
  assert (HV : 1 <= vector_length cf) by (destruct H as (_ & _ & _ & Hl & _); unfold vector_length; destruct (no_simd cf); lia).
  assert (Hn : 1 <= nlayers h \/ 0 <= nlayers h) by (destruct H as (_ & _ & _ & _ & Hn & _); lia).
  set (VL := vector_length cf) in *. cbn [dims_of d_nlayers d_nlayers_vec d_ncells]. fold VL.
  assert (Hz : nlayers h <= zceil (nlayers h) VL * VL < nlayers h + VL).
  { unfold zceil. pose proof (Z.div_mod (- nlayers h) VL ltac:(lia)). pose proof (Z.mod_pos_bound (- nlayers h) VL ltac:(lia)). nia. }
  split; [exact Hz|]. split; [now exists (zceil (nlayers h) VL)|].
  split; [intros q Hq; assert (zceil (nlayers h) VL < q + 1) by nia; nia|]. split; [reflexivity|]. split; [|split].
  - intros k Hk. exists (k / VL), (k mod VL). pose proof (Z.div_mod k VL). pose proof (Z.mod_pos_bound k VL).
    assert (0 <= k / VL) by (apply Z.div_pos; lia).
    split; [repeat split; nia|]. intros a b Hb ->.
    rewrite Z.add_comm, Z.div_add, Z.mod_add, Z.div_small, Z.mod_small by lia. lia.
  - intros; nia.
  - apply hsafe_always. eapply hsafe_post; [apply (mesh_ctor_hsafe cf h 0 H); apply meq_refl|].
    cbv beta. intros m [Hm _] c Hc. now rewrite (hm_mlc _ _ _ Hm).
Qed.

Lemma C16_tendency_safe_and_deterministic_proof :
  forall (A : Arith) (S : setup A), setup_ok S ->
  (forall m0, exec (sdims S) (mesh_ctor (cfg_of S) (mesh_of_setup S) ++ model_ctor S) (mzero A) (OK m0) -> ready S m0) /\
  always (sdims S) (mesh_ctor (cfg_of S) (mesh_of_setup S) ++ model_ctor S) (mzero A) (ready S) /\
  forall m, ready S m ->
  (forall t s time md, s <> t ->
     always (sdims S) (compute_tendency S t s time md) m (ready S) /\
     deterministic (sdims S) (compute_tendency S t s time md) m) /\
  (forall steps, always (sdims S) (rk4_run S steps) m (ready S) /\ deterministic (sdims S) (rk4_run S steps) m) /\
  (always (sdims S) (lsrk_ctor S) m (ready S) /\ deterministic (sdims S) (lsrk_ctor S) m) /\
  (forall n steps, always (sdims S) (lsrk_run S n steps) m (ready S) /\ deterministic (sdims S) (lsrk_run S n steps) m).
Proof.
  intros A S Hok.
  assert (H0 : forall m0, exec (sdims S) (mesh_ctor (cfg_of S) (mesh_of_setup S) ++ model_ctor S) (mzero A) (OK m0) -> ready S m0).
  { intros m0 H. exists m0. split; [exact H|]. intros; reflexivity. }
  split; [exact H0|]. split.
  { destruct (hsafe_always _ _ _ _ (ctor_hsafe S Hok (mzero A) (meq_refl _))) as [H1 [m0 H2]]. split; [|now exists m0].
    intros o Ho. destruct (H1 o Ho) as (m' & -> & _). exists m'. split; [reflexivity|]. now apply H0. }
  intros m Hr. split; [|split; [|split]].
  - intros t s time md Hts. pose proof (rd_tendency S Hok t s time md m Hr Hts) as H.
    split; [|exact (hsafe_deterministic _ _ _ _ H)].
    apply always_fn with (f := tendency_fn S t s time md); [exact H|]. intros M E.
    eapply ready_cst; [|exact Hr]. eapply cst_meq; [exact E|apply cst_tendency].
  - intros steps. pose proof (hs_rk4_run S Hok steps m (ready_wfm S Hok m Hr)) as H.
    split; [|exact (hsafe_deterministic _ _ _ _ H)].
    apply always_fn with (f := rk4_run_fn S steps); [exact H|]. intros M E.
    eapply ready_cst; [|exact Hr]. eapply cst_meq; [exact E|apply cst_rk4_run].
  - pose proof (hs_lsrk_ctor S m) as H. split; [|exact (hsafe_deterministic _ _ _ _ H)].
    apply always_fn with (f := lsrk_init_fn S); [exact H|]. intros M E.
    eapply ready_cst; [|exact Hr]. eapply cst_meq; [exact E|apply cst_init].
  - intros n steps. pose proof (hs_lsrk_run S Hok n steps m (ready_wfm S Hok m Hr)) as H.
    split; [|exact (hsafe_deterministic _ _ _ _ H)].
    apply always_fn with (f := lsrk_run_fn S n steps); [exact H|]. intros M E.
    eapply ready_cst; [|exact Hr]. eapply cst_meq; [exact E|apply cst_lsrk_run].
Qed.

Lemma C18_vector_length_irrelevant_proof :
  forall (A : Arith) (cf1 cf2 : config) (h1 h2 : hexargs A) (P : params A) (hk : option (forcing A)) (k : Z),
  let S1 := mkSetup cf1 h1 P hk in let S2 := mkSetup cf2 h2 P hk in
  setup_ok S1 -> setup_ok S2 -> same_mesh h1 h2 ->
  ksimd cf1 = false -> ksimd cf2 = false ->
  0 <= k < d_nlayers (sdims S1) -> 0 <= k < d_nlayers (sdims S2) ->
  same_results S1 S2 (eq k).
Proof.
  intros A cf1 cf2 h1 h2 P hk k S1 S2 O1 O2 Hm E1 E2 Hk1 Hk2. apply rel_same_results; auto.
  apply rel_build; auto.
  - intros k' <-. split; assumption.
  - left. congruence.
  - right. right. intros k' <-. rewrite !rv_self by auto. auto.
Qed.

Lemma C20_fused_equals_split_proof :
  forall (A : Arith) (b1 b2 : bool) (ns ks : bool) (ln : Z) (h : hexargs A) (P : params A) (hk : option (forcing A)),
  let S1 := mkSetup (mkConfig ns ks b1 ln) h P hk in let S2 := mkSetup (mkConfig ns ks b2 ln) h P hk in
  setup_ok S1 ->
  setup_ok S2 /\ same_results S1 S2 (fun k => 0 <= k < d_nlayers (sdims S1)).
Proof.
  intros A b1 b2 ns ks ln h P hk S1 S2 O1. assert (O2 : setup_ok S2) by exact O1. split; [exact O2|].
  apply rel_same_results; auto; [|now repeat split]. apply rel_build; auto; [now repeat split|].
  right. right. intros k Hk. split; [|reflexivity]. exact (rv_range S1 (ok_wfd S1 O1) k Hk).
Qed.

Lemma C21_layers_independent_proof :
  forall (A : Arith) (S : setup A) (k : Z),
  setup_ok S -> 0 <= k < d_nlayers (sdims S) ->
  ksimd (cfg_of S) = false \/ vector_length (cfg_of S) = 1 \/ disable_vn (par_of S) = true \/
    flt (fofZ 0) (visc_del4 (par_of S)) = false ->
  same_results S S (eq k).
Proof.
  intros A S k O Hk Hc. apply rel_same_results; auto; [|now repeat split].
  destruct S as [cf h P hk]. apply rel_build; auto; [now repeat split|intros k' <-; split; assumption|]. cbn in Hc.
  assert (Hrv : ksimd cf = false \/ vector_length cf = 1 -> forall k', k = k' -> k = rv_layer cf k' /\ rv_layer cf k' = rv_layer cf k')
    by (intros H k' <-; now rewrite rv_self).
  destruct Hc as [Hc|[Hc|[Hc|Hc]]]; auto.
Qed.

Lemma C37_coefficients_not_positive_are_off_proof :
  forall (A : Arith) (cf : config) (h : hexargs A) (P1 P2 : params A) (hk : option (forcing A)),
  let S1 := mkSetup cf h P1 hk in let S2 := mkSetup cf h P2 hk in
  let off (x : F A) := flt (fofZ 0) x = false in
  let same (x y : F A) := x = y \/ (off x /\ off y) in
  setup_ok S1 ->
  f0 P1 = f0 P2 -> grav P1 = grav P2 -> ntracers P1 = ntracers P2 ->
  disable_h P1 = disable_h P2 -> disable_vn P1 = disable_vn P2 ->
  same (visc_del2 P1) (visc_del2 P2) -> same (visc_del4 P1) (visc_del4 P2) ->
  same (eddy_diff2 P1) (eddy_diff2 P2) -> same (eddy_diff4 P1) (eddy_diff4 P2) ->
  setup_ok S2 /\ same_results S1 S2 (fun k => 0 <= k < d_nlayers (sdims S1)).
Proof.
  intros A cf h P1 P2 hk S1 S2 off same O1 Ef Eg En Eh Ev V2 V4 T2 T4.
  assert (Q : forall x y : F A, same x y -> flt (fofZ 0) x = flt (fofZ 0) y /\ (flt (fofZ 0) x = true -> x = y)).
  { intros x y [->|[Hx Hy]]; [auto|]. unfold off in *. rewrite Hx, Hy. split; [reflexivity|discriminate]. }
  assert (O2 : setup_ok S2). { destruct O1 as (H1 & H2 & H3). repeat split; try apply H1; auto. cbn. rewrite <- En. exact H2. }
  split; [exact O2|].
  apply rel_same_results; auto; [|now repeat split]. constructor; cbn; auto; unfold vel_diff_enabled, vel_hyperdiff_enabled, tracer_diff_enabled, tracer_hyperdiff_enabled.
  - unfold hook_eq. destruct hk; auto.
  - intros _. now apply Q.
  - intros _. destruct (Q _ _ V4) as [E1 E2]. split; [exact E1|]. intros E. split; [auto|]. intros k Hk.
    split; [|reflexivity]. exact (rv_range S1 (ok_wfd S1 O1) k Hk).
  - intros _. now apply Q.
  - intros _. now apply Q.
Qed.

Lemma C50_f0_unused_without_velocity_tendency_proof :
  forall (A : Arith) (cf : config) (h : hexargs A) (P1 P2 : params A) (hk : option (forcing A)),
  let S1 := mkSetup cf h P1 hk in let S2 := mkSetup cf h P2 hk in
  setup_ok S1 ->
  disable_vn P1 = true -> disable_vn P2 = true ->
  ntracers P1 = ntracers P2 -> disable_h P1 = disable_h P2 ->
  eddy_diff2 P1 = eddy_diff2 P2 -> eddy_diff4 P1 = eddy_diff4 P2 ->
  setup_ok S2 /\ same_results S1 S2 (fun k => 0 <= k < d_nlayers (sdims S1)).
Proof.
  intros A cf h P1 P2 hk S1 S2 O1 D1 D2 En Eh T2 T4.
  assert (O2 : setup_ok S2). { destruct O1 as (H1 & H2 & H3). repeat split; try apply H1; auto. cbn. rewrite <- En. exact H2. }
  split; [exact O2|].
  apply rel_same_results; auto; [|now repeat split|cbn; congruence].
  constructor; cbn; auto; unfold vel_diff_enabled, vel_hyperdiff_enabled, tracer_diff_enabled, tracer_hyperdiff_enabled; try congruence.
  - unfold hook_eq. destruct hk; auto.
  - rewrite T2. auto.
  - rewrite T4. auto.
Qed.

Lemma C46_forcing_used_inside_the_step_only_proof :
  forall (cf : config) (h : hexargs RA) (P : params RA) (fc1 fc2 : forcing RA) (steps : list (R * R)),
  let S1 := mkSetup cf h P (Some fc1) in let S2 := mkSetup cf h P (Some fc2) in
  let K := fun k => 0 <= k < d_nlayers (sdims S1) in
  setup_ok S1 ->
  (forall t dt, In (t, dt) steps -> 0 <= dt)%R ->
  (forall t dt x y tau, In (t, dt) steps -> t <= tau <= t + dt ->
     force_h fc1 x y tau = force_h fc2 x y tau /\ force_vx fc1 x y tau = force_vx fc2 x y tau /\
     force_vy fc1 x y tau = force_vy fc2 x y tau)%R ->
  forall m1 m2 m1' m2', ready S1 m1 -> ready S2 m2 -> state_eq S1 K St m1 m2 -> state_eq S1 K Tend m1 m2 ->
  (exec (sdims S1) (rk4_run S1 steps) m1 (OK m1') -> exec (sdims S2) (rk4_run S2 steps) m2 (OK m2') ->
     state_eq S1 K St m1' m2') /\
  (forall n, exec (sdims S1) (lsrk_run S1 n steps) m1 (OK m1') -> exec (sdims S2) (lsrk_run S2 n steps) m2 (OK m2') ->
     state_eq S1 K St m1' m2').
Proof.
  intros cf h P fc1 fc2 steps S1 S2 K O1 Hdt Hfc m1 m2 m1' m2' R1 R2 Hs Ht.
  pose (T := fun tau : F RA => exists t dt : R, In (t, dt) steps /\ (t <= tau <= t + dt)%R).
  assert (O2 : setup_ok S2) by exact O1.
  assert (HR : rel_ok S1 S2 K T).
  { constructor; cbn; auto.
    - intros x y tau (t & dt & Hi & Hb). eapply Hfc; eauto.
    - intros _. split; [reflexivity|]. intros _. split; [reflexivity|]. intros k Hk.
      split; [|reflexivity]. exact (rv_range S1 (ok_wfd S1 O1) k Hk). }
  split.
  - intros X1 X2. apply (rl_rk4_run S1 S2 K T HR O1 O2 (conj eq_refl (conj eq_refl eq_refl)) (fun _ => eq_refl) steps m1 m2 m1' m2'); auto.
    intros t dt Hi. specialize (Hdt t dt Hi). split; [exists t, dt; split; [exact Hi|lra]|].
    intros i Hi'. exists t, dt. split; [exact Hi|]. unfold rk4_c. destruct (i =? 2); cbn; lra.
  - intros n X1 X2. apply (rl_lsrk_run S1 S2 K T HR O1 O2 (conj eq_refl (conj eq_refl eq_refl)) (fun _ => eq_refl) n steps m1 m2 m1' m2'); auto.
    intros t dt Hi i Hi'. specialize (Hdt t dt Hi). exists t, dt. split; [exact Hi|].
    assert (Hc : (0 <= lsrk_c (A:=RA) n i <= 1)%R).
    { unfold lsrk_c. destruct (n =? 5); [|cbn; lra].
      destruct i as [|p|p]; [cbn; lra| |cbn; lra]. repeat (destruct p as [p|p|]; try (cbn; lra)). }
    cbn in *. nra.
Qed.

Lemma C48_mesh_and_parameters_not_modified_proof :
  forall (A : Arith) (S : setup A) (m : mem A), setup_ok S -> ready S m ->
  let fixed_array (a : rarr) := match a with
    | AreaCell | XCell | YCell | EdgeSignOnCell | DcEdge | DvEdge | AngleEdge | XEdge | YEdge | WeightsOnEdge
    | MeshScalingDel2 | MeshScalingDel4 | EdgeMask | XVertex | YVertex | AreaTriangle | KiteareasOnVertex
    | EdgeSignOnVertex | FVertex | FEdge => True
    | _ => False
    end in
  let fixed (m' : mem A) := (forall a ix, mi m' a ix = mi m a ix) /\
                            (forall a ix, fixed_array a -> mr m' a ix = mr m a ix) in
  (forall t s time md, s <> t -> always (sdims S) (compute_tendency S t s time md) m (fun m' =>
     fixed m' /\ forall r ix, r <> t -> mr m' (HCell r) ix = mr m (HCell r) ix /\
       mr m' (VnEdge r) ix = mr m (VnEdge r) ix /\ mr m' (TrCell r) ix = mr m (TrCell r) ix)) /\
  (forall steps, always (sdims S) (rk4_run S steps) m fixed) /\
  (forall n steps, always (sdims S) (lsrk_run S n steps) m fixed).
Proof.
  intros A S m Hok Hr fixed_array fixed.
  assert (Hc : forall M m', meq M m' -> cst m m' -> fixed M).
  { intros M m' E C. pose proof (cst_meq m m' M E C) as C'. split; intros a ix.
    - specialize (C' (LI a ix) eq_refl). now injection C'.
    - intros Ha. specialize (C' (LR a ix)). destruct a; try contradiction Ha; specialize (C' eq_refl); now injection C'. }
  split; [|split].
  - intros t s time md Hts. apply always_fn with (f := tendency_fn S t s time md); [now apply rd_tendency|].
    intros M E. split; [eapply Hc; [exact E|apply cst_tendency]|].
    intros r ix Hrt. destruct E as [_ E]. rewrite !E.
    clear - Hrt. rewrite !tend_other by first [reflexivity | discriminate | (intros X; injection X; exact Hrt)]. auto.
  - intros steps. apply always_fn with (f := rk4_run_fn S steps); [apply hs_rk4_run; auto using ready_wfm|].
    intros M E. eapply Hc; [exact E|apply cst_rk4_run].
  - intros n steps. apply always_fn with (f := lsrk_run_fn S n steps); [apply hs_lsrk_run; auto using ready_wfm|].
    intros M E. eapply Hc; [exact E|apply cst_lsrk_run].
Qed.

