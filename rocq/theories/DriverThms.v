(** Proofs of the properties of [PropsDriver.v]. *)
From Coq Require Import ZArith Reals List Bool Lia Lra.
From Verif Require Import Arith Arrays Prog Conc Launch Mesh AuxVars Tend Model RSum Hex MeshProof MeshMem Over Formulas KernBase Terms KernAux KernTend TendFn StepFn Ready Relate StepVal StepRun StepThms Diag ConsThms SteadyThms Driver DriverFn.
Import ListNotations.
Open Scope Z_scope.

(** Without tendency the state does not move. *)
Lemma frozen (S : setup RA) : setup_ok S -> hook S = None -> forall st steps m, ready S m -> holds S Tend m zero_fields ->
  always (sdims S) (stepper_run S st steps) m (fun m' => forall k, 0 <= k < d_nlayers (sdims S) ->
    (disable_h (par_of S) = true -> forall c, 0 <= c < d_ncells (sdims S) -> mr m' (HCell St) [c; k] = mr m (HCell St) [c; k]) /\
    (disable_vn (par_of S) = true -> forall e, 0 <= e < d_nedges (sdims S) -> mr m' (VnEdge St) [e; k] = mr m (VnEdge St) [e; k])).
Proof.
  intros Hok Hf st steps m R T.
  pose proof (C47_disabled_variables_frozen_proof S Hok (match st with LSRK n => n | RK4 => 0 end) steps m R) as [G _].
  specialize (G Hf (stepper_run S st steps) ltac:(destruct st; auto)). destruct G as [G1 G2].
  assert (Z : forall k, 0 <= k < d_nlayers (sdims S) -> (forall c, 0 <= c < d_ncells (sdims S) -> mr m (HCell Tend) [c; k] = 0%R) /\
    (forall e, 0 <= e < d_nedges (sdims S) -> mr m (VnEdge Tend) [e; k] = 0%R)).
  { intros k Hk. destruct (T k Hk) as (T1 & T2 & _). cbn in T1, T2. auto. }
  assert (X : exists m', exec (sdims S) (stepper_run S st steps) m (OK m')).
  { apply (hsafe_always _ _ _ _ (hs_stepper_run S Hok st steps m (ready_wfm S Hok m R))). }
  assert (Y : forall o, exec (sdims S) (stepper_run S st steps) m o -> exists m', o = OK m').
  { intros o Ho. destruct (proj1 (hsafe_always _ _ _ _ (hs_stepper_run S Hok st steps m (ready_wfm S Hok m R))) o Ho) as (m' & -> & _). eauto. }
  split; [|exact X]. intros o Ho. destruct (Y o Ho) as (m' & ->). exists m'. split; [reflexivity|]. intros k Hk. split.
  - intros Hd c Hc. destruct (G1 Hd (fun c k Hc Hk => proj1 (Z k Hk) c Hc)) as [P _]. destruct (P _ Ho) as (m2 & E & Q). injection E as <-. now apply Q.
  - intros Hd e He. destruct (G2 Hd (fun e k He Hk => proj2 (Z k Hk) e He)) as [P _]. destruct (P _ Ho) as (m2 & E & Q). injection E as <-. now apply Q.
Qed.
Lemma always_weaken {A} D Ls (m : mem A) (P Q : mem A -> Prop) : always D Ls m P -> (forall m', P m' -> Q m') -> always D Ls m Q.
Proof. intros [H1 H2] H. split; [|exact H2]. intros o Ho. destruct (H1 o Ho) as (m' & -> & Hp). eauto. Qed.
Lemma always_and {A} D Ls (m : mem A) (P Q : mem A -> Prop) : always D Ls m P -> always D Ls m Q -> always D Ls m (fun m' => P m' /\ Q m').
Proof.
  intros [H1 H2] [H3 _]. split; [|exact H2]. intros o Ho. destruct (H1 o Ho) as (m' & -> & Hp). destruct (H3 _ Ho) as (m2 & E & Hq).
  injection E as <-. eauto.
Qed.

Lemma C52_programs_are_safe_and_deterministic_proof :
  forall (A : Arith) (S : setup A), setup_ok S ->
  forall (st : stepper) (I : initial A) (steps : list (F A * F A)),
  exists m', exec (sdims S) (program S st I steps) (mzero A) (OK m') /\
    forall o, exec (sdims S) (program S st I steps) (mzero A) o -> exists m, o = OK m /\ meq m m' .
Proof.
  intros A S Hok st I steps. destruct (hs_program S Hok st I steps) as (m0 & _ & H). pose proof (hsafe_always _ _ _ _ H) as [H1 [m' H2]].
  exists m'. split; [exact H2|]. intros o Ho. destruct (H1 _ Ho) as (m & -> & Hm). exists m. split; [reflexivity|].
  exact (hsafe_deterministic _ _ _ _ H _ _ Ho H2).
Qed.

Lemma C52_initial_state_proof :
  forall (A : Arith) (S : setup A), setup_ok S ->
  forall (st : stepper) (I : initial A) (m : mem A), exec (sdims S) (prologue S st I) (mzero A) (OK m) ->
  ready S m /\ forall k, 0 <= k < d_nlayers (sdims S) ->
  (forall c, 0 <= c < d_ncells (sdims S) ->
    mr m (HCell St) [c; k] = ini_h I (mr m XCell [c]) (mr m YCell [c]) /\ mr m (HCell Tend) [c; k] = (#0)%fp /\
    forall l, 0 <= l < ntracers (par_of S) ->
      mr m (TrCell St) [l; c; k] = ini_tr I l (mr m XCell [c]) (mr m YCell [c]) /\ mr m (TrCell Tend) [l; c; k] = (#0)%fp) /\
  (forall e, 0 <= e < d_nedges (sdims S) ->
    mr m (VnEdge St) [e; k] = (fcos (mr m AngleEdge [e]) * ini_vx I (mr m XEdge [e]) (mr m YEdge [e]) +
                               fsin (mr m AngleEdge [e]) * ini_vy I (mr m XEdge [e]) (mr m YEdge [e]))%fp /\
    mr m (VnEdge Tend) [e; k] = (#0)%fp).
Proof.
  intros A S Hok st I m Hx. destruct (prologue_spec S Hok st I m Hx) as (R & T & H). split; [exact R|].
  intros k Hk. destruct (T k Hk) as (T1 & T2 & T3), (H k Hk) as (H1 & H2 & H3). cbn [ini_fields zero_fields fh fv ft] in *.
  repeat split; auto.
Qed.

Lemma C47_fresh_stepper_proof :
  forall (S : setup RA), setup_ok S -> hook S = None ->
  forall (st : stepper) (steps : list (R * R)) (m : mem RA), fresh S st m ->
  always (sdims S) (stepper_run S st steps) m (fun m' => forall k, 0 <= k < d_nlayers (sdims S) ->
    (disable_h (par_of S) = true -> forall c, 0 <= c < d_ncells (sdims S) -> mr m' (HCell St) [c; k] = mr m (HCell St) [c; k]) /\
    (disable_vn (par_of S) = true -> forall e, 0 <= e < d_nedges (sdims S) -> mr m' (VnEdge St) [e; k] = mr m (VnEdge St) [e; k])).
Proof.
  intros S Hok Hf st steps m Hm. destruct (fresh_spec S Hok st m Hm) as [R T]. now apply frozen.
Qed.

Lemma C47_lsrk_constructor_clears_proof :
  forall (S : setup RA), setup_ok S -> hook S = None ->
  forall (n : Z) (steps : list (R * R)) (m : mem RA), ready S m ->
  always (sdims S) (lsrk_ctor S) m (fun m' => forall k, 0 <= k < d_nlayers (sdims S) ->
    (forall c, 0 <= c < d_ncells (sdims S) -> mr m' (HCell Tend) [c; k] = 0%R) /\
    (forall e, 0 <= e < d_nedges (sdims S) -> mr m' (VnEdge Tend) [e; k] = 0%R) /\
    (forall l c, 0 <= l < ntracers (par_of S) -> 0 <= c < d_ncells (sdims S) -> mr m' (TrCell Tend) [l; c; k] = 0%R)) /\
  always (sdims S) (lsrk_ctor S ++ lsrk_run S n steps) m (fun m' => forall k, 0 <= k < d_nlayers (sdims S) ->
    (disable_h (par_of S) = true -> forall c, 0 <= c < d_ncells (sdims S) -> mr m' (HCell St) [c; k] = mr m (HCell St) [c; k]) /\
    (disable_vn (par_of S) = true -> forall e, 0 <= e < d_nedges (sdims S) -> mr m' (VnEdge St) [e; k] = mr m (VnEdge St) [e; k])).
Proof.
  intros S Hok Hf n steps m R. pose proof (hsafe_always _ _ _ _ (hs_lsrk_ctor S m)) as [H1 [m1 X1]].
  pose proof (holds_lsrk_init S m) as T. split.
  - split; [|eauto]. intros o Ho. destruct (H1 _ Ho) as (m' & -> & E). exists m'. split; [reflexivity|].
    apply meq_sym in E. exact (holds_meq S Tend _ _ _ E T).
  - assert (G : forall m1, exec (sdims S) (lsrk_ctor S) m (OK m1) -> always (sdims S) (lsrk_run S n steps) m1 (fun m' => forall k, 0 <= k < d_nlayers (sdims S) ->
      (disable_h (par_of S) = true -> forall c, 0 <= c < d_ncells (sdims S) -> mr m' (HCell St) [c; k] = mr m (HCell St) [c; k]) /\
      (disable_vn (par_of S) = true -> forall e, 0 <= e < d_nedges (sdims S) -> mr m' (VnEdge St) [e; k] = mr m (VnEdge St) [e; k]))).
    { intros m2 X. destruct (H1 _ X) as (m' & E & E'). injection E as <-. apply meq_sym in E'.
      assert (R2 : ready S m2) by (eapply ready_meq; [exact E'|]; eapply ready_cst; [apply cst_init|exact R]).
      pose proof (frozen S Hok Hf (LSRK n) steps m2 R2 (holds_meq S Tend _ _ _ E' T)) as [F1 F2]. split; [|exact F2].
      intros o Ho. destruct (F1 _ Ho) as (m3 & -> & Q). exists m3. split; [reflexivity|]. intros k Hk. destruct (Q k Hk) as [Q1 Q2].
      assert (Z : forall a ix, (forall i, a <> HCell i \/ i <> Tend) -> (forall i, a <> VnEdge i \/ i <> Tend) -> (forall i, a <> TrCell i \/ i <> Tend) -> mr m2 a ix = mr m a ix).
      { intros a ix N1 N2 N3. rewrite <- (proj2 E'). unfold lsrk_init_fn. cbv zeta.
        destruct (0 <? ntracers (par_of S)); rewrite !upd_other; auto;
          intros Ha; first [destruct (N1 Tend) as [? | ?]; congruence | destruct (N2 Tend) as [? | ?]; congruence | destruct (N3 Tend) as [? | ?]; congruence]. }
      split; intros; [rewrite Q1 by assumption | rewrite Q2 by assumption]; apply Z; intros i; destruct i; first [left; discriminate | right; discriminate]. }
    split.
    + intros o Ho. apply exec_app in Ho. destruct Ho as [(m2 & X & Y)|[-> X]].
      * exact (proj1 (G m2 X) _ Y).
      * destruct (H1 _ X) as (m2 & E & _). discriminate.
    + destruct (proj2 (G m1 X1)) as (m2 & Y). exists m2. apply exec_app. left. eauto.
Qed.

Lemma C30_program_at_rest_proof :
  forall (S : setup RA), setup_ok S -> (0 < (dc (mesh_of_setup S) : R))%R -> hook S = None ->
  forall (H : R) (T : Z -> R) (st : stepper) (steps : list (R * R)),
  always (sdims S) (program S st (mkInitial (A:=RA) (fun _ _ => H) (fun _ _ => 0%R) (fun _ _ => 0%R) (fun l _ _ => T l)) steps) (mzero RA)
    (fun m' => forall k, 0 <= k < d_nlayers (sdims S) ->
      (forall c, 0 <= c < d_ncells (sdims S) -> mr m' (HCell St) [c; k] = H) /\
      (forall e, 0 <= e < d_nedges (sdims S) -> mr m' (VnEdge St) [e; k] = 0%R) /\
      (forall l c, 0 <= l < ntracers (par_of S) -> 0 <= c < d_ncells (sdims S) -> mr m' (TrCell St) [l; c; k] = T l)).
Proof.
  intros S Hok Hdc Hf H T st steps.
  eapply always_weaken; [apply (program_split S Hok st _ steps (fun m m' => forall k, 0 <= k < d_nlayers (sdims S) ->
      (forall c, 0 <= c < d_ncells (sdims S) -> mr m' (HCell St) [c; k] = H) /\
      (forall e, 0 <= e < d_nedges (sdims S) -> mr m' (VnEdge St) [e; k] = 0%R) /\
      (forall l c, 0 <= l < ntracers (par_of S) -> 0 <= c < d_ncells (sdims S) -> mr m' (TrCell St) [l; c; k] = T l)))|intros m' (m & _ & Q); exact Q].
  intros m Hx. destruct (prologue_spec S Hok st _ m Hx) as (R & Z & I).
  assert (I' : forall k, 0 <= k < d_nlayers (sdims S) ->
      (forall c, 0 <= c < d_ncells (sdims S) -> mr m (HCell St) [c; k] = H) /\
      (forall e, 0 <= e < d_nedges (sdims S) -> mr m (VnEdge St) [e; k] = 0%R) /\
      (forall l c, 0 <= l < ntracers (par_of S) -> 0 <= c < d_ncells (sdims S) -> mr m (TrCell St) [l; c; k] = T l)).
  { intros k Hk. destruct (I k Hk) as (I1 & I2 & I3). cbn in I1, I2, I3. repeat split; auto.
    intros e He. rewrite I2 by assumption. apply Rminus_diag_uniq. cbn [F RA]. ring. }
  destruct (C30_lake_at_rest_proof S Hok Hdc Hf (fun _ => H) m R) as [_ G].
  - intros k Hk. destruct (Z k Hk) as (Z1 & Z2 & _). split; intros _; auto.
  - intros k c Hk Hc. now apply I'.
  - intros k e Hk He. now apply I'.
  - right. exists (fun l _ => T l). intros l k c Hl Hk Hc. now apply I'.
  - cbv zeta in G. specialize (G steps). eapply always_weaken; [destruct st; [exact (proj1 G)|apply (proj2 G)]|].
    intros m' U k Hk. destruct (U k Hk) as (U1 & U2 & U3), (I' k Hk) as (I1 & I2 & I3).
    repeat split; intros; [rewrite U1 | rewrite U2 | rewrite U3]; auto.
Qed.

Lemma C31_program_uniform_flow_proof :
  forall (S : setup RA), setup_ok S -> (0 < (dc (mesh_of_setup S) : R))%R ->
  2 <= nx (mesh_of_setup S) -> 2 <= ny (mesh_of_setup S) -> hook S = None -> f0 (par_of S) = 0%R ->
  forall (H U V : R) (T : Z -> R -> R -> R) (st : stepper) (steps : list (R * R)),
  always (sdims S) (program S st (mkInitial (A:=RA) (fun _ _ => H) (fun _ _ => U) (fun _ _ => V) T) steps) (mzero RA)
    (fun m' => forall k, 0 <= k < d_nlayers (sdims S) ->
      (forall c, 0 <= c < d_ncells (sdims S) -> mr m' (HCell St) [c; k] = H) /\
      (forall e, 0 <= e < d_nedges (sdims S) ->
         mr m' (VnEdge St) [e; k] = (cos (mr m' AngleEdge [e]) * U + sin (mr m' AngleEdge [e]) * V)%R)).
Proof.
  intros S Hok Hdc H1 H2 Hf F0 H U V T st steps.
  eapply always_weaken; [apply (program_split S Hok st _ steps (fun m m' => forall k, 0 <= k < d_nlayers (sdims S) ->
      (forall c, 0 <= c < d_ncells (sdims S) -> mr m' (HCell St) [c; k] = H) /\
      (forall e, 0 <= e < d_nedges (sdims S) ->
         mr m' (VnEdge St) [e; k] = (cos (mr m' AngleEdge [e]) * U + sin (mr m' AngleEdge [e]) * V)%R)))|intros m' (m & _ & Q); exact Q].
  intros m Hx. destruct (prologue_spec S Hok st _ m Hx) as (R & Z & I).
  assert (I' : forall k, 0 <= k < d_nlayers (sdims S) ->
      (forall c, 0 <= c < d_ncells (sdims S) -> mr m (HCell St) [c; k] = H) /\
      (forall e, 0 <= e < d_nedges (sdims S) -> mr m (VnEdge St) [e; k] = (cos (mr m AngleEdge [e]) * U + sin (mr m AngleEdge [e]) * V)%R)).
  { intros k Hk. destruct (I k Hk) as (I1 & I2 & I3). cbn in I1, I2, I3. split; auto. }
  destruct (C31_uniform_flow_proof S Hok Hdc H1 H2 Hf F0 (fun _ => H) (fun _ => U) (fun _ => V) m R) as [_ G].
  - intros k Hk. destruct (Z k Hk) as (Z1 & Z2 & _). split; intros _; auto.
  - intros k c Hk Hc. now apply I'.
  - intros k e Hk He. destruct (I' k Hk) as [_ ->]; [|assumption]. apply Rminus_diag_uniq. cbn [F RA]. ring.
  - cbv zeta in G. specialize (G steps).
    assert (A : always (sdims S) (stepper_run S st steps) m (fun m' => cst m m')).
    { eapply always_fn with (f := run_fn S st steps); [apply hs_stepper_run; [exact Hok|now apply ready_wfm]|].
      intros M EM. eapply cst_meq; [exact EM|]. destruct st; [apply cst_rk4_run|apply cst_lsrk_run]. }
    eapply always_weaken; [apply always_and; [exact A|destruct st; [exact (proj1 G)|apply (proj2 G)]]|].
    intros m' (C & Q) k Hk. destruct (Q k Hk) as (Q1 & Q2), (I' k Hk) as (I1 & I2). split.
    + intros c Hc. rewrite Q1 by assumption. now apply I1.
    + intros e He. rewrite Q2, I2 by assumption. rewrite (mget_r m' m AngleEdge [e]) by now apply C. reflexivity.
Qed.

Lemma C53_time_loop_reaches_the_end_proof :
  forall (timeend dt : R) (n : Z), (0 < timeend)%R -> (0 < dt)%R -> (IZR n - 1 < timeend / dt <= IZR n)%R ->
  let dt' := (timeend / IZR n)%R in let steps := loop_steps (A:=RA) n dt' in
  (0 < dt' <= dt)%R /\ Z.of_nat (length steps) = n /\
  (forall i, nth_error steps i = if Z.of_nat i <? n then Some ((IZR (Z.of_nat i) * dt')%R, dt') else None) /\
  (exists t, hd_error steps = Some (t, dt') /\ t = 0%R) /\
  (forall i t u, nth_error steps i = Some (t, dt') -> nth_error steps (Datatypes.S i) = Some (u, dt') -> u = (t + dt')%R) /\
  (exists t, nth_error steps (Z.to_nat (n - 1)) = Some (t, dt') /\ (t + dt' = timeend)%R).
Proof.
  intros T dt n HT Hd [H1 H2] dt' steps.
  assert (Q : (0 < T / dt)%R) by now apply Rdiv_lt_0_compat.
  assert (Hn : 1 <= n) by (assert (0 < n) by (apply lt_IZR; lra); lia).
  assert (Hn' : (1 <= IZR n)%R) by now apply IZR_le.
  assert (N : forall i, nth_error steps i = if Z.of_nat i <? n then Some ((IZR (Z.of_nat i) * dt')%R, dt') else None).
  { intros i. unfold steps, loop_steps, zseq. rewrite map_map. destruct (Z.ltb_spec (Z.of_nat i) n).
    - apply (map_nth_error (fun x => ((IZR (Z.of_nat x) * dt')%R, dt')) i (seq 0 (Z.to_nat n)) (d := i)).
      assert (Hi : (i < Z.to_nat n)%nat) by lia. rewrite (nth_error_nth' _ 0%nat) by (rewrite seq_length; exact Hi). f_equal. rewrite seq_nth by exact Hi. lia.
    - apply nth_error_None. rewrite map_length, seq_length. lia. }
  assert (E : (IZR n * dt')%R = T) by (unfold dt'; field; lra).
  split; [|split; [|split; [exact N|split; [|split]]]].
  - split; [unfold dt'; apply Rdiv_lt_0_compat; lra|].
    apply Rmult_le_reg_l with (IZR n); [lra|]. rewrite E.
    apply Rmult_le_reg_r with (/ dt)%R; [now apply Rinv_0_lt_compat|].
    replace (IZR n * dt * / dt)%R with (IZR n) by (field; lra). exact H2.
  - unfold steps, loop_steps. rewrite map_length, length_zseq. lia.
  - exists (IZR 0 * dt')%R. split; [|apply Rmult_0_l]. pose proof (N 0%nat) as N0. cbn in N0.
    destruct (Z.ltb_spec 0 n); [|lia]. destruct steps; [discriminate|exact N0].
  - intros i t u A B. rewrite N in A, B. destruct (Z.of_nat i <? n); [|discriminate]. destruct (Z.of_nat (Datatypes.S i) <? n); [|discriminate].
    assert (At : t = (IZR (Z.of_nat i) * dt')%R) by congruence. assert (Bt : u = (IZR (Z.of_nat (Datatypes.S i)) * dt')%R) by congruence.
    rewrite At, Bt, Nat2Z.inj_succ, succ_IZR. apply Rminus_diag_uniq. cbn [F RA]. ring.
  - exists (IZR (n - 1) * dt')%R. split.
    + rewrite N. rewrite Z2Nat.id by lia. destruct (Z.ltb_spec (n - 1) n); [reflexivity|lia].
    + rewrite minus_IZR. transitivity (IZR n * dt')%R; [ring|exact E].
Qed.

