(** Proofs of the properties of [PropsSuper.v]. *)
From Coq Require Import ZArith Reals List Bool Lia Lra.
From Verif Require Import Arith Arrays Prog Conc Launch Mesh AuxVars Tend Model Hex RSum Spec MeshProof MeshMem Over Formulas KernBase Terms KernAux KernTend TendFn StepFn Ready Rel RelRun Relate TendVal StepVal StepRun StepThms RealTend FieldInv ConsBase ConsThms SteadyThms.
Import ListNotations.
Open Scope Z_scope.

(** Linear relations between the fields of a state that the tendency respects. *)
Section LinRel.
Context (S : setup RA) (Hok : setup_ok S) (L : fields RA -> Prop).
Context (L_ext : forall s (m : mem RA) y, holds S s m y -> L y -> L (fld s m)).
Context (L_add : forall b y k, L y -> L k -> L (fmap2 (A:=RA) (fun u w => (u + b * w)%R) y k)).
Context (L_scale : forall (a : R) p, L p \/ a = 0%R -> L (mkFields (A:=RA) (fun c k => fh p c k * a)%R (fun e k => fv p e k * a)%R (fun l c k => ft p l c k * a)%R)).
Context (L_tend : forall s time md (m : mem RA), s <> Tend -> ready S m -> L (fld s m) -> (md = Increment -> L (fld Tend m)) -> L (fld Tend (tendency_fn S Tend s time md m))).
Let R0 (m : mem RA) := ready S m /\ L (fld St m).
Let R1 (m : mem RA) := R0 m /\ L (fld Tend m).
Let R2 (m : mem RA) := R1 m /\ L (fld Old m).
Lemma lr_other s (m m' : mem RA) : (forall a ix, is_st s a = true -> mr m' a ix = mr m a ix) -> L (fld s m) -> L (fld s m').
Proof. intros E. apply L_ext. eapply holds_other; [exact E|apply holds_fld]. Qed.
Lemma lr_axpy d b (dt x : R) (m : mem RA) : L (fld b m) -> L (fld Tend m) -> L (fld d (axpy S d b dt x m)).
Proof. intros Hb Ht. eapply L_ext; [apply holds_axpy; apply holds_fld|]. exact (L_add (dt * x)%R _ _ Hb Ht). Qed.
Lemma lr_axpy_other r d b (dt x : R) (m : mem RA) : r <> d -> L (fld r m) -> L (fld r (axpy S d b dt x m)).
Proof. intros Hr. apply lr_other. intros a ix Ha. apply axpy_other. now apply (is_st_ne r). Qed.
Lemma lr_tend_other r s time md (m : mem RA) : r <> Tend -> L (fld r m) -> L (fld r (tendency_fn S Tend s time md m)).
Proof. intros Hr. apply L_ext. apply holds_tend_other; [exact Hr|apply holds_fld]. Qed.
Lemma lr_rk4 (t dt : R) (m : mem RA) : R0 m -> R0 (rk4_fn S t dt m).
Proof.
  intros [Hr Hs]. rewrite rk4_eq. cbv zeta.
  assert (Ax : forall d b x n, ready S n -> ready S (axpy S d b dt x n)) by (intros; eapply ready_cst; [apply cst_axpy|assumption]).
  assert (Tx : forall s x md n, ready S n -> ready S (tendency_fn S Tend s x md n)) by (intros; eapply ready_cst; [apply cst_tendency|assumption]).
  assert (Rs : ready S (save_fn S m)) by (eapply ready_cst; [apply cst_save|exact Hr]).
  assert (I0 : R2 (tendency_fn S Tend St t Replace (save_fn S m))).
  { assert (Ss : L (fld St (save_fn S m))) by (apply (lr_other St m); [intros a ix Ha; apply save_other, (is_st_ne St); congruence|exact Hs]).
    assert (So : L (fld Old (save_fn S m))) by (eapply L_ext; [apply holds_save, holds_fld|exact Hs]).
    split; [split; [split|]|].
    - auto.
    - apply lr_tend_other; [discriminate|exact Ss].
    - apply L_tend; [discriminate|exact Rs|exact Ss|discriminate].
    - apply lr_tend_other; [discriminate|exact So]. }
  assert (St' : forall i n, R2 n -> R2 (tendency_fn S Tend Provis (t + rk4_c (A:=RA) i * dt)%R Replace (axpy S Provis Old dt (rk4_a i) (axpy S St St dt (rk4_b i) n)))).
  { intros i n [[[Rn Sn] Tn] On].
    assert (A1 : L (fld Tend (axpy S St St dt (rk4_b i) n))) by (apply lr_axpy_other; [discriminate|exact Tn]).
    assert (A2 : L (fld Old (axpy S St St dt (rk4_b i) n))) by (apply lr_axpy_other; [discriminate|exact On]).
    assert (A3 : L (fld St (axpy S St St dt (rk4_b i) n))) by (apply lr_axpy; assumption).
    set (n1 := axpy S St St dt (rk4_b i) n) in *. assert (Rn1 : ready S n1) by (apply Ax; exact Rn).
    assert (B1 : L (fld Provis (axpy S Provis Old dt (rk4_a i) n1))) by (apply lr_axpy; assumption).
    assert (B2 : L (fld Old (axpy S Provis Old dt (rk4_a i) n1))) by (apply lr_axpy_other; [discriminate|exact A2]).
    assert (B3 : L (fld St (axpy S Provis Old dt (rk4_a i) n1))) by (apply lr_axpy_other; [discriminate|exact A3]).
    split; [split; [split|]|].
    - apply Tx, Ax, Rn1.
    - apply lr_tend_other; [discriminate|exact B3].
    - apply L_tend; [discriminate|apply Ax, Rn1|exact B1|discriminate].
    - apply lr_tend_other; [discriminate|exact B2]. }
  pose proof (St' 2 _ (St' 1 _ (St' 0 _ I0))) as [[[Rn Sn] Tn] On]. split; [apply Ax; exact Rn|]. apply lr_axpy; assumption.
Qed.
Lemma lr_scale (a : R) (m : mem RA) : L (fld Tend m) \/ a = 0%R -> L (fld Tend (scale_fn S a m)).
Proof. intros H. eapply L_ext; [apply holds_scale, holds_fld|]. exact (L_scale a _ H). Qed.
Lemma lr_stage n (t dt : R) i (m : mem RA) : R0 m -> L (fld Tend m) \/ lsrk_a (A:=RA) n i = 0%R -> R1 (lsrk_stage_fn S n t dt i m).
Proof.
  intros [Hr Hs] Ht. unfold lsrk_stage_fn. set (m1 := scale_fn S (lsrk_a n i) m).
  assert (Rm1 : ready S m1) by (eapply ready_cst; [apply cst_scale|exact Hr]).
  assert (S1 : L (fld St m1)) by (apply (lr_other St m); [intros a ix Ha; apply scale_other, (is_st_ne St); congruence|exact Hs]).
  assert (T1 : L (fld Tend m1)) by (now apply lr_scale).
  assert (T2 : L (fld Tend (tendency_fn S Tend St (t + lsrk_c (A:=RA) n i * dt)%R Increment m1))) by (apply L_tend; [discriminate|exact Rm1|exact S1|intros _; exact T1]).
  assert (S2 : L (fld St (tendency_fn S Tend St (t + lsrk_c (A:=RA) n i * dt)%R Increment m1))) by (apply lr_tend_other; [discriminate|exact S1]).
  split; [split|].
  - eapply ready_cst; [apply cst_axpy|]. eapply ready_cst; [apply cst_tendency|exact Rm1].
  - now apply lr_axpy.
  - apply lr_axpy_other; [discriminate|exact T2].
Qed.
Lemma lr_lsrk n (t dt : R) (m : mem RA) : R0 m -> R0 (lsrk_fn S n t dt m).
Proof.
  intros Hm. unfold lsrk_fn. assert (C : n <= 0 \/ 1 <= n) by lia. destruct C as [C|C]; [rewrite zseq_neg by exact C; exact Hm|].
  destruct (zseq_cons n C) as [z ->]. cbn [fold_left].
  pose proof (lr_stage n t dt 0 m Hm (or_intror (lsrk_a0 n))) as J0. revert J0. generalize (lsrk_stage_fn S n t dt 0 m). clear Hm m.
  induction z as [|i z IHz]; intros m Hm; [exact (proj1 Hm)|]. cbn [fold_left]. apply IHz. apply lr_stage; [apply Hm|left; apply Hm].
Qed.
Lemma lr_runs steps (m : mem RA) : ready S m -> L (fld St m) ->
  L (fld St (rk4_run_fn S steps m)) /\ forall n, L (fld St (lsrk_run_fn S n steps m)).
Proof.
  intros Hr Hs. assert (H0 : R0 m) by (split; assumption). clear Hr Hs. split; [|intros n]; revert m H0;
  (induction steps as [|[t dt] l IH]; intros m Hm; [exact (proj2 Hm)|]).
  - change (L (fld St (rk4_run_fn S l (rk4_fn S t dt m)))). apply IH. now apply lr_rk4.
  - change (L (fld St (lsrk_run_fn S n l (lsrk_fn S n t dt m)))). apply IH. now apply lr_lsrk.
Qed.
End LinRel.

(** Tracer tendencies are linear in the tracer. *)
Lemma outflow_lin (m : mem RA) a b f g c : outflow m (fun e => a * f e + b * g e)%R c = (a * outflow m f c + b * outflow m g c)%R.
Proof.
  unfold outflow. transitivity ((a * rsum (mi m NedgesOnCell [c]) (fun j => let e := mi m EdgesOnCell [c; j] in mr m EdgeSignOnCell [c; j] * mr m DvEdge [e] * f e) +
    b * rsum (mi m NedgesOnCell [c]) (fun j => let e := mi m EdgesOnCell [c; j] in mr m EdgeSignOnCell [c; j] * mr m DvEdge [e] * g e)) / mr m AreaCell [c])%R; [|unfold Rdiv; rring].
  apply (f_equal2 Rdiv); [|reflexivity]. rewrite <- !rsum_scal, <- rsum_plus. apply rsum_ext. intros. cbv zeta. rring.
Qed.
Section Lin.
Context (S : setup RA) (Hok : setup_ok S) (m : mem RA) (Hr : ready S m).
Local Notation NC := (nx (mesh_of_setup S) * ny (mesh_of_setup S)).
Let Hw : wfm (sdims S) m := ready_wfm S Hok m Hr.
Lemma ttend_lin s k (a b : R) l1 l2 l3 c : 0 <= c < NC ->
  (forall c, 0 <= c < NC -> mr m (TrCell s) [l3; c; k] = (a * mr m (TrCell s) [l1; c; k] + b * mr m (TrCell s) [l2; c; k])%R) ->
  ttend S m s k l3 c = (a * ttend S m s k l1 c + b * ttend S m s k l2 c)%R.
Proof.
  intros Hc E. unfold ttend. cbv zeta.
  set (r := fun l c => (mr m (TrCell s) [l; c; k] / mr m (HCell s) [c; k])%R). set (q := fun c => mr m (HCell s) [c; k] : R). set (u := fun e => mr m (VnEdge s) [e; k] : R).
  assert (Er : forall c, 0 <= c < NC -> r l3 c = (a * r l1 c + b * r l2 c)%R) by (intros c' Hc'; unfold r; rewrite E by exact Hc'; unfold Rdiv; rring).
  assert (Em : forall e, 0 <= e < 3 * NC -> emean m (r l3) e = (a * emean m (r l1) e + b * emean m (r l2) e)%R).
  { intros e He. unfold emean. rewrite !Er by (apply (wf_coe _ _ Hw); [exact He|lia]). unfold Rdiv. ring. }
  assert (Eg : forall e, 0 <= e < 3 * NC -> grad m (r l3) e = (a * grad m (r l1) e + b * grad m (r l2) e)%R).
  { intros e He. unfold grad. rewrite !Er by (apply (wf_coe _ _ Hw); [exact He|lia]). unfold Rdiv. ring. }
  assert (E1 : outflow m (fun e => emean m q e * u e * emean m (r l3) e)%R c = (a * outflow m (fun e => emean m q e * u e * emean m (r l1) e) c + b * outflow m (fun e => emean m q e * u e * emean m (r l2) e) c)%R).
  { rewrite <- outflow_lin. apply (outflow_ext S Hok m Hr); [|exact Hc]. intros e He. rewrite Em by exact He. ring. }
  assert (E2 : forall c, 0 <= c < NC -> outflow m (fun e => emean m q e * grad m (r l3) e)%R c = (a * outflow m (fun e => emean m q e * grad m (r l1) e) c + b * outflow m (fun e => emean m q e * grad m (r l2) e) c)%R).
  { intros c' Hc'. rewrite <- outflow_lin. apply (outflow_ext S Hok m Hr); [|exact Hc']. intros e He. rewrite Eg by exact He. ring. }
  assert (E3 : outflow m (grad m (outflow m (fun e => emean m q e * grad m (r l3) e)%R)) c = (a * outflow m (grad m (outflow m (fun e => emean m q e * grad m (r l1) e)%R)) c + b * outflow m (grad m (outflow m (fun e => emean m q e * grad m (r l2) e)%R)) c)%R).
  { rewrite <- outflow_lin. apply (outflow_ext S Hok m Hr); [|exact Hc]. intros e He. unfold grad at 1 3 5.
    rewrite !E2 by (apply (wf_coe _ _ Hw); [exact He|lia]). unfold Rdiv. ring. }
  pose (W := fun l => (- outflow m (fun e => emean m q e * u e * emean m (r l) e) c
   + (if tracer_diff_enabled (par_of S) then eddy_diff2 (par_of S) * outflow m (fun e => emean m q e * grad m (r l) e) c else 0)
   - (if tracer_hyperdiff_enabled (par_of S) then eddy_diff4 (par_of S) * outflow m (grad m (outflow m (fun e => emean m q e * grad m (r l) e))) c else 0))%R).
  change (W l3 = (a * W l1 + b * W l2)%R). unfold W. rewrite E1, E3, E2 by exact Hc.
  destruct (tracer_diff_enabled (par_of S)), (tracer_hyperdiff_enabled (par_of S)); rring.
Qed.
End Lin.

Lemma C67_tracer_superposition_proof :
  forall (S : setup RA), setup_ok S -> forall (a b : R) (l1 l2 l3 : Z),
  0 <= l1 < ntracers (par_of S) -> 0 <= l2 < ntracers (par_of S) -> 0 <= l3 < ntracers (par_of S) ->
  let combined (s : sid) (m : mem RA) := forall k c, 0 <= k < d_nlayers (sdims S) -> 0 <= c < d_ncells (sdims S) ->
    mr m (TrCell s) [l3; c; k] = (a * mr m (TrCell s) [l1; c; k] + b * mr m (TrCell s) [l2; c; k])%R in
  forall (m : mem RA), ready S m ->
  (forall t s time, s <> t -> combined s m -> always (sdims S) (compute_tendency S t s time Replace) m (combined t)) /\
  (combined St m -> forall steps : list (R * R), always (sdims S) (rk4_run S steps) m (combined St) /\ forall n, always (sdims S) (lsrk_run S n steps) m (combined St)).
Proof.
  intros S Hok a b l1 l2 l3 H1 H2 H3 combined m Hr.
  assert (TD : forall t s time md n, s <> t -> ready S n -> combined s n -> (md = Increment -> combined t n) -> combined t (tendency_fn S t s time md n)).
  { intros t s time md n Hs Rn Cn Ct k c Hk Hc. rewrite !(T_tr S Hok n Rn) by assumption.
    rewrite (ttend_lin S Hok n Rn s k a b l1 l2 l3 c Hc) by (intros; now apply Cn). unfold zr. destruct md; cbn [is_replace fofZ RA].
    - rring.
    - rewrite (Ct eq_refl k c Hk Hc). rring. }
  split.
  - intros t s time Hs Hc. eapply always_fn; [apply rd_tendency; assumption|]. intros M [_ E] k c Hk Hcc. rewrite !E.
    apply TD; auto. discriminate.
  - intros Hc steps.
    pose (L := fun y : fields RA => forall k c, 0 <= k < d_nlayers (sdims S) -> 0 <= c < d_ncells (sdims S) -> ft y l3 c k = (a * ft y l1 c k + b * ft y l2 c k)%R).
    destruct (lr_runs S L) with (steps := steps) (m := m) as [G1 G2].
    + intros s n y Hy Ly k c Hk Hcc. cbn [fld ft]. destruct (Hy k Hk) as (_ & _ & E). rewrite !E by assumption. now apply Ly.
    + intros z y k Ly Lk j c Hj Hcc. cbn [fmap2 ft]. rewrite (Ly j c Hj Hcc), (Lk j c Hj Hcc). rring.
    + intros z p [Lp | ->] j c Hj Hcc; cbn [ft]; [rewrite (Lp j c Hj Hcc)|]; rring.
    + intros s time md n Hs Rn Ls Lt. exact (TD Tend s time md n Hs Rn Ls Lt).
    + exact Hr.
    + exact Hc.
    + split; [|intros n].
      * eapply always_fn; [apply rd_rk4_run; auto|]. intros M [_ E] k c Hk Hcc. rewrite !E. now apply G1.
      * eapply always_fn; [apply rd_lsrk_run; auto|]. intros M [_ E] k c Hk Hcc. rewrite !E. now apply G2.
Qed.

