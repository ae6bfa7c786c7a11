(** Invariants of whole runs: linear functionals of the prognostic fields, and sets of fields closed under the
    tendency.  Also the tendency of given fields in closed form. *)
From Coq Require Import ZArith Reals List Bool Lia Lra FunctionalExtensionality.
From Verif Require Import Arith Arrays Prog Conc Launch Mesh AuxVars Tend Model Hex RSum Spec MeshProof MeshMem Over Formulas KernBase Terms KernAux KernTend TendFn StepFn Ready Rel RelRun Relate TendVal StepVal StepRun StepThms RealTend.
Import ListNotations.
Open Scope Z_scope.

Lemma zseq_cons n : 1 <= n -> exists l, zseq n = 0 :: l.
Proof.
  intros Hn. unfold zseq. destruct (Z.to_nat n) as [|j] eqn:E; [lia|]. cbn [seq map]. eexists. reflexivity.
Qed.
Lemma zseq_neg n : n <= 0 -> zseq n = [].
Proof. intros Hn. unfold zseq. now replace (Z.to_nat n) with O by lia. Qed.

(** The fields held by state [s]. *)
Definition fld {A} (s : sid) (m : mem A) : fields A :=
  mkFields (fun c k => mr m (HCell s) [c; k]) (fun e k => mr m (VnEdge s) [e; k]) (fun l c k => mr m (TrCell s) [l; c; k]).
Lemma holds_fld {A} (S : setup A) s m : holds S s m (fld s m).
Proof. apply holds_self. Qed.

Section Inv2.
Context {A : Arith} (S : setup A) (Hok : setup_ok S).
(** [I] between steps, [J] once a tendency has been computed. *)
Lemma rk4_inv2 (I J : mem A -> Prop) :
  (forall m, J m -> I m) ->
  (forall m, I m -> I (save_fn S m)) ->
  (forall s time m, s = St \/ s = Provis -> I m -> J (tendency_fn S Tend s time Replace m)) ->
  (forall dt i m, J m -> J (axpy S St St dt (rk4_b i) m)) ->
  (forall dt i m, J m -> J (axpy S Provis Old dt (rk4_a i) m)) ->
  forall steps m, I m -> I (rk4_run_fn S steps m).
Proof.
  intros H0 H1 H2 H3 H4. induction steps as [|[t dt] l IH]; intros m Hm; [exact Hm|].
  change (I (rk4_run_fn S l (rk4_fn S t dt m))). apply IH. rewrite rk4_eq. cbv zeta.
  assert (St' : forall i n, J n -> J (tendency_fn S Tend Provis (t + rk4_c i * dt)%fp Replace (axpy S Provis Old dt (rk4_a i) (axpy S St St dt (rk4_b i) n)))) by auto.
  auto 10.
Qed.
Lemma lsrk_inv2 n (I J : mem A -> Prop) :
  (forall m, J m -> I m) ->
  (forall m, I m -> J (scale_fn S (lsrk_a n 0) m)) ->
  (forall i m, J m -> J (scale_fn S (lsrk_a n i) m)) ->
  (forall time m, J m -> J (tendency_fn S Tend St time Increment m)) ->
  (forall dt i m, J m -> J (axpy S St St dt (lsrk_b n i) m)) ->
  forall steps m, I m -> I (lsrk_run_fn S n steps m).
Proof.
  intros H0 H1 H2 H3 H4. induction steps as [|[t dt] l IH]; intros m Hm; [exact Hm|].
  change (I (lsrk_run_fn S n l (lsrk_fn S n t dt m))). apply IH. clear IH. unfold lsrk_fn.
  assert (C : n <= 0 \/ 1 <= n) by lia. destruct C as [C|C]; [rewrite zseq_neg by exact C; exact Hm|].
  destruct (zseq_cons n C) as [z ->]. cbn [fold_left]. apply H0.
  assert (J0 : J (lsrk_stage_fn S n t dt 0 m)) by (unfold lsrk_stage_fn; auto).
  revert J0. generalize (lsrk_stage_fn S n t dt 0 m). clear Hm m.
  induction z as [|i z IHz]; intros m Hm; [exact Hm|]. cbn [fold_left]. apply IHz. unfold lsrk_stage_fn. auto.
Qed.
End Inv2.

(** ** Linear functionals *)
Section Lin.
Context (S : setup RA) (Hok : setup_ok S) (lam : fields RA -> R).
Context (lam_ext : forall s (m : mem RA) y, holds S s m y -> lam (fld s m) = lam y).
Context (lam_lin : forall a b y k, lam (fmap2 (A:=RA) (fun u w => (a * u + b * w)%R) y k) = (a * lam y + b * lam k)%R).

Lemma lam_axpy d b (dt x : R) (m : mem RA) : lam (fld d (axpy S d b dt x m)) = (lam (fld b m) + dt * x * lam (fld Tend m))%R.
Proof.
  rewrite (lam_ext d _ _ (holds_axpy S d b dt x m _ _ (holds_fld S b m) (holds_fld S Tend m))).
  rewrite <- (Rmult_1_l (lam (fld b m))), <- lam_lin. f_equal. apply feq; intros; cbn [fmap2 fh fv ft]; rring.
Qed.
Lemma lam_scale (x : R) (m : mem RA) : lam (fld Tend (scale_fn S x m)) = (x * lam (fld Tend m))%R.
Proof.
  rewrite (lam_ext Tend _ _ (holds_scale S x m _ (holds_fld S Tend m))).
  transitivity (x * lam (fld Tend m) + 0 * lam (fld Tend m))%R; [|ring].
  rewrite <- lam_lin. f_equal. apply feq; intros; cbn [fmap2 fh fv ft]; rring.
Qed.
Lemma lam_other s (m m' : mem RA) : (forall a ix, is_st s a = true -> mr m' a ix = mr m a ix) -> lam (fld s m') = lam (fld s m).
Proof. intros E. apply lam_ext. eapply holds_other; [exact E|]. apply holds_fld. Qed.
Lemma lam_axpy_other r d b (dt x : R) (m : mem RA) : r <> d -> lam (fld r (axpy S d b dt x m)) = lam (fld r m).
Proof. intros Hr. apply lam_other. intros a ix Ha. apply axpy_other. now apply (is_st_ne r). Qed.
Lemma lam_tend_other r t s time md (m : mem RA) : r <> t -> lam (fld r (tendency_fn S t s time md m)) = lam (fld r m).
Proof.
  intros Hr. apply lam_ext. apply holds_tend_other; [exact Hr|]. apply holds_fld.
Qed.

(** The functional vanishes on what the tendency adds. *)
Definition lam_zero : Prop := forall s time (m : mem RA), s = St \/ s = Provis -> ready S m ->
  lam (fld Tend (tendency_fn S Tend s time Replace m)) = 0%R /\
  lam (fld Tend (tendency_fn S Tend s time Increment m)) = lam (fld Tend m).

Lemma lin_rk4 steps (m : mem RA) : lam_zero -> ready S m -> lam (fld St (rk4_run_fn S steps m)) = lam (fld St m).
Proof.
  intros Z0 Hr.
  apply (rk4_inv2 S (fun n => ready S n /\ lam (fld St n) = lam (fld St m))
                    (fun n => (ready S n /\ lam (fld St n) = lam (fld St m)) /\ lam (fld Tend n) = 0%R)); [tauto| | | | |auto].
  - intros n (Rn & E). split; [eapply ready_cst; [apply cst_save|exact Rn]|].
    rewrite <- E. apply lam_other. intros a ix Ha. apply save_other. apply (is_st_ne St); congruence.
  - intros s time n Hs (Rn & E). split; [|exact (proj1 (Z0 s time n Hs Rn))]. split; [eapply ready_cst; [apply cst_tendency|exact Rn]|].
    rewrite <- E. apply lam_tend_other. discriminate.
  - intros dt i n ((Rn & E) & Q). split; [split|].
    + eapply ready_cst; [apply cst_axpy|exact Rn].
    + rewrite lam_axpy, Q, E. ring.
    + rewrite lam_axpy_other by discriminate. exact Q.
  - intros dt i n ((Rn & E) & Q). split; [split|].
    + eapply ready_cst; [apply cst_axpy|exact Rn].
    + rewrite lam_axpy_other by discriminate. exact E.
    + rewrite lam_axpy_other by discriminate. exact Q.
Qed.
Lemma lin_lsrk n steps (m : mem RA) : lam_zero -> ready S m -> lam (fld St (lsrk_run_fn S n steps m)) = lam (fld St m).
Proof.
  intros Z0 Hr.
  assert (Sc : forall x k, lam (fld St (scale_fn S x k)) = lam (fld St k)).
  { intros x k. apply lam_other. intros a ix Ha. apply scale_other. apply (is_st_ne St); congruence. }
  apply (lsrk_inv2 S n (fun n => ready S n /\ lam (fld St n) = lam (fld St m))
                    (fun n => (ready S n /\ lam (fld St n) = lam (fld St m)) /\ lam (fld Tend n) = 0%R)); [tauto| | | | |auto].
  - intros k (Rn & E). split; [split|].
    + eapply ready_cst; [apply cst_scale|exact Rn].
    + now rewrite Sc.
    + rewrite lsrk_a0, lam_scale. ring.
  - intros i k ((Rn & E) & Q). split; [split|].
    + eapply ready_cst; [apply cst_scale|exact Rn].
    + now rewrite Sc.
    + rewrite lam_scale, Q. ring.
  - intros time k ((Rn & E) & Q). split; [split|].
    + eapply ready_cst; [apply cst_tendency|exact Rn].
    + rewrite lam_tend_other by discriminate. exact E.
    + destruct (Z0 St time k (or_introl eq_refl) Rn) as [_ Z1]. now rewrite Z1.
  - intros dt i k ((Rn & E) & Q). split; [split|].
    + eapply ready_cst; [apply cst_axpy|exact Rn].
    + rewrite lam_axpy, Q, E. ring.
    + rewrite lam_axpy_other by discriminate. exact Q.
Qed.
End Lin.

(** ** Sets of fields closed under the tendency *)
Section Closed.
Context (S : setup RA) (Hok : setup_ok S) (L K : fields RA -> Prop).
Context (HK : forall time y k, L y -> tendency_of S time y k -> K k).
Context (HL : forall b y k, L y -> K k -> L (fmap2 (A:=RA) (fun u w => (u + b * w)%R) y k)).
Context (HA : forall a q k, K q -> K k -> K (fmap2 (A:=RA) (fun u w => (a * u + w)%R) q k)).

Lemma closed_rk4 steps (m : mem RA) y : unforced S -> ready S m -> disabled_zero S Tend m -> holds S St m y -> L y ->
  exists y', holds S St (rk4_run_fn S steps m) y' /\ L y'.
Proof.
  intros Hu. revert m y. induction steps as [|[t dt] l IH]; intros m y Hr Hz Hy Ly; [exists y; auto|].
  change (exists y', holds S St (rk4_run_fn S l (rk4_fn S t dt m)) y' /\ L y').
  destruct (tendency_ex S Hok t y) as [k1 T1].
  destruct (tendency_ex S Hok (t + rk4_c (A:=RA) 0 * dt)%R (add (A:=RA) dt (rk4_a 0) y k1)) as [k2 T2].
  destruct (tendency_ex S Hok (t + rk4_c (A:=RA) 1 * dt)%R (add (A:=RA) dt (rk4_a 1) y k2)) as [k3 T3].
  destruct (tendency_ex S Hok (t + rk4_c (A:=RA) 2 * dt)%R (add (A:=RA) dt (rk4_a 2) y k3)) as [k4 T4].
  assert (Ad : forall b z k, L z -> K k -> L (add (A:=RA) dt b z k)) by (intros b z k; exact (HL (dt * b)%R z k)).
  assert (K1 : K k1) by eauto.
  assert (K2 : K k2) by (eapply HK; [|exact T2]; auto).
  assert (K3 : K k3) by (eapply HK; [|exact T3]; auto).
  assert (K4 : K k4) by (eapply HK; [|exact T4]; auto).
  destruct (rk4_holds S Hok t dt m y k1 k2 k3 k4 Hu Hr Hy Hz T1 T2 T3 T4) as (G1 & G2 & G3).
  eapply IH; [exact G3|exact G2|exact G1|]. auto 10.
Qed.

Lemma closed_lsrk n steps (m : mem RA) y : ready S m -> holds S St m y -> L y ->
  exists y', holds S St (lsrk_run_fn S n steps m) y' /\ L y'.
Proof.
  revert m y. induction steps as [|[t dt] l IH]; intros m y Hr Hy Ly; [exists y; auto|].
  change (exists y', holds S St (lsrk_run_fn S n l (lsrk_fn S n t dt m)) y' /\ L y').
  assert (C : n <= 0 \/ 1 <= n) by lia. destruct C as [C|C].
  { unfold lsrk_fn. rewrite zseq_neg by exact C. cbn [fold_left]. eapply IH; eauto. }
  destruct (stages_ex S Hok n t dt y (fld Tend m) ltac:(lia)) as (Y & Q & T & EY & EQ & H).
  destruct (lsrk_holds S Hok n t dt m Y Q T ltac:(lia) Hr) as (G1 & G2 & _).
  { now rewrite EY. } { rewrite EQ. apply holds_fld. } { exact H. }
  eapply IH; [exact G1|exact G2|]. clear IH G1 G2.
  assert (G : forall j, 0 <= j -> j <= n -> L (Y j) /\ (1 <= j -> K (Q j))); [|apply G; lia].
  apply (natlike_ind (fun j => j <= n -> L (Y j) /\ (1 <= j -> K (Q j)))).
  - intros _. rewrite EY. split; [exact Ly|lia].
  - intros j Hj IHj Hn. destruct (IHj ltac:(lia)) as [L1 K1]. destruct (H j ltac:(lia)) as (Tj & Qj & Yj).
    rewrite <- Z.add_1_r. assert (KQ : K (Q (j + 1))).
    { pose proof (HK _ _ _ L1 Tj) as Kj. assert (C' : j = 0 \/ 1 <= j) by lia. destruct C' as [->|C'].
      - rewrite Qj, lsrk_a0. replace (fmap2 (A:=RA) _ _ _) with (T 0); [exact Kj|].
        apply feq; intros; cbn [fmap2 fh fv ft]; rring.
      - rewrite Qj. apply HA; auto. }
    split; [|auto]. rewrite Yj. now apply HL.
Qed.
End Closed.

(** ** Tendencies of given fields *)
Definition ymem (m : mem RA) (y : fields RA) : mem RA :=
  Mem (mi m) (fun a ix => match a, ix with
    | HCell St, [c; k] => fh y c k | VnEdge St, [e; k] => fv y e k | TrCell St, [l; c; k] => ft y l c k
    | HCell Tend, _ => 0%R | VnEdge Tend, _ => 0%R | TrCell Tend, _ => 0%R
    | _, _ => mr m a ix end).
Section Of.
Context (S : setup RA) (Hok : setup_ok S) (Hdc : (0 < (dc (mesh_of_setup S) : R))%R) (m : mem RA) (Hr : ready S m).
Local Notation P := (par_of S).
Local Notation NC := (nx (mesh_of_setup S) * ny (mesh_of_setup S)).
Lemma ymem_ready y : ready S (ymem m y).
Proof. eapply ready_frame; [|exact Hr]. intros [a ix|a ix] Ha; [reflexivity|]. destruct a; try discriminate Ha; reflexivity. Qed.
Lemma ymem_holds y : holds S St (ymem m y) y.
Proof. intros k Hk. repeat split; intros; reflexivity. Qed.
Lemma ymem_dz y : disabled_zero S Tend (ymem m y).
Proof. intros k Hk. split; intros; reflexivity. Qed.

Lemma tend_of (time : R) y k : tendency_of S time y k -> forall j, 0 <= j < d_nlayers (sdims S) ->
  (forall c, 0 <= c < NC -> fh k c j = hk_h S (time : F RA) m c j (if disable_h P then 0%R
     else (- outflow m (fun e => emean m (fun c => fh y c j) e * fv y e j) c)%R)) /\
  (forall e, 0 <= e < 3 * NC -> fv k e j = hk_v S (time : F RA) m e j (if disable_vn P then 0%R else vtend S (ymem m y) St j e)) /\
  (forall l c, 0 <= l < ntracers P -> 0 <= c < NC -> ft k l c j = ttend S (ymem m y) St j l c).
Proof.
  intros T j Hj. pose proof (ymem_ready y) as Hy.
  assert (H : holds S Tend (tendency_fn S Tend St time Replace (ymem m y)) k).
  { apply tend_holds with (y := y); auto using ymem_holds, ymem_dz. discriminate. }
  destruct (H j Hj) as (H1 & H2 & H3). repeat split; intros.
  - rewrite <- H1 by assumption. rewrite (T_h S Hok (ymem m y) Hy) by assumption. unfold hk_h.
    change (mr (ymem m y) (HCell Tend) [c; j]) with 0%R. unfold zr. cbn [is_replace fofZ RA].
    destruct (disable_h P); [reflexivity|].
    match goal with |- match _ with Some _ => ?f _ _ _ _ _ ?x | None => _ end = match _ with Some _ => _ | None => ?y end =>
      replace x with y; [reflexivity|] end.
    rewrite Rminus_0_l. reflexivity.
  - rewrite <- H2 by assumption. rewrite (T_v S Hok Hdc (ymem m y) Hy) by (assumption || discriminate). unfold hk_v.
    change (mr (ymem m y) (VnEdge Tend) [e; j]) with 0%R. unfold zr. cbn [is_replace fofZ RA].
    destruct (disable_vn P); [reflexivity|]. rewrite Rplus_0_l. reflexivity.
  - rewrite <- H3 by assumption. rewrite (T_tr S Hok (ymem m y) Hy) by (assumption || discriminate).
    unfold zr. cbn [is_replace fofZ RA]. apply Rplus_0_l.
Qed.
End Of.
