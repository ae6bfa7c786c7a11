(** Families of functions of the plane whose derivatives are bounded by the same numbers for all members, and the
    error of the centred transport operator, uniformly over such a family. *)
From Coq Require Import ZArith Reals Lia Lra.
From Verif Require Import Deriv Stencil Taylor Accur.
Open Scope R_scope.

Section U.
Context {J : Type}.
Definition ubounded (f : J -> fn2) : Prop := exists M, forall i x y, Rabs (f i x y) <= M.
(** All partial derivatives up to order [n] exist and are bounded uniformly. *)
Fixpoint usmooth (n : nat) (f : J -> fn2) : Prop :=
  ubounded f /\
  match n with O => True | S n' => exists fx fy, (forall i, is_dx (f i) (fx i)) /\ (forall i, is_dy (f i) (fy i)) /\ usmooth n' fx /\ usmooth n' fy end.
Lemma usmooth_bounded n f : usmooth n f -> ubounded f. Proof. destruct n; cbn; tauto. Qed.
Lemma usmooth_pred n f : usmooth (S n) f -> usmooth n f.
Proof.
  revert f. induction n; intros f H.
  - split; [apply (usmooth_bounded 1), H|exact I].
  - destruct H as (B & fx & fy & Hx & Hy & Sx & Sy). split; [exact B|]. exists fx, fy. repeat split; auto.
Qed.
Lemma usmooth_le n k f : (k <= n)%nat -> usmooth n f -> usmooth k f.
Proof. induction 1; auto. intros. now apply IHle, usmooth_pred. Qed.
Lemma usmooth_at n f i : usmooth n f -> smooth n (f i).
Proof.
  revert f. induction n; intros f (B & H); (split; [destruct B as [M B]; exists M; intros; apply B|]); [exact I|].
  destruct H as (fx & fy & Hx & Hy & Sx & Sy). exists (fx i), (fy i). repeat split; auto.
Qed.
Lemma usmooth_ext n f g : (forall i x y, f i x y = g i x y) -> usmooth n f -> usmooth n g.
Proof.
  destruct n; intros E (B & H).
  - split; [|exact I]. destruct B as [M B]. exists M. intros. rewrite <- E. apply B.
  - destruct H as (fx & fy & Hx & Hy & Sx & Sy). split; [destruct B as [M B]; exists M; intros; rewrite <- E; apply B|].
    exists fx, fy. repeat split; auto; intros i; [eapply is_dx_ext|eapply is_dy_ext]; eauto.
Qed.
Lemma usmooth_const n f : smooth n f -> usmooth n (fun _ => f).
Proof.
  revert f. induction n; intros f (B & H); (split; [destruct B as [M B]; exists M; intros; apply B|]); [exact I|].
  destruct H as (fx & fy & Hx & Hy & Sx & Sy). exists (fun _ => fx), (fun _ => fy). repeat split; auto.
Qed.
Lemma usmooth_dx n f fx : usmooth (S n) f -> (forall i, is_dx (f i) (fx i)) -> usmooth n fx.
Proof. intros (B & gx & gy & Hx & Hy & Sx & Sy) H. eapply usmooth_ext; [|exact Sx]. intros i. eapply is_dx_unique; eauto. Qed.
Lemma usmooth_dy n f fx : usmooth (S n) f -> (forall i, is_dy (f i) (fx i)) -> usmooth n fx.
Proof. intros (B & gx & gy & Hx & Hy & Sx & Sy) H. eapply usmooth_ext; [|exact Sy]. intros i. eapply is_dy_unique; eauto. Qed.
Lemma usmooth_plus n p q : usmooth n p -> usmooth n q -> usmooth n (fun i x y => p i x y + q i x y).
Proof.
  revert p q. induction n; intros p q (Bp & Hp) (Bq & Hq).
  all: assert (B : ubounded (fun i x y => p i x y + q i x y))
    by (destruct Bp as [M Bp], Bq as [N Bq]; exists (M + N); intros i x y; eapply Rle_trans; [apply Rabs_triang|]; specialize (Bp i x y); specialize (Bq i x y); lra).
  - split; [exact B|exact I].
  - destruct Hp as (px & py & Dx & Dy & Sx & Sy), Hq as (qx & qy & Ex & Ey & Tx & Ty). split; [exact B|].
    exists (fun i x y => px i x y + qx i x y), (fun i x y => py i x y + qy i x y). split; [|split]; [| |split; auto].
    + intros i x y. apply D_plus; [apply Dx|apply Ex].
    + intros i x y. apply D_plus; [apply Dy|apply Ey].
Qed.
Lemma usmooth_mult n p q : usmooth n p -> usmooth n q -> usmooth n (fun i x y => p i x y * q i x y).
Proof.
  revert p q. induction n; intros p q Fp Fq; pose proof Fp as (Bp & Hp); pose proof Fq as (Bq & Hq).
  all: assert (B : ubounded (fun i x y => p i x y * q i x y))
    by (destruct Bp as [M Bp], Bq as [N Bq]; exists (M * N); intros i x y; rewrite Rabs_mult; apply Rmult_le_compat; auto using Rabs_pos).
  - split; [exact B|exact I].
  - destruct Hp as (px & py & Dx & Dy & Sx & Sy), Hq as (qx & qy & Ex & Ey & Tx & Ty). split; [exact B|].
    exists (fun i x y => px i x y * q i x y + p i x y * qx i x y), (fun i x y => py i x y * q i x y + p i x y * qy i x y). split; [|split]; [| |split].
    + intros i x y. apply (D_mult (fun s => p i s y) (fun s => q i s y)); [apply Dx|apply Ex].
    + intros i x y. apply (D_mult (fun s => p i x s) (fun s => q i x s)); [apply Dy|apply Ey].
    + apply usmooth_plus; apply IHn; auto using usmooth_pred.
    + apply usmooth_plus; apply IHn; auto using usmooth_pred.
Qed.
Lemma smooth_cst n c : smooth n (fun _ _ => c).
Proof.
  revert c. induction n; intros c; (split; [exists (Rabs c); intros; lra|]); [exact I|].
  exists (fun _ _ => 0), (fun _ _ => 0). repeat split; auto; intros x y; apply D_const.
Qed.
Lemma usmooth_scal n c p : usmooth n p -> usmooth n (fun i x y => c * p i x y).
Proof. intros. apply (usmooth_mult n (fun _ _ _ => c)); [apply usmooth_const, smooth_cst|assumption]. Qed.
Lemma usmooth_opp n p : usmooth n p -> usmooth n (fun i x y => - p i x y).
Proof. intros. apply (usmooth_ext n (fun i x y => -1 * p i x y)); [intros; ring|now apply usmooth_scal]. Qed.
Lemma usmooth_inv n p c : 0 < c -> (forall i x y, c <= p i x y) -> usmooth n p -> usmooth n (fun i x y => / p i x y).
Proof.
  intros Hc L. revert p L. induction n; intros p L Fp; pose proof Fp as (Bp & Hp).
  all: assert (B : ubounded (fun i x y => / p i x y))
    by (exists (/ c); intros i x y; specialize (L i x y); rewrite Rabs_pos_eq; [apply Rinv_le_contravar; lra|left; apply Rinv_0_lt_compat; lra]).
  - split; [exact B|exact I].
  - destruct Hp as (px & py & Dx & Dy & Sx & Sy). split; [exact B|].
    exists (fun i x y => - px i x y * (/ p i x y * / p i x y)), (fun i x y => - py i x y * (/ p i x y * / p i x y)). split; [|split]; [| |split].
    + intros i x y. apply (D_inv (fun s => p i s y)); [apply Dx|]. specialize (L i x y). lra.
    + intros i x y. apply (D_inv (fun s => p i x s)); [apply Dy|]. specialize (L i x y). lra.
    + apply usmooth_mult; [now apply usmooth_opp|]. apply usmooth_mult; apply IHn; auto using usmooth_pred.
    + apply usmooth_mult; [now apply usmooth_opp|]. apply usmooth_mult; apply IHn; auto using usmooth_pred.
Qed.

(** ** Expressions that depend on a member, a point and a step *)
Definition fn4 := J -> R -> R -> R -> R.
Definition bounded4 (p : fn4) : Prop := exists M, forall i x y s, Rabs (p i x y s) <= M.
Definition is_du (p q : fn4) : Prop := forall i x y s, derivable_pt_lim (p i x y) s (q i x y s).
Fixpoint ufam (n : nat) (p : fn4) : Prop :=
  bounded4 p /\ match n with O => True | S n' => exists q, is_du p q /\ ufam n' q end.
Lemma ufam_bounded n p : ufam n p -> bounded4 p. Proof. destruct n; cbn; tauto. Qed.
Lemma ufam_pred n p : ufam (S n) p -> ufam n p.
Proof.
  revert p. induction n; intros p H.
  - split; [apply (ufam_bounded 1), H|exact I].
  - destruct H as (B & q & Hq & Sq). split; [exact B|]. exists q. auto.
Qed.
Lemma ufam_ext n p q : (forall i x y s, p i x y s = q i x y s) -> ufam n p -> ufam n q.
Proof.
  destruct n; intros E (B & H).
  - split; [|exact I]. destruct B as [M B]. exists M. intros. rewrite <- E. apply B.
  - destruct H as (r & Hr & Sr). split; [destruct B as [M B]; exists M; intros; rewrite <- E; apply B|].
    exists r. split; [|exact Sr]. intros i x y s. eapply D_ext; [|apply Hr]. intros. symmetry. apply E.
Qed.
Lemma ufam_ds n p q : ufam (S n) p -> is_du p q -> ufam n q.
Proof.
  intros (B & r & Hr & Sr) H. eapply ufam_ext; [|exact Sr]. intros. eapply uniqueness_limite; [apply Hr|apply H].
Qed.
Lemma ufam_plus n p q : ufam n p -> ufam n q -> ufam n (fun i x y s => p i x y s + q i x y s).
Proof.
  revert p q. induction n; intros p q (Bp & Hp) (Bq & Hq).
  all: assert (B : bounded4 (fun i x y s => p i x y s + q i x y s))
    by (destruct Bp as [M Bp], Bq as [N Bq]; exists (M + N); intros i x y s; eapply Rle_trans; [apply Rabs_triang|]; specialize (Bp i x y s); specialize (Bq i x y s); lra).
  - split; [exact B|exact I].
  - destruct Hp as (p' & Dp & Sp), Hq as (q' & Dq & Sq). split; [exact B|]. exists (fun i x y s => p' i x y s + q' i x y s). split; auto.
    intros i x y s. apply D_plus; [apply Dp|apply Dq].
Qed.
Lemma ufam_mult n p q : ufam n p -> ufam n q -> ufam n (fun i x y s => p i x y s * q i x y s).
Proof.
  revert p q. induction n; intros p q Fp Fq; pose proof Fp as (Bp & Hp); pose proof Fq as (Bq & Hq).
  all: assert (B : bounded4 (fun i x y s => p i x y s * q i x y s))
    by (destruct Bp as [M Bp], Bq as [N Bq]; exists (M * N); intros i x y s; rewrite Rabs_mult; apply Rmult_le_compat; auto using Rabs_pos).
  - split; [exact B|exact I].
  - destruct Hp as (p' & Dp & Sp), Hq as (q' & Dq & Sq). split; [exact B|].
    exists (fun i x y s => p' i x y s * q i x y s + p i x y s * q' i x y s). split.
    + intros i x y s. apply D_mult; [apply Dp|apply Dq].
    + apply ufam_plus; apply IHn; auto using ufam_pred.
Qed.
Lemma ufam_const n c : ufam n (fun _ _ _ _ => c).
Proof.
  revert c. induction n; intros c; (split; [exists (Rabs c); intros; lra|]); [exact I|].
  exists (fun _ _ _ _ => 0). split; [intros i x y s; apply D_const|apply IHn].
Qed.
Lemma ufam_scal n c p : ufam n p -> ufam n (fun i x y s => c * p i x y s).
Proof. intros. apply (ufam_mult n (fun _ _ _ _ => c)); [apply ufam_const|assumption]. Qed.
Lemma ufam_opp n p : ufam n p -> ufam n (fun i x y s => - p i x y s).
Proof. intros. apply (ufam_ext n (fun i x y s => -1 * p i x y s)); [intros; ring|now apply ufam_scal]. Qed.
Lemma ufam_minus n p q : ufam n p -> ufam n q -> ufam n (fun i x y s => p i x y s - q i x y s).
Proof. intros. apply (ufam_ext n (fun i x y s => p i x y s + - q i x y s)); [intros; ring|]. apply ufam_plus; auto using ufam_opp. Qed.
Lemma ufam_divc n c p : ufam n p -> ufam n (fun i x y s => p i x y s / c).
Proof. intros. apply (ufam_ext n (fun i x y s => / c * p i x y s)); [intros; unfold Rdiv; ring|now apply ufam_scal]. Qed.
Lemma ufam_smooth n f a b : usmooth (S n) f -> ufam n (fun i x y s => f i (x + a * s) (y + b * s)).
Proof.
  revert f a b. induction n; intros f a b H.
  - destruct H as [[M B] _]. split; [exists M; intros; apply B|exact I].
  - pose proof H as (B & fx & fy & Hx & Hy & Sx & Sy). split; [destruct B as [M B]; exists M; intros; apply B|].
    exists (fun i x y s => a * fx i (x + a * s) (y + b * s) + b * fy i (x + a * s) (y + b * s)). split.
    + intros i x y s. apply smooth_line; auto. apply usmooth_at. now apply (usmooth_le (S (S n))); [lia|].
    + apply ufam_plus; apply ufam_scal; apply IHn; auto.
Qed.
Lemma ufam_at n f (X Y : fn3) : usmooth (S n) f -> (forall x y s, X x y s = x + X 0 0 1 * s) -> (forall x y s, Y x y s = y + Y 0 0 1 * s) ->
  ufam n (fun i x y s => f i (X x y s) (Y x y s)).
Proof.
  intros H EX EY. apply (ufam_ext n (fun i x y s => f i (x + X 0 0 1 * s) (y + Y 0 0 1 * s))).
  - intros i x y s. now rewrite <- (EX x y s), <- (EY x y s).
  - now apply ufam_smooth.
Qed.
Lemma ufam_T1 p : ufam 1 p -> exists C, 0 <= C /\ forall i x y s, Rabs (p i x y s - p i x y 0) <= C * Rabs s.
Proof.
  intros (_ & q & Hq & (M & B) & _). exists (Rabs M). split; [apply Rabs_pos|]. intros i x y s.
  replace (Rabs s) with (Rabs (s - 0)) by (f_equal; ring). apply (lipschitz (p i x y) (q i x y)); [apply Hq|].
  intros. eapply Rle_trans; [apply B|apply Rle_abs].
Qed.
Lemma ufam_T2 p q : ufam 2 p -> is_du p q -> exists C, 0 <= C /\ forall i x y s, Rabs (p i x y s - p i x y 0 - s * q i x y 0) <= C * Rabs s ^ 2.
Proof.
  intros F Hq. destruct (ufam_T1 q (ufam_ds 1 p q F Hq)) as (C & HC & B). exists C. split; [exact HC|]. intros i x y s.
  apply (grow (fun s => p i x y s - p i x y 0 - s * q i x y 0) (fun s => q i x y s - q i x y 0) C 1); [|ring|exact HC|].
  - intros t. eapply D_eq; [apply D_minus; [apply D_minus; [apply Hq|apply D_const]|apply D_mult; [apply D_id|apply D_const]]|cbv beta; ring].
  - intros t. rewrite pow_1. apply B.
Qed.
Lemma ufam_T3 p q r : ufam 3 p -> is_du p q -> is_du q r ->
  exists C, 0 <= C /\ forall i x y s, Rabs (p i x y s - p i x y 0 - s * q i x y 0 - s * s / 2 * r i x y 0) <= C * Rabs s ^ 3.
Proof.
  intros F Hq Hr. destruct (ufam_T2 q r (ufam_ds 2 p q F Hq) Hr) as (C & HC & B). exists C. split; [exact HC|]. intros i x y s.
  apply (grow (fun s => p i x y s - p i x y 0 - s * q i x y 0 - s * s / 2 * r i x y 0) (fun s => q i x y s - q i x y 0 - s * r i x y 0) C 2); [|field|exact HC|].
  - intros t. eapply D_eq; [apply D_minus; [apply D_minus; [apply D_minus; [apply Hq|apply D_const]|apply D_mult; [apply D_id|apply D_const]]|]|].
    + apply D_mult; [|apply D_const]. apply D_divc, D_mult; apply D_id.
    + cbv beta. field.
  - intros t. apply B.
Qed.
Definition even4 (p : fn4) : Prop := forall i x y s, p i x y (- s) = p i x y s.
Definition odd4 (p : fn4) : Prop := forall i x y s, p i x y (- s) = - p i x y s.
Lemma du_even p q : is_du p q -> even4 p -> odd4 q.
Proof.
  intros H E i x y s. eapply uniqueness_limite; [apply H|].
  apply D_ext with (g := fun t => p i x y (- t)); [intros; symmetry; apply E|].
  eapply D_eq; [apply (derivable_pt_lim_comp (fun t => - t) (p i x y) (- s) (-1))|].
  - der. ring.
  - rewrite Ropp_involutive. apply H.
  - ring.
Qed.
Lemma du_odd p q : is_du p q -> odd4 p -> even4 q.
Proof.
  intros H E i x y s. eapply uniqueness_limite; [apply H|].
  apply D_ext with (g := fun t => - p i x y (- t)); [intros; rewrite E; ring|].
  eapply D_eq; [apply D_opp; apply (derivable_pt_lim_comp (fun t => - t) (p i x y) (- s) (-1))|].
  - der. ring.
  - rewrite Ropp_involutive. apply H.
  - ring.
Qed.
Lemma uodd_0 p : odd4 p -> forall i x y, p i x y 0 = 0.
Proof. intros H i x y. specialize (H i x y 0). rewrite Ropp_0 in H. lra. Qed.
Lemma uodd_T3 p (b : J -> fn2) : ufam 3 p -> odd4 p -> (forall i x y, derivable_pt_lim (p i x y) 0 (b i x y)) ->
  exists C, 0 <= C /\ forall i x y s, s <> 0 -> Rabs (p i x y s / s - b i x y) <= C * Rabs s ^ 2.
Proof.
  intros F O Hb. pose proof F as (_ & q & Hq & Fq). pose proof Fq as (_ & r & Hr & _).
  destruct (ufam_T3 p q r F Hq Hr) as (C & HC & B). exists C. split; [exact HC|]. intros i x y s Hs. specialize (B i x y s).
  rewrite (uodd_0 p O), (uodd_0 r (du_even q r Hr (du_odd p q Hq O))) in B.
  rewrite (uniqueness_limite _ _ _ _ (Hq i x y 0) (Hb i x y)) in B.
  replace (p i x y s - 0 - s * b i x y - s * s / 2 * 0) with (s * (p i x y s / s - b i x y)) in B by (field; exact Hs).
  rewrite Rabs_mult in B. change (Rabs s ^ 3) with (Rabs s * Rabs s ^ 2) in B.
  apply (Rmult_le_reg_l (Rabs s)); [now apply Rabs_pos_lt|]. lra.
Qed.
Lemma uodd_T1 p : ufam 1 p -> odd4 p -> exists C, 0 <= C /\ forall i x y s, s <> 0 -> Rabs (p i x y s / s) <= C.
Proof.
  intros F O. destruct (ufam_T1 p F) as (C & HC & B). exists C. split; [exact HC|]. intros i x y s Hs. specialize (B i x y s).
  rewrite (uodd_0 p O), Rminus_0_r in B. unfold Rdiv. rewrite Rabs_mult, Rabs_inv.
  assert (P : 0 < Rabs s) by now apply Rabs_pos_lt.
  apply (Rmult_le_reg_r (Rabs s)); [exact P|]. rewrite Rmult_assoc, Rinv_l by lra. lra.
Qed.
End U.

Ltac usm := first [assumption | eapply usmooth_le; [|eassumption]; lia].
Ltac ufam1 :=
  first [apply ufam_const | lazymatch goal with
  | |- ufam _ (fun i x y s => @?p i x y s + @?q i x y s) => apply (ufam_plus _ p q)
  | |- ufam _ (fun i x y s => @?p i x y s - @?q i x y s) => apply (ufam_minus _ p q)
  | |- ufam _ (fun i x y s => - @?p i x y s) => apply (ufam_opp _ p)
  | |- ufam _ (fun i x y s => @?p i x y s * @?q i x y s) => apply (ufam_mult _ p q)
  | |- ufam _ (fun i x y s => @?p i x y s / ?c) => apply (ufam_divc _ c p)
  | |- ufam _ (fun i x y s => ?f i (@?X x y s) (@?Y x y s)) => apply (ufam_at _ f X Y); [usm|lin|lin]
  end].
Ltac ufams := repeat (cbv beta; ufam1).

(** ** The transport operator *)
Section Adv.
Context {J : Type} (h U V r : J -> fn2) (Sh : usmooth 5 h) (SU : usmooth 5 U) (SV : usmooth 5 V) (Sr : usmooth 5 r).
Definition aflux (d : R) (i : J) (q : Z) : fn2 := fun x y => Me d (h i) q x y * nvec (U i) (V i) q x y * Me d (r i) q x y.
Lemma aflux_even d i q x y : aflux (- d) i q x y = aflux d i q x y.
Proof. unfold aflux. now rewrite !(Me_even d _ _ _ _ _ (fun _ _ => eq_refl)). Qed.
Lemma aflux_fam n : (n <= 4)%nat -> ufam n (fun i x y d => nOu (aflux d i) x y d).
Proof. intros Hn. unfold nOu, Df, aflux, Me, nvec. ufams. Qed.
Lemma aflux_odd : odd4 (fun i x y d => nOu (aflux d i) x y d).
Proof.
  intros i x y s. unfold nOu.
  rewrite !(Df_odd s (aflux (- s) i _) (aflux s i _)) by (intros; apply aflux_even). ring.
Qed.
Lemma uadv_bounded : exists C, 0 <= C /\ forall i x y d, d <> 0 -> Rabs (Ou d (aflux d i) x y) <= C.
Proof.
  destruct (uodd_T1 _ (aflux_fam 1 ltac:(lia)) aflux_odd) as (C & HC & B). exists C. split; [exact HC|]. intros i x y d Hd.
  replace (Ou d (aflux d i) x y) with (2 / 3 * (nOu (aflux d i) x y d / d)) by (unfold Ou, nOu; field; exact Hd).
  rewrite Rabs_mult, (Rabs_pos_eq (2 / 3)) by lra. specialize (B i x y d Hd). lra.
Qed.
Lemma uadv_appr (FX FY : J -> fn2) : (forall i, is_dx (fun x y => h i x y * r i x y * U i x y) (FX i)) -> (forall i, is_dy (fun x y => h i x y * r i x y * V i x y) (FY i)) ->
  exists C, 0 <= C /\ forall i x y d, d <> 0 -> Rabs (Ou d (aflux d i) x y - (FX i x y + FY i x y)) <= C * Rabs d ^ 2.
Proof.
  intros HX HY.
  assert (T : forall f : J -> fn2, usmooth 5 f -> exists fx fy, (forall i, is_dx (f i) (fx i)) /\ (forall i, is_dy (f i) (fy i))) by (intros f (_ & fx & fy & H1 & H2 & _); exists fx, fy; auto).
  destruct (T h Sh) as (hx & hy & Hhx & Hhy). destruct (T U SU) as (Ux & Uy & HUx & HUy). destruct (T V SV) as (Vx & Vy & HVx & HVy). destruct (T r Sr) as (rx & ry & Hrx & Hry).
  destruct (uodd_T3 (fun i x y d => nOu (aflux d i) x y d)
    (fun i x y => 3 / 2 * ((hx i x y * r i x y + h i x y * rx i x y) * U i x y + h i x y * r i x y * Ux i x y
            + ((hy i x y * r i x y + h i x y * ry i x y) * V i x y + h i x y * r i x y * Vy i x y)))
    (aflux_fam 3 ltac:(lia)) aflux_odd) as (C & HC & B).
  - intros i x y. unfold nOu, Df, aflux, Me, nvec.
    pose proof (usmooth_at _ _ i Sh) as Sh'. pose proof (usmooth_at _ _ i SU) as SU'. pose proof (usmooth_at _ _ i SV) as SV'. pose proof (usmooth_at _ _ i Sr) as Sr'.
    specialize (Hhx i). specialize (Hhy i). specialize (HUx i). specialize (HUy i). specialize (HVx i). specialize (HVy i). specialize (Hrx i). specialize (Hry i). clear Sh SU SV Sr HX HY T.
    revert Hhx Hhy HUx HUy HVx HVy Hrx Hry Sh' SU' SV' Sr'.
    generalize (h i) (U i) (V i) (r i) (hx i) (hy i) (Ux i) (Uy i) (Vx i) (Vy i) (rx i) (ry i).
    clear. intros h U V r hx hy Ux Uy Vx Vy rx ry Hhx Hhy HUx HUy HVx HVy Hrx Hry Sh SU SV Sr.
    jet1 x y. qs.
      s3 (r x y * (h x y * Ux x y)). s3 (r x y * (h x y * Uy x y)). s3 (r x y * (h x y * Vx x y)). s3 (r x y * (h x y * Vy x y)).
      s3 (r x y * (hx x y * U x y)). s3 (r x y * (hx x y * V x y)). s3 (r x y * (hy x y * U x y)). s3 (r x y * (hy x y * V x y)).
      s3 (h x y * (rx x y * U x y)). s3 (h x y * (rx x y * V x y)). s3 (h x y * (ry x y * U x y)). s3 (h x y * (ry x y * V x y)). lra.
  - exists C. split; [exact HC|]. intros i x y d Hd. specialize (B i x y d Hd).
    assert (A1 : FX i x y = (hx i x y * r i x y + h i x y * rx i x y) * U i x y + h i x y * r i x y * Ux i x y).
    { eapply uniqueness_limite; [apply HX|]. apply (D_mult (fun s => h i s y * r i s y)%R (fun s => U i s y)); [|apply HUx].
      apply (D_mult (fun s => h i s y) (fun s => r i s y)); [apply Hhx|apply Hrx]. }
    assert (A2 : FY i x y = (hy i x y * r i x y + h i x y * ry i x y) * V i x y + h i x y * r i x y * Vy i x y).
    { eapply uniqueness_limite; [apply HY|]. apply (D_mult (fun s => h i x s * r i x s)%R (fun s => V i x s)); [|apply HVy].
      apply (D_mult (fun s => h i x s) (fun s => r i x s)); [apply Hhy|apply Hry]. }
    rewrite A1, A2.
    match goal with |- Rabs (?a - ?b) <= _ => replace (a - b) with (2 / 3 * (nOu (aflux d i) x y d / d - 3 / 2 * b)) by (unfold Ou, nOu; field; exact Hd) end.
    rewrite Rabs_mult, (Rabs_pos_eq (2 / 3)) by lra. pose proof (Rabs_pos (nOu (aflux d i) x y d / d - 3 / 2 * ((hx i x y * r i x y + h i x y * rx i x y) * U i x y + h i x y * r i x y * Ux i x y
            + ((hy i x y * r i x y + h i x y * ry i x y) * V i x y + h i x y * r i x y * Vy i x y)))). lra.
Qed.
End Adv.
