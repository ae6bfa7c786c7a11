(** Functions of the plane with bounded derivatives, and how they vary along lines. *)
From Coq Require Import ZArith Reals Lia Lra.
From Verif Require Import Deriv Stencil.
Open Scope R_scope.

(** Partial derivatives. *)
Definition is_dx (f fx : fn2) : Prop := forall x y, derivable_pt_lim (fun s => f s y) x (fx x y).
Definition is_dy (f fy : fn2) : Prop := forall x y, derivable_pt_lim (fun s => f x s) y (fy x y).
Definition bounded2 (f : fn2) : Prop := exists M, forall x y, Rabs (f x y) <= M.
(** All partial derivatives up to order [n] exist and are bounded. *)
Fixpoint smooth (n : nat) (f : fn2) : Prop :=
  bounded2 f /\
  match n with O => True | S n' => exists fx fy, is_dx f fx /\ is_dy f fy /\ smooth n' fx /\ smooth n' fy end.

Lemma smooth_bounded n f : smooth n f -> bounded2 f. Proof. destruct n; cbn; tauto. Qed.
Lemma smooth_pred n f : smooth (S n) f -> smooth n f.
Proof.
  revert f. induction n; intros f H.
  - split; [apply (smooth_bounded 1), H|exact I].
  - destruct H as (B & fx & fy & Hx & Hy & Sx & Sy). split; [exact B|]. exists fx, fy. repeat split; auto.
Qed.
Lemma smooth_le n k f : (k <= n)%nat -> smooth n f -> smooth k f.
Proof. induction 1; auto. intros. now apply IHle, smooth_pred. Qed.
Lemma bounded2_ext f g : (forall x y, f x y = g x y) -> bounded2 f -> bounded2 g.
Proof. intros E [M H]. exists M. intros. rewrite <- E. apply H. Qed.
Lemma is_dx_ext f g fx : (forall x y, f x y = g x y) -> is_dx f fx -> is_dx g fx.
Proof. intros E H x y. eapply D_ext; [|apply H]. intros. symmetry. apply E. Qed.
Lemma is_dy_ext f g fx : (forall x y, f x y = g x y) -> is_dy f fx -> is_dy g fx.
Proof. intros E H x y. eapply D_ext; [|apply H]. intros. symmetry. apply E. Qed.
Lemma smooth_ext n f g : (forall x y, f x y = g x y) -> smooth n f -> smooth n g.
Proof.
  destruct n; intros E H.
  - split; [|exact I]. eapply bounded2_ext; [exact E|apply H].
  - destruct H as (B & fx & fy & Hx & Hy & Sx & Sy). split; [eapply bounded2_ext; [exact E|exact B]|].
    exists fx, fy. repeat split; auto; [eapply is_dx_ext|eapply is_dy_ext]; eauto.
Qed.
(** The derivatives one is given are the ones that exist. *)
Lemma is_dx_unique f a b : is_dx f a -> is_dx f b -> forall x y, a x y = b x y.
Proof. intros A B x y. eapply uniqueness_limite; [apply A|apply B]. Qed.
Lemma is_dy_unique f a b : is_dy f a -> is_dy f b -> forall x y, a x y = b x y.
Proof. intros A B x y. eapply uniqueness_limite; [apply A|apply B]. Qed.
Lemma smooth_dx n f fx : smooth (S n) f -> is_dx f fx -> smooth n fx.
Proof.
  intros (B & gx & gy & Hx & Hy & Sx & Sy) H. eapply smooth_ext; [|exact Sx]. eapply is_dx_unique; eauto.
Qed.
Lemma smooth_dy n f fy : smooth (S n) f -> is_dy f fy -> smooth n fy.
Proof.
  intros (B & gx & gy & Hx & Hy & Sx & Sy) H. eapply smooth_ext; [|exact Sy]. eapply is_dy_unique; eauto.
Qed.

(** ** One variable *)
Lemma mvt (f f' : R -> R) a b : (forall s, derivable_pt_lim f s (f' s)) -> exists c, f b - f a = f' c * (b - a) /\ Rabs (c - a) <= Rabs (b - a).
Proof.
  intros H. destruct (Rtotal_order a b) as [L | [-> | L]].
  - destruct (MVT_cor2 f f' a b L (fun c _ => H c)) as (c & E & Hc). exists c. split; [exact E|]. rewrite !Rabs_pos_eq; lra.
  - exists b. split; [ring|lra].
  - destruct (MVT_cor2 f f' b a L (fun c _ => H c)) as (c & E & Hc). exists c. split; [lra|]. rewrite !Rabs_left1; lra.
Qed.
Lemma lipschitz (f f' : R -> R) M : (forall s, derivable_pt_lim f s (f' s)) -> (forall s, Rabs (f' s) <= M) ->
  forall a b, Rabs (f b - f a) <= M * Rabs (b - a).
Proof.
  intros H B a b. destruct (mvt f f' a b H) as (c & -> & _). rewrite Rabs_mult. apply Rmult_le_compat_r; [apply Rabs_pos|apply B].
Qed.
(** A bound on the derivative integrates. *)
Lemma grow (f f' : R -> R) M n : (forall s, derivable_pt_lim f s (f' s)) -> f 0 = 0 -> 0 <= M ->
  (forall s, Rabs (f' s) <= M * Rabs s ^ n) -> forall s, Rabs (f s) <= M * Rabs s ^ S n.
Proof.
  intros H E HM B s. destruct (mvt f f' 0 s H) as (c & E2 & Hc). rewrite E, !Rminus_0_r in *.
  rewrite E2, Rabs_mult. cbn [pow]. rewrite (Rmult_comm (Rabs s)), <- Rmult_assoc. apply Rmult_le_compat_r; [apply Rabs_pos|].
  eapply Rle_trans; [apply B|]. apply Rmult_le_compat_l; [exact HM|]. apply pow_incr. split; [apply Rabs_pos|exact Hc].
Qed.

(** ** Along a line *)
Lemma line (f fx fy fxx fxy : fn2) (a b x y s : R) : is_dx f fx -> is_dy f fy ->
  is_dx fx fxx -> is_dy fx fxy -> bounded2 fxx -> bounded2 fxy ->
  derivable_pt_lim (fun s => f (x + a * s) (y + b * s)) s (a * fx (x + a * s) (y + b * s) + b * fy (x + a * s) (y + b * s)).
Proof.
  intros Hx Hy Hxx Hxy [M1 B1] [M2 B2].
  set (x0 := x + a * s). set (y0 := y + b * s).
  apply D_ext with (g := fun t => (f (x + a * t) (y + b * t) - f x0 (y + b * t)) + f x0 (y + b * t)); [intros; ring|].
  apply D_plus.
  2:{ eapply D_eq; [apply (derivable_pt_lim_comp (fun t => y + b * t) (fun t => f x0 t) s b (fy x0 y0))|ring].
      - der. ring.
      - apply Hy. }
  intros eps He.
  pose (K := Rabs a * (Rabs M1 * Rabs a + Rabs M2 * Rabs b) + 1).
  assert (HK : 0 < K).
  { unfold K. pose proof (Rabs_pos a). pose proof (Rabs_pos b). pose proof (Rabs_pos M1). pose proof (Rabs_pos M2).
    assert (0 <= Rabs a * (Rabs M1 * Rabs a + Rabs M2 * Rabs b)); [|lra].
    apply Rmult_le_pos; [assumption|]. apply Rplus_le_le_0_compat; now apply Rmult_le_pos. }
  assert (Hd : 0 < eps / K) by now apply Rdiv_lt_0_compat.
  exists (mkposreal _ Hd). cbn [pos]. intros t Ht Hlt.
  fold x0 y0.
  destruct (mvt (fun u => f u (y + b * (s + t))) (fun u => fx u (y + b * (s + t))) x0 (x + a * (s + t)) ltac:(intros; apply Hx)) as (c & E & Hc).
  replace (((f (x + a * (s + t)) (y + b * (s + t)) - f x0 (y + b * (s + t)) - (f x0 y0 - f x0 y0)) / t - a * fx x0 y0))
    with (a * (fx c (y + b * (s + t)) - fx x0 y0)).
  2:{ assert (Ex : x + a * (s + t) - x0 = a * t) by (unfold x0; ring). rewrite E, Ex. field. exact Ht. }
  rewrite Rabs_mult.
  assert (L1 : Rabs (fx c (y + b * (s + t)) - fx x0 (y + b * (s + t))) <= Rabs M1 * (Rabs a * Rabs t)).
  { eapply Rle_trans; [apply (lipschitz (fun u => fx u (y + b * (s + t))) (fun u => fxx u (y + b * (s + t))) (Rabs M1))|].
    - intros. apply Hxx.
    - intros. eapply Rle_trans; [apply B1|apply Rle_abs].
    - apply Rmult_le_compat_l; [apply Rabs_pos|]. eapply Rle_trans; [exact Hc|]. right. unfold x0. rewrite <- Rabs_mult. f_equal. ring. }
  assert (L2 : Rabs (fx x0 (y + b * (s + t)) - fx x0 y0) <= Rabs M2 * (Rabs b * Rabs t)).
  { eapply Rle_trans; [apply (lipschitz (fun u => fx x0 u) (fun u => fxy x0 u) (Rabs M2))|].
    - intros. apply Hxy.
    - intros. eapply Rle_trans; [apply B2|apply Rle_abs].
    - apply Rmult_le_compat_l; [apply Rabs_pos|]. right. unfold y0. rewrite <- Rabs_mult. f_equal. ring. }
  assert (L : Rabs (fx c (y + b * (s + t)) - fx x0 y0) <= (Rabs M1 * Rabs a + Rabs M2 * Rabs b) * Rabs t).
  { replace (fx c (y + b * (s + t)) - fx x0 y0) with ((fx c (y + b * (s + t)) - fx x0 (y + b * (s + t))) + (fx x0 (y + b * (s + t)) - fx x0 y0)) by ring.
    eapply Rle_trans; [apply Rabs_triang|]. lra. }
  apply Rle_lt_trans with (K * Rabs t).
  - eapply Rle_trans; [apply Rmult_le_compat_l; [apply Rabs_pos|exact L]|]. unfold K. pose proof (Rabs_pos t). nra.
  - apply (Rmult_lt_compat_l K) in Hlt; [|exact HK]. replace (K * (eps / K)) with eps in Hlt by (field; lra). exact Hlt.
Qed.
Lemma smooth_line f fx fy : smooth 2 f -> is_dx f fx -> is_dy f fy -> forall a b x y s,
  derivable_pt_lim (fun s => f (x + a * s) (y + b * s)) s (a * fx (x + a * s) (y + b * s) + b * fy (x + a * s) (y + b * s)).
Proof.
  intros S Hx Hy a b x y s. pose proof (smooth_dx 1 f fx S Hx) as (_ & fxx & fxy & H1 & H2 & S1 & S2).
  apply line with fxx fxy; auto; now apply (smooth_bounded 0).
Qed.

(** ** Families: expressions that depend on a point and a step, with derivatives in the step bounded for all points. *)
Definition fn3 := R -> R -> R -> R.
Definition bounded3 (p : fn3) : Prop := exists M, forall x y s, Rabs (p x y s) <= M.
Definition is_ds (p q : fn3) : Prop := forall x y s, derivable_pt_lim (p x y) s (q x y s).
Fixpoint fam (n : nat) (p : fn3) : Prop :=
  bounded3 p /\ match n with O => True | S n' => exists q, is_ds p q /\ fam n' q end.
Lemma fam_bounded n p : fam n p -> bounded3 p. Proof. destruct n; cbn; tauto. Qed.
Lemma fam_pred n p : fam (S n) p -> fam n p.
Proof.
  revert p. induction n; intros p H.
  - split; [apply (fam_bounded 1), H|exact I].
  - destruct H as (B & q & Hq & Sq). split; [exact B|]. exists q. auto.
Qed.
Lemma fam_le n k f : (k <= n)%nat -> fam n f -> fam k f.
Proof. induction 1; auto. intros. now apply IHle, fam_pred. Qed.
Lemma fam_ext n p q : (forall x y s, p x y s = q x y s) -> fam n p -> fam n q.
Proof.
  destruct n; intros E (B & H).
  - split; [|exact I]. destruct B as [M B]. exists M. intros. rewrite <- E. apply B.
  - destruct H as (r & Hr & Sr). split; [destruct B as [M B]; exists M; intros; rewrite <- E; apply B|].
    exists r. split; [|exact Sr]. intros x y s. eapply D_ext; [|apply Hr]. intros. symmetry. apply E.
Qed.
Lemma fam_ds n p q : fam (S n) p -> is_ds p q -> fam n q.
Proof.
  intros (B & r & Hr & Sr) H. eapply fam_ext; [|exact Sr]. intros. eapply uniqueness_limite; [apply Hr|apply H].
Qed.

Lemma fam_plus n p q : fam n p -> fam n q -> fam n (fun x y s => p x y s + q x y s).
Proof.
  revert p q. induction n; intros p q (Bp & Hp) (Bq & Hq).
  all: assert (B : bounded3 (fun x y s => p x y s + q x y s))
    by (destruct Bp as [M Bp], Bq as [N Bq]; exists (M + N); intros x y s; eapply Rle_trans; [apply Rabs_triang|]; specialize (Bp x y s); specialize (Bq x y s); lra).
  - split; [exact B|exact I].
  - destruct Hp as (p' & Dp & Sp), Hq as (q' & Dq & Sq). split; [exact B|]. exists (fun x y s => p' x y s + q' x y s). split; auto.
    intros x y s. apply D_plus; [apply Dp|apply Dq].
Qed.
Lemma fam_mult n p q : fam n p -> fam n q -> fam n (fun x y s => p x y s * q x y s).
Proof.
  revert p q. induction n; intros p q Fp Fq; pose proof Fp as (Bp & Hp); pose proof Fq as (Bq & Hq).
  all: assert (B : bounded3 (fun x y s => p x y s * q x y s))
    by (destruct Bp as [M Bp], Bq as [N Bq]; exists (M * N); intros x y s; rewrite Rabs_mult; apply Rmult_le_compat; auto using Rabs_pos).
  - split; [exact B|exact I].
  - destruct Hp as (p' & Dp & Sp), Hq as (q' & Dq & Sq). split; [exact B|].
    exists (fun x y s => p' x y s * q x y s + p x y s * q' x y s). split.
    + intros x y s. apply D_mult; [apply Dp|apply Dq].
    + apply fam_plus; apply IHn; auto using fam_pred.
Qed.
Lemma fam_const n c : fam n (fun _ _ _ => c).
Proof.
  revert c. induction n; intros c; (split; [exists (Rabs c); intros; lra|]); [exact I|].
  exists (fun _ _ _ => 0). split; [intros x y s; apply D_const|apply IHn].
Qed.
Lemma fam_scal n c p : fam n p -> fam n (fun x y s => c * p x y s).
Proof. intros. apply (fam_mult n (fun _ _ _ => c)); [apply fam_const|assumption]. Qed.
Lemma fam_opp n p : fam n p -> fam n (fun x y s => - p x y s).
Proof. intros. apply (fam_ext n (fun x y s => -1 * p x y s)); [intros; ring|now apply fam_scal]. Qed.
Lemma fam_minus n p q : fam n p -> fam n q -> fam n (fun x y s => p x y s - q x y s).
Proof. intros. apply (fam_ext n (fun x y s => p x y s + - q x y s)); [intros; ring|]. apply fam_plus; auto using fam_opp. Qed.
Lemma fam_divc n c p : fam n p -> fam n (fun x y s => p x y s / c).
Proof. intros. apply (fam_ext n (fun x y s => / c * p x y s)); [intros; unfold Rdiv; ring|now apply fam_scal]. Qed.
Lemma D_inv f x a : derivable_pt_lim f x a -> f x <> 0 -> derivable_pt_lim (fun y => / f y) x (- a * (/ f x * / f x)).
Proof.
  intros H Hn. apply D_ext with (g := fun y => 1 / f y); [intros; unfold Rdiv; ring|].
  eapply D_eq; [apply (derivable_pt_lim_div (fun _ => 1) f x 0 a); auto; apply D_const|]. unfold Rsqr. field. exact Hn.
Qed.
Lemma fam_inv n p c : 0 < c -> (forall x y s, c <= p x y s) -> fam n p -> fam n (fun x y s => / p x y s).
Proof.
  intros Hc L. revert p L. induction n; intros p L Fp; pose proof Fp as (Bp & Hp).
  all: assert (B : bounded3 (fun x y s => / p x y s))
    by (exists (/ c); intros x y s; specialize (L x y s); rewrite Rabs_pos_eq; [apply Rinv_le_contravar; lra|left; apply Rinv_0_lt_compat; lra]).
  - split; [exact B|exact I].
  - destruct Hp as (p' & Dp & Sp). split; [exact B|].
    exists (fun x y s => - p' x y s * (/ p x y s * / p x y s)). split.
    + intros x y s. apply D_inv; [apply Dp|]. specialize (L x y s). lra.
    + apply fam_mult; [now apply fam_opp|]. apply fam_mult; apply IHn; auto using fam_pred.
Qed.
(** A smooth function at a point that moves with the step. *)
Lemma fam_smooth n f a b : smooth (S n) f -> fam n (fun x y s => f (x + a * s) (y + b * s)).
Proof.
  revert f a b. induction n; intros f a b H.
  - destruct H as [[M B] _]. split; [exists M; intros; apply B|exact I].
  - pose proof H as (B & fx & fy & Hx & Hy & Sx & Sy). split; [destruct B as [M B]; exists M; intros; apply B|].
    exists (fun x y s => a * fx (x + a * s) (y + b * s) + b * fy (x + a * s) (y + b * s)). split.
    + intros x y s. apply smooth_line; auto. now apply (smooth_le (S (S n))); [lia|].
    + apply fam_plus; apply fam_scal; apply IHn; auto.
Qed.
Lemma fam_at n f (X Y : fn3) : smooth (S n) f -> (forall x y s, X x y s = x + X 0 0 1 * s) -> (forall x y s, Y x y s = y + Y 0 0 1 * s) ->
  fam n (fun x y s => f (X x y s) (Y x y s)).
Proof.
  intros H EX EY. apply (fam_ext n (fun x y s => f (x + X 0 0 1 * s) (y + Y 0 0 1 * s))).
  - intros x y s. now rewrite <- (EX x y s), <- (EY x y s).
  - now apply fam_smooth.
Qed.
Lemma D_at f fx fy : smooth 2 f -> is_dx f fx -> is_dy f fy -> forall (X Y : R -> R) s,
  (forall s, X s = X 0 + (X 1 - X 0) * s) -> (forall s, Y s = Y 0 + (Y 1 - Y 0) * s) ->
  derivable_pt_lim (fun s => f (X s) (Y s)) s ((X 1 - X 0) * fx (X s) (Y s) + (Y 1 - Y 0) * fy (X s) (Y s)).
Proof.
  intros H Hx Hy X Y s EX EY. rewrite (EX s), (EY s).
  apply D_ext with (g := fun s => f (X 0 + (X 1 - X 0) * s) (Y 0 + (Y 1 - Y 0) * s)).
  - intros t. now rewrite <- (EX t), <- (EY t).
  - now apply smooth_line.
Qed.

(** ** Expansions in the step *)
Lemma fam_T1 p : fam 1 p -> exists C, 0 <= C /\ forall x y s, Rabs (p x y s - p x y 0) <= C * Rabs s.
Proof.
  intros (_ & q & Hq & (M & B) & _). exists (Rabs M). split; [apply Rabs_pos|]. intros x y s.
  replace (Rabs s) with (Rabs (s - 0)) by (f_equal; ring). apply (lipschitz (p x y) (q x y)); [apply Hq|].
  intros. eapply Rle_trans; [apply B|apply Rle_abs].
Qed.
Lemma fam_T2 p q : fam 2 p -> is_ds p q -> exists C, 0 <= C /\ forall x y s, Rabs (p x y s - p x y 0 - s * q x y 0) <= C * Rabs s ^ 2.
Proof.
  intros F Hq. destruct (fam_T1 q (fam_ds 1 p q F Hq)) as (C & HC & B). exists C. split; [exact HC|]. intros x y s.
  apply (grow (fun s => p x y s - p x y 0 - s * q x y 0) (fun s => q x y s - q x y 0) C 1); [|ring|exact HC|].
  - intros t. eapply D_eq; [apply D_minus; [apply D_minus; [apply Hq|apply D_const]|apply D_mult; [apply D_id|apply D_const]]|cbv beta; ring].
  - intros t. rewrite pow_1. apply B.
Qed.
Lemma fam_T3 p q r : fam 3 p -> is_ds p q -> is_ds q r ->
  exists C, 0 <= C /\ forall x y s, Rabs (p x y s - p x y 0 - s * q x y 0 - s * s / 2 * r x y 0) <= C * Rabs s ^ 3.
Proof.
  intros F Hq Hr. destruct (fam_T2 q r (fam_ds 2 p q F Hq) Hr) as (C & HC & B). exists C. split; [exact HC|]. intros x y s.
  apply (grow (fun s => p x y s - p x y 0 - s * q x y 0 - s * s / 2 * r x y 0) (fun s => q x y s - q x y 0 - s * r x y 0) C 2); [|field|exact HC|].
  - intros t. eapply D_eq; [apply D_minus; [apply D_minus; [apply D_minus; [apply Hq|apply D_const]|apply D_mult; [apply D_id|apply D_const]]|]|].
    + apply D_mult; [|apply D_const]. apply D_divc, D_mult; apply D_id.
    + cbv beta. field.
  - intros t. apply B.
Qed.
Lemma fam_T4 p q r u : fam 4 p -> is_ds p q -> is_ds q r -> is_ds r u ->
  exists C, 0 <= C /\ forall x y s, Rabs (p x y s - p x y 0 - s * q x y 0 - s * s / 2 * r x y 0 - s * s * s / 6 * u x y 0) <= C * Rabs s ^ 4.
Proof.
  intros F Hq Hr Hu. destruct (fam_T3 q r u (fam_ds 3 p q F Hq) Hr Hu) as (C & HC & B). exists C. split; [exact HC|]. intros x y s.
  apply (grow (fun s => p x y s - p x y 0 - s * q x y 0 - s * s / 2 * r x y 0 - s * s * s / 6 * u x y 0)
          (fun s => q x y s - q x y 0 - s * r x y 0 - s * s / 2 * u x y 0) C 3); [|field|exact HC|].
  - intros t. eapply D_eq; [apply D_minus; [apply D_minus; [apply D_minus; [apply D_minus; [apply Hq|apply D_const]|apply D_mult; [apply D_id|apply D_const]]|]|]|].
    + apply D_mult; [|apply D_const]. apply D_divc, D_mult; apply D_id.
    + apply D_mult; [|apply D_const]. apply D_divc, D_mult; [apply D_mult|]; apply D_id.
    + cbv beta. field.
  - intros t. apply B.
Qed.

(** Even and odd expressions. *)
Definition even3 (p : fn3) : Prop := forall x y s, p x y (- s) = p x y s.
Definition odd3 (p : fn3) : Prop := forall x y s, p x y (- s) = - p x y s.
Lemma ds_even p q : is_ds p q -> even3 p -> odd3 q.
Proof.
  intros H E x y s. eapply uniqueness_limite; [apply H|].
  apply D_ext with (g := fun t => p x y (- t)); [intros; symmetry; apply E|].
  eapply D_eq; [apply (derivable_pt_lim_comp (fun t => - t) (p x y) (- s) (-1))|].
  - der. ring.
  - rewrite Ropp_involutive. apply H.
  - ring.
Qed.
Lemma ds_odd p q : is_ds p q -> odd3 p -> even3 q.
Proof.
  intros H E x y s. eapply uniqueness_limite; [apply H|].
  apply D_ext with (g := fun t => - p x y (- t)); [intros; rewrite E; ring|].
  eapply D_eq; [apply D_opp; apply (derivable_pt_lim_comp (fun t => - t) (p x y) (- s) (-1))|].
  - der. ring.
  - rewrite Ropp_involutive. apply H.
  - ring.
Qed.
Lemma odd_0 p : odd3 p -> forall x y, p x y 0 = 0.
Proof. intros H x y. specialize (H x y 0). rewrite Ropp_0 in H. lra. Qed.

Lemma even_T2 p : fam 2 p -> even3 p -> exists C, 0 <= C /\ forall x y s, Rabs (p x y s - p x y 0) <= C * Rabs s ^ 2.
Proof.
  intros F E. pose proof F as (_ & q & Hq & _). destruct (fam_T2 p q F Hq) as (C & HC & B). exists C. split; [exact HC|]. intros x y s.
  specialize (B x y s). rewrite (odd_0 q (ds_even p q Hq E)), Rmult_0_r, Rminus_0_r in B. exact B.
Qed.
(** An odd expression divided by the step. *)
Lemma odd_T3 p (b : fn2) : fam 3 p -> odd3 p -> (forall x y, derivable_pt_lim (p x y) 0 (b x y)) ->
  exists C, 0 <= C /\ forall x y s, s <> 0 -> Rabs (p x y s / s - b x y) <= C * Rabs s ^ 2.
Proof.
  intros F O Hb. pose proof F as (_ & q & Hq & Fq). pose proof Fq as (_ & r & Hr & _).
  destruct (fam_T3 p q r F Hq Hr) as (C & HC & B). exists C. split; [exact HC|]. intros x y s Hs. specialize (B x y s).
  rewrite (odd_0 p O), (odd_0 r (ds_even q r Hr (ds_odd p q Hq O))) in B.
  rewrite (uniqueness_limite _ _ _ _ (Hq x y 0) (Hb x y)) in B.
  replace (p x y s - 0 - s * b x y - s * s / 2 * 0) with (s * (p x y s / s - b x y)) in B by (field; exact Hs).
  rewrite Rabs_mult in B. change (Rabs s ^ 3) with (Rabs s * Rabs s ^ 2) in B.
  apply (Rmult_le_reg_l (Rabs s)); [now apply Rabs_pos_lt|]. lra.
Qed.
(** An even expression that vanishes at step 0, divided by the square of the step. *)
Lemma even_T4 p q (b : fn2) : fam 4 p -> even3 p -> (forall x y, p x y 0 = 0) -> is_ds p q ->
  (forall x y, derivable_pt_lim (q x y) 0 (2 * b x y)) ->
  exists C, 0 <= C /\ forall x y s, s <> 0 -> Rabs (p x y s / (s * s) - b x y) <= C * Rabs s ^ 2.
Proof.
  intros F E Z Hq Hb. pose proof (fam_ds 3 p q F Hq) as (_ & r & Hr & Fr). pose proof Fr as (_ & u & Hu & _).
  destruct (fam_T4 p q r u F Hq Hr Hu) as (C & HC & B). exists C. split; [exact HC|]. intros x y s Hs. specialize (B x y s).
  pose proof (ds_even p q Hq E) as Oq. pose proof (ds_even r u Hu (ds_odd q r Hr Oq)) as Ou.
  rewrite Z, (odd_0 q Oq), (odd_0 u Ou), (uniqueness_limite _ _ _ _ (Hr x y 0) (Hb x y)) in B.
  replace (p x y s - 0 - s * 0 - s * s / 2 * (2 * b x y) - s * s * s / 6 * 0) with (s * s * (p x y s / (s * s) - b x y)) in B by (field; exact Hs).
  rewrite !Rabs_mult in B. change (Rabs s ^ 4) with (Rabs s * (Rabs s * Rabs s ^ 2)) in B.
  apply (Rmult_le_reg_l (Rabs s * Rabs s)); [apply Rmult_lt_0_compat; now apply Rabs_pos_lt|]. lra.
Qed.
