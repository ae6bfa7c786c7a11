(** How far the finite difference operators of [Stencil.v] are from the differential operators. *)
From Coq Require Import ZArith Reals Lia Lra.
From Verif Require Import Deriv Stencil Taylor.
Open Scope R_scope.

(** ** Values and derivatives at step 0 *)
Definition J1 (p : R -> R) (a b : R) : Prop := p 0 = a /\ derivable_pt_lim p 0 b.
Lemma J1_const c : J1 (fun _ => c) c 0. Proof. split; [reflexivity|apply D_const]. Qed.
Lemma J1_plus p q a b a' b' : J1 p a b -> J1 q a' b' -> J1 (fun s => p s + q s) (a + a') (b + b').
Proof. intros [<- H] [<- K]. split; [reflexivity|now apply D_plus]. Qed.
Lemma J1_minus p q a b a' b' : J1 p a b -> J1 q a' b' -> J1 (fun s => p s - q s) (a - a') (b - b').
Proof. intros [<- H] [<- K]. split; [reflexivity|now apply D_minus]. Qed.
Lemma J1_mult p q a b a' b' : J1 p a b -> J1 q a' b' -> J1 (fun s => p s * q s) (a * a') (b * a' + a * b').
Proof. intros [<- H] [<- K]. split; [reflexivity|now apply D_mult]. Qed.
Lemma J1_divc p a b c : J1 p a b -> J1 (fun s => p s / c) (a / c) (b / c).
Proof. intros [<- H]. split; [reflexivity|now apply D_divc]. Qed.
Lemma J1_at f fx fy X Y x y : smooth 2 f -> is_dx f fx -> is_dy f fy -> (forall s, X s = x + (X 1 - x) * s) -> (forall s, Y s = y + (Y 1 - y) * s) ->
  J1 (fun s => f (X s) (Y s)) (f x y) ((X 1 - x) * fx x y + (Y 1 - y) * fy x y).
Proof.
  intros H Hx Hy EX EY.
  assert (X0 : X 0 = x) by (rewrite (EX 0); ring). assert (Y0 : Y 0 = y) by (rewrite (EY 0); ring).
  split; [now rewrite X0, Y0|]. rewrite <- X0, <- Y0. apply (D_at f fx fy); auto; intros s; [rewrite X0|rewrite Y0]; auto.
Qed.

Definition J2 (p : R -> R) (a b c : R) : Prop :=
  p 0 = a /\ exists p', (forall s, derivable_pt_lim p s (p' s)) /\ p' 0 = b /\ derivable_pt_lim p' 0 c.
Lemma J2_const c : J2 (fun _ => c) c 0 0.
Proof. split; [reflexivity|]. exists (fun _ => 0). repeat split; intros; apply D_const. Qed.
Lemma J2_plus p q a b c a' b' c' : J2 p a b c -> J2 q a' b' c' -> J2 (fun s => p s + q s) (a + a') (b + b') (c + c').
Proof.
  intros (<- & p' & H & <- & H2) (<- & q' & K & <- & K2). split; [reflexivity|]. exists (fun s => p' s + q' s).
  repeat split; intros; now apply D_plus.
Qed.
Lemma J2_minus p q a b c a' b' c' : J2 p a b c -> J2 q a' b' c' -> J2 (fun s => p s - q s) (a - a') (b - b') (c - c').
Proof.
  intros (<- & p' & H & <- & H2) (<- & q' & K & <- & K2). split; [reflexivity|]. exists (fun s => p' s - q' s).
  repeat split; intros; now apply D_minus.
Qed.
Lemma J2_mult p q a b c a' b' c' : J2 p a b c -> J2 q a' b' c' ->
  J2 (fun s => p s * q s) (a * a') (b * a' + a * b') (c * a' + b * b' + (b * b' + a * c')).
Proof.
  intros (<- & p' & H & <- & H2) (<- & q' & K & <- & K2). split; [reflexivity|]. exists (fun s => p' s * q s + p s * q' s).
  repeat split; intros.
  - now apply D_mult.
  - apply D_plus; apply D_mult; auto.
Qed.
Lemma J2_divc p a b c e : J2 p a b c -> J2 (fun s => p s / e) (a / e) (b / e) (c / e).
Proof.
  intros (<- & p' & H & <- & H2). split; [reflexivity|]. exists (fun s => p' s / e). repeat split; intros; now apply D_divc.
Qed.
Lemma J2_at f fx fy fxx fxy fyx fyy X Y x y : smooth 3 f -> is_dx f fx -> is_dy f fy -> is_dx fx fxx -> is_dy fx fxy -> is_dx fy fyx -> is_dy fy fyy ->
  (forall s, X s = x + (X 1 - x) * s) -> (forall s, Y s = y + (Y 1 - y) * s) ->
  let a := X 1 - x in let b := Y 1 - y in
  J2 (fun s => f (X s) (Y s)) (f x y) (a * fx x y + b * fy x y)
     (a * (a * fxx x y + b * fxy x y) + b * (a * fyx x y + b * fyy x y)).
Proof.
  intros H Hx Hy Hxx Hxy Hyx Hyy EX EY. cbv zeta.
  assert (X0 : X 0 = x) by (rewrite (EX 0); ring). assert (Y0 : Y 0 = y) by (rewrite (EY 0); ring).
  split; [now rewrite X0, Y0|]. exists (fun s => (X 1 - x) * fx (X s) (Y s) + (Y 1 - y) * fy (X s) (Y s)).
  split; [|split; [now rewrite X0, Y0|]].
  - intros s. rewrite <- X0, <- Y0. apply (D_at f fx fy); auto; [apply (smooth_le 3); auto|intros t; rewrite X0; auto|intros t; rewrite Y0; auto].
  - apply D_plus; apply D_cmult.
    + apply (J1_at fx fxx fxy X Y x y); auto. apply (smooth_dx 2 f); auto.
    + apply (J1_at fy fyx fyy X Y x y); auto. apply (smooth_dy 2 f); auto.
Qed.

(** ** Automation *)
Ltac lin := intros; cbv beta; unfold Rdiv; first [ring | field].
Ltac sm0 := first [assumption | eapply smooth_le; [|eassumption]; lia].
Ltac sm := solve [sm0
  | match goal with H : is_dx ?f ?g |- smooth _ ?g => eapply smooth_dx; [|exact H]; sm0 end
  | match goal with H : is_dy ?f ?g |- smooth _ ?g => eapply smooth_dy; [|exact H]; sm0 end
  | match goal with H : is_dx ?f ?g, K : is_dx ?f' ?f |- smooth _ ?g => eapply smooth_dx; [|exact H]; eapply smooth_dx; [|exact K]; sm0 end
  | match goal with H : is_dx ?f ?g, K : is_dy ?f' ?f |- smooth _ ?g => eapply smooth_dx; [|exact H]; eapply smooth_dy; [|exact K]; sm0 end
  | match goal with H : is_dy ?f ?g, K : is_dx ?f' ?f |- smooth _ ?g => eapply smooth_dy; [|exact H]; eapply smooth_dx; [|exact K]; sm0 end
  | match goal with H : is_dy ?f ?g, K : is_dy ?f' ?f |- smooth _ ?g => eapply smooth_dy; [|exact H]; eapply smooth_dy; [|exact K]; sm0 end].
Ltac fam1 :=
  first [apply fam_const | lazymatch goal with
  | |- fam _ (fun x y s => @?p x y s + @?q x y s) => apply (fam_plus _ p q)
  | |- fam _ (fun x y s => @?p x y s - @?q x y s) => apply (fam_minus _ p q)
  | |- fam _ (fun x y s => - @?p x y s) => apply (fam_opp _ p)
  | |- fam _ (fun x y s => @?p x y s * @?q x y s) => apply (fam_mult _ p q)
  | |- fam _ (fun x y s => @?p x y s / ?c) => apply (fam_divc _ c p)
  | |- fam _ (fun x y s => ?f (@?X x y s) (@?Y x y s)) => apply (fam_at _ f X Y); [sm|lin|lin]
  end].
Ltac fams := repeat (cbv beta; fam1).
Ltac j1 x y :=
  first [apply J1_const | lazymatch goal with
  | |- J1 (fun s => @?p s + @?q s) _ _ => eapply (J1_plus p q)
  | |- J1 (fun s => @?p s - @?q s) _ _ => eapply (J1_minus p q)
  | |- J1 (fun s => @?p s * @?q s) _ _ => eapply (J1_mult p q)
  | |- J1 (fun s => @?p s / ?c) _ _ => eapply (J1_divc p)
  | |- J1 (fun s => ?f (@?X s) (@?Y s)) _ _ => match goal with Hx : is_dx f ?fx, Hy : is_dy f ?fy |- _ =>
      apply (J1_at f fx fy X Y x y); [sm|exact Hx|exact Hy|lin|lin] end
  end].
Lemma J1_D p a b b' : J1 p a b -> b = b' -> derivable_pt_lim p 0 b'. Proof. now intros [_ H] <-. Qed.
Ltac jet1 x y := eapply J1_D; [repeat (cbv beta; j1 x y)|cbv beta].
Ltac j2 x y :=
  first [apply J2_const | lazymatch goal with
  | |- J2 (fun s => @?p s + @?q s) _ _ _ => eapply (J2_plus p q)
  | |- J2 (fun s => @?p s - @?q s) _ _ _ => eapply (J2_minus p q)
  | |- J2 (fun s => @?p s * @?q s) _ _ _ => eapply (J2_mult p q)
  | |- J2 (fun s => @?p s / ?c) _ _ _ => eapply (J2_divc p)
  | |- J2 (fun s => ?f (@?X s) (@?Y s)) _ _ _ => match goal with Hx : is_dx f ?fx, Hy : is_dy f ?fy |- _ =>
      match goal with Hxx : is_dx fx ?fxx, Hxy : is_dy fx ?fxy, Hyx : is_dx fy ?fyx, Hyy : is_dy fy ?fyy |- _ =>
      apply (J2_at f fx fy fxx fxy fyx fyy X Y x y); [sm|exact Hx|exact Hy|exact Hxx|exact Hxy|exact Hyx|exact Hyy|lin|lin] end end
  end].
Lemma J2_eq p a b c a' c' : J2 p a b c -> a = a' -> c = c' -> exists b, J2 p a' b c'.
Proof. intros H <- <-. eauto. Qed.
Ltac jet2 x y := eapply J2_eq; [repeat (cbv beta; j2 x y)|cbv beta|cbv beta].

(** A family that is even, vanishes at step 0 and has second derivative [2 b] there. *)
Lemma even_J2 p (b : fn2) : fam 4 p -> even3 p -> (forall x y, exists b1, J2 (p x y) 0 b1 (2 * b x y)) ->
  exists C, 0 <= C /\ forall x y s, s <> 0 -> Rabs (p x y s / (s * s) - b x y) <= C * Rabs s ^ 2.
Proof.
  intros Fp E J. pose proof Fp as (_ & q & Hq & _). apply (even_T4 p q b); auto.
  - intros x y. destruct (J x y) as (b1 & H & _). exact H.
  - intros x y. destruct (J x y) as (b1 & _ & p' & Hp & _ & H2). eapply D_ext; [|exact H2].
    intros s. eapply uniqueness_limite; [apply Hq|apply Hp].
Qed.

Lemma S3 : sqrt 3 * sqrt 3 = 3. Proof. apply sqrt_sqrt. lra. Qed.
Lemma S3pos : 0 < sqrt 3. Proof. apply sqrt_lt_R0. lra. Qed.
Ltac s3 t := let H := fresh "S3" in assert (H : t * (sqrt 3 * sqrt 3) = t * 3) by (now rewrite S3).

(** Bounds over the three directions. *)
Lemma three_C (P : Z -> R -> Prop) : (forall q a b, P q a -> a <= b -> P q b) -> (forall q, (0 <= q < 3)%Z -> exists C, 0 <= C /\ P q C) ->
  exists C, 0 <= C /\ forall q, (0 <= q < 3)%Z -> P q C.
Proof.
  intros M H. destruct (H 0%Z ltac:(lia)) as (C0 & H0 & P0). destruct (H 1%Z ltac:(lia)) as (C1 & H1 & P1). destruct (H 2%Z ltac:(lia)) as (C2 & H2 & P2).
  exists (C0 + C1 + C2). split; [lra|]. intros q Hq. assert (q = 0 \/ q = 1 \/ q = 2)%Z as [-> | [-> | ->]] by lia; (eapply M; [eassumption|lra]).
Qed.

(** [E x y d] is within [C d^2] of [f x y]. *)
Definition appr (E : fn3) (f : fn2) : Prop := exists C, 0 <= C /\ forall x y d, d <> 0 -> Rabs (E x y d - f x y) <= C * Rabs d ^ 2.
Lemma pow2_nonneg d : 0 <= Rabs d ^ 2. Proof. apply pow_le, Rabs_pos. Qed.
Lemma appr_ext E E' f f' : (forall x y d, d <> 0 -> E x y d = E' x y d) -> (forall x y, f x y = f' x y) -> appr E f -> appr E' f'.
Proof. intros H K (C & HC & B). exists C. split; [exact HC|]. intros. rewrite <- H, <- K by assumption. auto. Qed.
Lemma appr_plus E f E' f' : appr E f -> appr E' f' -> appr (fun x y d => E x y d + E' x y d) (fun x y => f x y + f' x y).
Proof.
  intros (C & HC & B) (C' & HC' & B'). exists (C + C'). split; [lra|]. intros x y d Hd.
  replace (E x y d + E' x y d - (f x y + f' x y)) with ((E x y d - f x y) + (E' x y d - f' x y)) by ring.
  eapply Rle_trans; [apply Rabs_triang|]. specialize (B x y d Hd). specialize (B' x y d Hd). lra.
Qed.
Lemma appr_scal c E f : appr E f -> appr (fun x y d => c * E x y d) (fun x y => c * f x y).
Proof.
  intros (C & HC & B). exists (Rabs c * C). split; [apply Rmult_le_pos; auto using Rabs_pos|]. intros x y d Hd.
  replace (c * E x y d - c * f x y) with (c * (E x y d - f x y)) by ring. rewrite Rabs_mult, Rmult_assoc.
  apply Rmult_le_compat_l; [apply Rabs_pos|auto].
Qed.
Lemma appr_opp E f : appr E f -> appr (fun x y d => - E x y d) (fun x y => - f x y).
Proof. intros H. apply (appr_ext (fun x y d => -1 * E x y d) _ (fun x y => -1 * f x y)); [intros; ring|intros; ring|now apply appr_scal]. Qed.
Lemma appr_minus E f E' f' : appr E f -> appr E' f' -> appr (fun x y d => E x y d - E' x y d) (fun x y => f x y - f' x y).
Proof. intros. apply appr_plus; [assumption|now apply appr_opp]. Qed.
Lemma appr_mult E f E' f' : appr E f -> appr E' f' -> bounded3 E -> bounded2 f' -> appr (fun x y d => E x y d * E' x y d) (fun x y => f x y * f' x y).
Proof.
  intros (C & HC & B) (C' & HC' & B') (M & HM) (N & HN).
  assert (M0 : 0 <= M) by (eapply Rle_trans; [apply Rabs_pos|apply (HM 0 0 0)]). assert (N0 : 0 <= N) by (eapply Rle_trans; [apply Rabs_pos|apply (HN 0 0)]).
  exists (M * C' + N * C). split; [apply Rplus_le_le_0_compat; now apply Rmult_le_pos|]. intros x y d Hd.
  replace (E x y d * E' x y d - f x y * f' x y) with (E x y d * (E' x y d - f' x y) + f' x y * (E x y d - f x y)) by ring.
  eapply Rle_trans; [apply Rabs_triang|]. rewrite !Rabs_mult.
  assert (Rabs (E x y d) * Rabs (E' x y d - f' x y) <= M * (C' * Rabs d ^ 2)) by (apply Rmult_le_compat; auto using Rabs_pos).
  assert (Rabs (f' x y) * Rabs (E x y d - f x y) <= N * (C * Rabs d ^ 2)) by (apply Rmult_le_compat; auto using Rabs_pos).
  lra.
Qed.
Lemma appr_even p : fam 2 p -> even3 p -> appr p (fun x y => p x y 0).
Proof. intros F E. destruct (even_T2 p F E) as (C & HC & B). exists C. auto. Qed.

(** ** Parity *)
Lemma at2 (F : fn2) x x' y y' : x = x' -> y = y' -> F x y = F x' y'. Proof. now intros -> ->. Qed.
Lemma Df_odd d (G G' : fn2) q x y : (forall x y, G x y = G' x y) -> Df (- d) G q x y = - Df d G' q x y.
Proof. intros E. unfold Df. rewrite !E, Ropp_minus_distr. unfold Rdiv. f_equal; apply at2; ring. Qed.
Lemma Df_odd' d (G G' : fn2) q x y : (forall x y, G x y = - G' x y) -> Df (- d) G q x y = Df d G' q x y.
Proof.
  intros E. unfold Df. rewrite !E. match goal with |- - ?a - - ?b = _ => replace (- a - - b) with (b - a) by ring end.
  unfold Rdiv. f_equal; apply at2; ring.
Qed.
Lemma Sm_even d (G G' : fn2) q x y : (forall x y, G x y = G' x y) -> Sm (- d) G q x y = Sm d G' q x y.
Proof. intros E. unfold Sm. rewrite !E, Rplus_comm. unfold Rdiv. f_equal; apply at2; ring. Qed.
Lemma Me_even d (G G' : fn2) q x y : (forall x y, G x y = G' x y) -> Me (- d) G q x y = Me d G' q x y.
Proof. intros E. unfold Me. rewrite !E, Rplus_comm. unfold Rdiv. f_equal. f_equal; apply at2; ring. Qed.

(** ** The operators *)
Section One.
Context (F Fx Fy : fn2) (SF : smooth 4 F) (HFx : is_dx F Fx) (HFy : is_dy F Fy).
Lemma Gr_appr q : appr (fun x y d => Gr d F q x y) (fun x y => cq q * Fx x y + sq q * Fy x y).
Proof.
  apply (odd_T3 (fun x y d => F (x + d / 2 * cq q) (y + d / 2 * sq q) - F (x - d / 2 * cq q) (y - d / 2 * sq q))).
  - fams.
  - intros x y s. unfold Rdiv. rewrite Ropp_minus_distr. f_equal; f_equal; ring.
  - intros x y. jet1 x y. field.
Qed.
Lemma Me_appr q : appr (fun x y d => Me d F q x y) F.
Proof.
  apply (appr_ext (fun x y d => (F (x - d / 2 * cq q) (y - d / 2 * sq q) + F (x + d / 2 * cq q) (y + d / 2 * sq q)) / 2) _
    (fun x y => (F (x - 0 / 2 * cq q) (y - 0 / 2 * sq q) + F (x + 0 / 2 * cq q) (y + 0 / 2 * sq q)) / 2)).
  - reflexivity.
  - intros x y. replace (x - 0 / 2 * cq q) with x by field. replace (x + 0 / 2 * cq q) with x by field.
    replace (y - 0 / 2 * sq q) with y by field. replace (y + 0 / 2 * sq q) with y by field. field.
  - apply (appr_even (fun x y d => (F (x - d / 2 * cq q) (y - d / 2 * sq q) + F (x + d / 2 * cq q) (y + d / 2 * sq q)) / 2)).
    + fams.
    + intros x y s. rewrite Rplus_comm. unfold Rdiv. f_equal. f_equal; f_equal; ring.
Qed.
End One.

(** The component of a vector field along direction [q], and the one at right angles. *)
Definition nvec (U V : fn2) (q : Z) (x y : R) : R := cq q * U x y + sq q * V x y.
Definition tvec (U V : fn2) (q : Z) (x y : R) : R := - sq q * U x y + cq q * V x y.
Ltac qs := unfold cq, sq; cbn [Z.eqb Pos.eqb].

Section Vec.
Context (U V Ux Uy Vx Vy : fn2) (SU : smooth 4 U) (SV : smooth 4 V)
  (HUx : is_dx U Ux) (HUy : is_dy U Uy) (HVx : is_dx V Vx) (HVy : is_dy V Vy).
Definition nOu (G : Z -> fn2) (x y d : R) : R := Df d (G 0%Z) 0 x y + Df d (G 1%Z) 1 x y + Df d (G 2%Z) 2 x y.
Lemma Ou_appr : appr (fun x y d => Ou d (nvec U V) x y) (fun x y => Ux x y + Vy x y).
Proof.
  apply (appr_ext (fun x y d => 2 / 3 * (nOu (nvec U V) x y d / d)) _ (fun x y => 2 / 3 * (3 / 2 * (Ux x y + Vy x y)))).
  - intros. unfold Ou, nOu. field. assumption.
  - intros. field.
  - apply appr_scal, odd_T3.
    + unfold nOu, Df, nvec. fams.
    + intros x y s. unfold nOu. rewrite !(Df_odd s _ _ _ _ _ (fun _ _ => eq_refl)). ring.
    + intros x y. unfold nOu, Df, nvec. jet1 x y. qs.
      s3 (Ux x y). s3 (Uy x y). s3 (Vx x y). s3 (Vy x y). lra.
Qed.
End Vec.
