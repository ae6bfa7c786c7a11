(** Accuracy of the discrete curl, reconstruction, fluxes, kinetic energy gradient and Laplacians. *)
From Coq Require Import ZArith Reals Lia Lra.
From Verif Require Import Deriv Stencil Taylor Accur.
Open Scope R_scope.

(** Mixed derivatives commute. *)
Lemma lip2 (f fx fy : fn2) : is_dx f fx -> is_dy f fy -> bounded2 fx -> bounded2 fy ->
  exists C, 0 <= C /\ forall x y x' y', Rabs (f x' y' - f x y) <= C * (Rabs (x' - x) + Rabs (y' - y)).
Proof.
  intros Hx Hy [M B] [N B']. exists (Rabs M + Rabs N). split; [pose proof (Rabs_pos M); pose proof (Rabs_pos N); lra|]. intros x y x' y'.
  replace (f x' y' - f x y) with ((f x' y' - f x y') + (f x y' - f x y)) by ring.
  eapply Rle_trans; [apply Rabs_triang|].
  assert (L1 : Rabs (f x' y' - f x y') <= Rabs M * Rabs (x' - x)).
  { apply (lipschitz (fun u => f u y') (fun u => fx u y')); [intros; apply Hx|]. intros. eapply Rle_trans; [apply B|apply Rle_abs]. }
  assert (L2 : Rabs (f x y' - f x y) <= Rabs N * Rabs (y' - y)).
  { apply (lipschitz (fun u => f x u) (fun u => fy x u)); [intros; apply Hy|]. intros. eapply Rle_trans; [apply B'|apply Rle_abs]. }
  pose proof (Rabs_pos M). pose proof (Rabs_pos N). pose proof (Rabs_pos (x' - x)). pose proof (Rabs_pos (y' - y)). nra.
Qed.
Lemma small_0 a C : 0 <= C -> (forall s, 0 < s -> Rabs a <= C * s) -> a = 0.
Proof.
  intros HC H. destruct (Req_dec a 0) as [|Hn]; [assumption|]. exfalso. pose proof (Rabs_pos_lt a Hn) as Ha.
  assert (Hp : 0 < Rabs a / (2 * (C + 1))) by (apply Rdiv_lt_0_compat; lra).
  specialize (H _ Hp). assert (E : C * (Rabs a / (2 * (C + 1))) = Rabs a * (C / (2 * (C + 1)))) by (field; lra).
  rewrite E in H. assert (C / (2 * (C + 1)) <= 1 / 2).
  { apply (Rmult_le_reg_r (2 * (C + 1))); [lra|]. unfold Rdiv. rewrite Rmult_assoc, Rinv_l by lra. lra. }
  nra.
Qed.
Lemma schwarz f fx fy fxy fyx : smooth 3 f -> is_dx f fx -> is_dy f fy -> is_dy fx fxy -> is_dx fy fyx -> forall x y, fxy x y = fyx x y.
Proof.
  intros S Hx Hy Hxy Hyx x y.
  pose proof (smooth_dy 1 fx fxy (smooth_dx 2 f fx S Hx) Hxy) as (_ & ax & ay & A1 & A2 & A3 & A4).
  pose proof (smooth_dx 1 fy fyx (smooth_dy 2 f fy S Hy) Hyx) as (_ & bx & by_ & B1 & B2 & B3 & B4).
  destruct (lip2 fxy ax ay A1 A2 (smooth_bounded 0 _ A3) (smooth_bounded 0 _ A4)) as (C1 & HC1 & L1).
  destruct (lip2 fyx bx by_ B1 B2 (smooth_bounded 0 _ B3) (smooth_bounded 0 _ B4)) as (C2 & HC2 & L2).
  apply Rminus_diag_uniq. apply (small_0 _ (2 * (C1 + C2))); [lra|]. intros s Hs.
  destruct (mvt (fun u => f u (y + s) - f u y) (fun u => fx u (y + s) - fx u y) x (x + s)) as (u & Eu & Hu).
  { intros. apply D_minus; apply Hx. }
  destruct (mvt (fun v => fx u v) (fun v => fxy u v) y (y + s)) as (v & Ev & Hv); [intros; apply Hxy|].
  destruct (mvt (fun u => f (x + s) u - f x u) (fun u => fy (x + s) u - fy x u) y (y + s)) as (v' & Ev' & Hv').
  { intros. apply D_minus; apply Hy. }
  destruct (mvt (fun u => fy u v') (fun u => fyx u v') x (x + s)) as (u' & Eu' & Hu'); [intros; apply Hyx|].
  replace (x + s - x) with s in * by ring. replace (y + s - y) with s in * by ring. rewrite (Rabs_pos_eq s) in Hu, Hv, Hv', Hu' by lra.
  assert (E : fxy u v = fyx u' v').
  { rewrite Ev in Eu. rewrite Eu' in Ev'. apply (Rmult_eq_reg_r s); [|lra]. apply (Rmult_eq_reg_r s); [|lra]. lra. }
  specialize (L1 x y u v). specialize (L2 x y u' v').
  replace (fxy x y - fyx x y) with (- (fxy u v - fxy x y) + (fyx u' v' - fyx x y)) by lra.
  eapply Rle_trans; [apply Rabs_triang|]. rewrite Rabs_Ropp.
  assert (C1 * (Rabs (u - x) + Rabs (v - y)) <= C1 * (s + s)) by (apply Rmult_le_compat_l; lra).
  assert (C2 * (Rabs (u' - x) + Rabs (v' - y)) <= C2 * (s + s)) by (apply Rmult_le_compat_l; lra).
  lra.
Qed.

Lemma T3_J2 p (a b c : fn2) : fam 3 p -> (forall x y, J2 (p x y) (a x y) (b x y) (c x y)) ->
  exists C, 0 <= C /\ forall x y s, Rabs (p x y s - a x y - s * b x y - s * s / 2 * c x y) <= C * Rabs s ^ 3.
Proof.
  intros Fp J. pose proof Fp as (_ & q & Hq & Fq). pose proof Fq as (_ & r & Hr & _).
  destruct (fam_T3 p q r Fp Hq Hr) as (C & HC & B). exists C. split; [exact HC|]. intros x y s. specialize (B x y s).
  destruct (J x y) as (E0 & p' & Hp & E1 & H2).
  assert (E : forall s, q x y s = p' s) by (intros t; eapply uniqueness_limite; [apply Hq|apply Hp]).
  rewrite E0, E, E1 in B.
  assert (E2 : r x y 0 = c x y).
  { eapply uniqueness_limite; [apply Hr|]. eapply D_ext; [|exact H2]. intros; apply E. }
  rewrite E2 in B. exact B.
Qed.
Lemma J2_eq3 p a b c a' b' c' : J2 p a b c -> a = a' -> b = b' -> c = c' -> J2 p a' b' c'.
Proof. intros H <- <- <-. exact H. Qed.
Ltac jet2' x y := eapply J2_eq3; [repeat (cbv beta; j2 x y)|cbv beta|cbv beta|cbv beta].

(** ** Curl *)
(** Three times the circulation per side length, around an upward triangle with side [s]. *)
Definition nN (G : Z -> fn2) : fn3 := fun x y s =>
  G 0%Z x (y - s * (sqrt 3 / 6)) + G 2%Z (x + s / 4) (y + s * (sqrt 3 / 12)) - G 1%Z (x - s / 4) (y + s * (sqrt 3 / 12)).
Lemma sg_cases p : sg p = 1 \/ sg p = -1. Proof. unfold sg. destruct (p =? 0)%Z; auto. Qed.
Lemma sg_sq p : sg p * sg p = 1. Proof. destruct (sg_cases p) as [-> | ->]; ring. Qed.
Lemma sg_ne p : sg p <> 0. Proof. destruct (sg_cases p) as [-> | ->]; lra. Qed.
Lemma Vo_nN d G p x y : d <> 0 -> Vo d G p x y = 4 / sqrt 3 * (nN G x y (sg p * d) / (sg p * d)).
Proof.
  intros Hd. unfold Vo, nN. pose proof S3pos.
  replace (x + sg p * d / 4) with (x + sg p * (d / 4)) by (unfold Rdiv; ring).
  replace (x - sg p * d / 4) with (x - sg p * (d / 4)) by (unfold Rdiv; ring).
  replace (y - sg p * d * (sqrt 3 / 6)) with (y - sg p * (d * sqrt 3 / 6)) by (unfold Rdiv; ring).
  replace (y + sg p * d * (sqrt 3 / 12)) with (y + sg p * (d * sqrt 3 / 12)) by (unfold Rdiv; ring).
  destruct (sg_cases p) as [-> | ->]; field; lra.
Qed.

Section Vec.
Context (U V Ux Uy Vx Vy Uxx Uxy Uyx Uyy Vxx Vxy Vyx Vyy : fn2).
Context (HUx : is_dx U Ux) (HUy : is_dy U Uy) (HVx : is_dx V Vx) (HVy : is_dy V Vy).
Context (HUxx : is_dx Ux Uxx) (HUxy : is_dy Ux Uxy) (HUyx : is_dx Uy Uyx) (HUyy : is_dy Uy Uyy)
        (HVxx : is_dx Vx Vxx) (HVxy : is_dy Vx Vxy) (HVyx : is_dx Vy Vyx) (HVyy : is_dy Vy Vyy).
Lemma nN_J2 x y : smooth 4 U -> smooth 4 V -> J2 (nN (nvec U V) x y) 0 (sqrt 3 / 4 * (Vx x y - Uy x y)) ((Uyy x y - Uxx x y + 2 * Vxy x y) / 16).
Proof.
  intros SU SV. assert (EV : Vxy x y = Vyx x y) by (apply (schwarz V Vx Vy); auto; sm).
  assert (EU : Uxy x y = Uyx x y) by (apply (schwarz U Ux Uy); auto; sm).
  unfold nN, nvec. jet2' x y; qs.
  - field.
  - s3 (Ux x y). s3 (Uy x y). s3 (Vx x y). s3 (Vy x y). lra.
  - s3 (Uxx x y). s3 (Uxy x y). s3 (Uyx x y). s3 (Uyy x y). s3 (Vxx x y). s3 (Vxy x y). s3 (Vyx x y). s3 (Vyy x y).
    s3 (Vxx x y * sqrt 3). s3 (Vyy x y * sqrt 3). s3 (Vxy x y * sqrt 3). s3 (Vyx x y * sqrt 3).
    s3 (Uxx x y * sqrt 3). s3 (Uyy x y * sqrt 3). s3 (Uxy x y * sqrt 3). s3 (Uyx x y * sqrt 3). lra.
Qed.
Lemma Vo_exp : smooth 4 U -> smooth 4 V -> exists C, 0 <= C /\ forall p x y d, d <> 0 ->
  Rabs (Vo d (nvec U V) p x y - (Vx x y - Uy x y) - sg p * d / (8 * sqrt 3) * (Uyy x y - Uxx x y + 2 * Vxy x y)) <= C * Rabs d ^ 2.
Proof.
  intros SU SV. pose proof S3pos as S3p.
  destruct (T3_J2 (nN (nvec U V)) (fun _ _ => 0) (fun x y => sqrt 3 / 4 * (Vx x y - Uy x y)) (fun x y => (Uyy x y - Uxx x y + 2 * Vxy x y) / 16)) as (C & HC & B).
  { unfold nN, nvec. fams. }
  { intros x y. now apply nN_J2. }
  exists (4 / sqrt 3 * C). split; [apply Rmult_le_pos; [|exact HC]; left; apply Rdiv_lt_0_compat; lra|]. intros p x y d Hd.
  rewrite Vo_nN by assumption. specialize (B x y (sg p * d)). pose proof (sg_ne p) as Hs.
  assert (Hsd : sg p * d <> 0) by (now apply Rmult_integral_contrapositive_currified).
  match type of B with Rabs ?a <= _ => match goal with |- Rabs ?b <= _ => assert (E : b = 4 / sqrt 3 * (a / (sg p * d))) end end.
  { destruct (sg_cases p) as [-> | ->]; field; lra. }
  rewrite E, Rabs_mult, (Rabs_pos_eq (4 / sqrt 3)) by (left; apply Rdiv_lt_0_compat; lra).
  rewrite (Rmult_assoc (4 / sqrt 3) C). apply Rmult_le_compat_l; [left; apply Rdiv_lt_0_compat; lra|].
  unfold Rdiv at 1. rewrite Rabs_mult, Rabs_inv.
  assert (A : Rabs (sg p * d) = Rabs d).
  { rewrite Rabs_mult. destruct (sg_cases p) as [-> | ->]; rewrite ?Rabs_R1, ?Rabs_Ropp, ?Rabs_R1; [ring|]. rewrite Rabs_left by lra. ring. }
  rewrite A in *. pose proof (Rabs_pos_lt d Hd) as Hp.
  apply (Rmult_le_reg_r (Rabs d)); [exact Hp|]. rewrite Rmult_assoc, Rinv_l, Rmult_1_r by lra.
  replace (C * Rabs d ^ 2 * Rabs d) with (C * Rabs d ^ 3) by ring. exact B.
Qed.
End Vec.
