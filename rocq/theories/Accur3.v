(** Accuracy of the terms of the discrete equations. *)
From Coq Require Import ZArith Reals Lia Lra.
From Verif Require Import Deriv Stencil Taylor Accur Accur2.
Open Scope R_scope.

Ltac three q := assert (q = 0 \/ q = 1 \/ q = 2)%Z as [-> | [-> | ->]] by lia.
Ltac mods := repeat match goal with |- context [(?a mod 6)%Z] => let v := eval vm_compute in (a mod 6)%Z in change (a mod 6)%Z with v end;
    repeat match goal with |- context [(?a mod 3)%Z] => let v := eval vm_compute in (a mod 3)%Z in change (a mod 3)%Z with v end.
Ltac qs' := unfold tw, dirx, diry, cq, sq; cbn [Z.eqb Pos.eqb orb].

(** ** The tangential reconstruction *)
Lemma Rp_even d (G G' : Z -> fn2) q i x y : (forall q x y, G q x y = G' q x y) -> Rp (- d) G q i x y = Rp d G' q i x y.
Proof. intros E. unfold Rp. cbv zeta. rewrite !E. f_equal. rewrite Rplus_comm. unfold Rdiv. f_equal; apply at2; ring. Qed.
Lemma Re_even d (G G' : Z -> fn2) q x y : (forall q x y, G q x y = G' q x y) -> Re (- d) G q x y = Re d G' q x y.
Proof. intros E. unfold Re. now rewrite !(Rp_even d G G' q _ x y E). Qed.
Lemma Re_ext d (G G' : Z -> fn2) q x y : (forall q x y, G q x y = G' q x y) -> Re d G q x y = Re d G' q x y.
Proof. intros E. unfold Re, Rp. cbv zeta. now rewrite !E. Qed.
Lemma Re_lin d (G G' : Z -> fn2) a b q x y : Re d (fun q x y => a * G q x y + b * G' q x y) q x y = a * Re d G q x y + b * Re d G' q x y.
Proof. unfold Re, Rp. cbv zeta. ring. Qed.
Lemma tw_le q i : Rabs (tw q i) <= 1 / 3.
Proof.
  unfold tw. destruct (q =? 0)%Z, (q =? 1)%Z, (i =? 0)%Z, (i =? 1)%Z, (i =? 2)%Z, (i =? 3)%Z;
    first [rewrite Rabs_pos_eq by lra; lra | rewrite Rabs_left by lra; lra].
Qed.
Lemma Re_bound d (G : Z -> fn2) M q x y : (forall q x y, (0 <= q < 3)%Z -> Rabs (G q x y) <= M) -> Rabs (Re d G q x y) <= 4 * M.
Proof.
  intros B. assert (M0 : 0 <= M) by (eapply Rle_trans; [apply Rabs_pos|apply (B 0%Z 0 0); lia]).
  assert (P : forall i, Rabs (Rp d G q i x y) <= 2 / 3 * M).
  { intros i. unfold Rp. cbv zeta. rewrite Rabs_mult.
    replace (2 / 3 * M) with (1 / 3 * (M + M)) by field. apply Rmult_le_compat; auto using Rabs_pos, tw_le.
    eapply Rle_trans; [apply Rabs_triang|]. apply Rplus_le_compat; apply B; apply Z.mod_pos_bound; lia. }
  unfold Re. rewrite Rabs_mult.
  assert (H3 : Rabs (sqrt 3 / 3) <= 1).
  { pose proof S3pos. pose proof S3. rewrite Rabs_pos_eq by lra. nra. }
  replace (4 * M) with (1 * (4 * M)) by ring. apply Rmult_le_compat; auto using Rabs_pos.
  pose proof (P 0%Z). pose proof (P 1%Z). pose proof (P 2%Z). pose proof (P 3%Z). pose proof (P 4%Z).
  repeat (eapply Rle_trans; [apply Rabs_triang|]; match goal with |- Rabs ?a + Rabs ?b <= _ => idtac end;
    match goal with |- Rabs (?a + ?b) + _ <= _ => eapply Rle_trans; [apply Rplus_le_compat_r; apply Rabs_triang|] | _ => idtac end).
  pose proof (Rabs_triang (Rp d G q 0 x y + Rp d G q 1 x y) (Rp d G q 2 x y)).
  pose proof (Rabs_triang (Rp d G q 0 x y) (Rp d G q 1 x y)). lra.
Qed.
(** At step 0 it turns normal into tangential components. *)
Lemma Re_0 (F U V : fn2) q x y : (0 <= q < 3)%Z -> Re 0 (fun q x y => F x y * nvec U V q x y) q x y = F x y * tvec U V q x y.
Proof.
  intros Hq. unfold Re, Rp. cbv zeta.
  assert (E : forall a, x + 0 / 2 * a = x /\ x - 0 / 2 * a = x /\ y + 0 / 2 * a = y /\ y - 0 / 2 * a = y).
  { intros a. repeat split; field. }
  assert (E1 : forall a, x + 0 / 2 * a = x) by (intros; apply E). assert (E2 : forall a, x - 0 / 2 * a = x) by (intros; apply E).
  assert (E3 : forall a, y + 0 / 2 * a = y) by (intros; apply E). assert (E4 : forall a, y - 0 / 2 * a = y) by (intros; apply E).
  rewrite !E1, !E2, !E3, !E4. clear E E1 E2 E3 E4. unfold nvec, tvec. three q; mods; qs';
  s3 (F x y * U x y); s3 (F x y * V x y); lra.
Qed.

Section Terms.
Context (h U V hx hy Ux Uy Vx Vy : fn2).
Context (Hhx : is_dx h hx) (Hhy : is_dy h hy) (HUx : is_dx U Ux) (HUy : is_dy U Uy) (HVx : is_dx V Vx) (HVy : is_dy V Vy).
Context (Sh : smooth 5 h) (SU : smooth 5 U) (SV : smooth 5 V).

Lemma Re_appr q : (0 <= q < 3)%Z -> appr (fun x y d => Re d (nvec U V) q x y) (tvec U V q).
Proof.
  intros Hq.
  apply (appr_ext (fun x y d => Re d (nvec U V) q x y) _ (fun x y => Re 0 (nvec U V) q x y)); [reflexivity| |].
  - intros x y. rewrite (Re_ext 0 _ (fun q x y => (fun _ _ => 1) x y * nvec U V q x y)) by (intros; cbv beta; ring).
    rewrite Re_0 by assumption. ring.
  - apply (appr_even (fun x y d => Re d (nvec U V) q x y)).
    + unfold Re, Rp, nvec. cbv zeta. fams.
    + intros x y s. now apply Re_even.
Qed.

(** *** Mass flux *)
Definition mflux (d : R) (q : Z) (x y : R) : R := Me d h q x y * nvec U V q x y.
Lemma mflux_even d q x y : mflux (- d) q x y = mflux d q x y.
Proof. unfold mflux. now rewrite (Me_even d h h q x y (fun _ _ => eq_refl)). Qed.
Lemma mflux_appr : appr (fun x y d => Ou d (mflux d) x y) (fun x y => hx x y * U x y + h x y * Ux x y + (hy x y * V x y + h x y * Vy x y)).
Proof.
  apply (appr_ext (fun x y d => 2 / 3 * (nOu (mflux d) x y d / d)) _
    (fun x y => 2 / 3 * (3 / 2 * (hx x y * U x y + h x y * Ux x y + (hy x y * V x y + h x y * Vy x y))))).
  - intros. unfold Ou, nOu. field. assumption.
  - intros. field.
  - apply appr_scal, (odd_T3 (fun x y d => nOu (mflux d) x y d)).
    + unfold nOu, Df, mflux, Me, nvec. fams.
    + intros x y s. unfold nOu. rewrite !(Df_odd s (mflux (- s) _) (mflux s _)) by (intros; apply mflux_even). ring.
    + intros x y. unfold nOu, Df, mflux, Me, nvec. jet1 x y. qs.
      s3 (h x y * Ux x y). s3 (h x y * Uy x y). s3 (h x y * Vx x y). s3 (h x y * Vy x y).
      s3 (hx x y * U x y). s3 (hx x y * V x y). s3 (hy x y * U x y). s3 (hy x y * V x y). lra.
Qed.

(** *** Kinetic energy gradient *)
Lemma Ki_even d G x y : Ki (- d) G x y = Ki d G x y.
Proof. unfold Ki. now rewrite !(Sm_even d _ _ _ x y (fun _ _ => eq_refl)). Qed.
Lemma Ke_appr q : (0 <= q < 3)%Z -> appr (fun x y d => Gr d (Ki d (nvec U V)) q x y)
  (fun x y => cq q * (U x y * Ux x y + V x y * Vx x y) + sq q * (U x y * Uy x y + V x y * Vy x y)).
Proof.
  intros Hq. apply (odd_T3 (fun x y d => Df d (Ki d (nvec U V)) q x y)).
  - unfold Df, Ki, Sm, nvec. fams.
  - intros x y s. apply Df_odd. intros. apply Ki_even.
  - intros x y. unfold Df, Ki, Sm, nvec. jet1 x y.
    three q; qs; s3 (U x y * Ux x y); s3 (U x y * Uy x y); s3 (U x y * Vx x y); s3 (U x y * Vy x y);
      s3 (V x y * Ux x y); s3 (V x y * Uy x y); s3 (V x y * Vx x y); s3 (V x y * Vy x y);
      s3 (sqrt 3 * (U x y * Ux x y)); s3 (sqrt 3 * (U x y * Uy x y)); s3 (sqrt 3 * (U x y * Vx x y)); s3 (sqrt 3 * (U x y * Vy x y));
      s3 (sqrt 3 * (V x y * Ux x y)); s3 (sqrt 3 * (V x y * Uy x y)); s3 (sqrt 3 * (V x y * Vx x y)); s3 (sqrt 3 * (V x y * Vy x y)); lra.
Qed.

(** *** Potential vorticity *)
Context (hmin f : R) (Hmin : 0 < hmin) (Hlow : forall x y, hmin <= h x y).
Definition nH : fn3 := fun x y s =>
  (h (x + s / 2) (y - s * (sqrt 3 / 6)) + h x (y + s * (sqrt 3 / 3)) + h (x - s / 2) (y - s * (sqrt 3 / 6))) / 3.
Lemma Hv_nH d p x y : Hv d h p x y = nH x y (sg p * d).
Proof.
  unfold Hv, nH.
  replace (x + sg p * d / 2) with (x + sg p * (d / 2)) by (unfold Rdiv; ring).
  replace (x - sg p * d / 2) with (x - sg p * (d / 2)) by (unfold Rdiv; ring).
  replace (y - sg p * d * (sqrt 3 / 6)) with (y - sg p * (d * sqrt 3 / 6)) by (unfold Rdiv; ring).
  now replace (y + sg p * d * (sqrt 3 / 3)) with (y + sg p * (d * sqrt 3 / 3)) by (unfold Rdiv; ring).
Qed.
Definition sgq (q : Z) : R := sg (pv1 q).
(** The same two quantities at the vertex towards which the edge points, as seen from the edge. *)
Definition eN (q : Z) : fn3 := fun x y s => nN (nvec U V) (x - s * (sgq q * (sqrt 3 / 6 * sq q))) (y + s * (sgq q * (sqrt 3 / 6 * cq q))) s.
Definition eH (q : Z) : fn3 := fun x y s => nH (x - s * (sgq q * (sqrt 3 / 6 * sq q))) (y + s * (sgq q * (sqrt 3 / 6 * cq q))) s.
Definition eM (q : Z) : fn3 := fun x y s => 4 / sqrt 3 * (eN q x y s * eH q x y (- s) - eN q x y (- s) * eH q x y s).
Lemma eH_low q x y s : hmin <= eH q x y s.
Proof.
  unfold eH, nH. match goal with |- _ <= (h ?a ?b + h ?c ?d + h ?e ?g) / 3 => pose proof (Hlow a b); pose proof (Hlow c d); pose proof (Hlow e g) end. lra.
Qed.
Lemma sgq_0 q : sg (pv0 q) = - sgq q.
Proof. unfold sgq, pv0, pv1. destruct (q =? 1)%Z; unfold sg; cbn [Z.eqb]; ring. Qed.
Lemma Mv_eq d q x y : d <> 0 -> let s := sgq q * d in
  Mv d (Pv d f h (nvec U V)) q x y = (eM q x y s / s + f * (eH q x y s + eH q x y (- s))) * / (2 * (eH q x y s * eH q x y (- s))).
Proof.
  intros Hd. cbv zeta. unfold Mv, Pv. rewrite !Vo_nN, !Hv_nH, !sgq_0 by assumption. fold (sgq q).
  assert (E1 : nN (nvec U V) (x - d * sqrt 3 / 6 * sq q) (y + d * sqrt 3 / 6 * cq q) (sgq q * d) = eN q x y (sgq q * d)).
  { unfold eN. pose proof (sg_sq (pv1 q)) as S. fold (sgq q) in S.
    replace (sgq q * d * (sgq q * (sqrt 3 / 6 * sq q))) with ((sgq q * sgq q) * (d * sqrt 3 / 6 * sq q)) by (unfold Rdiv; ring).
    replace (sgq q * d * (sgq q * (sqrt 3 / 6 * cq q))) with ((sgq q * sgq q) * (d * sqrt 3 / 6 * cq q)) by (unfold Rdiv; ring).
    now rewrite S, !Rmult_1_l. }
  assert (E2 : nH (x - d * sqrt 3 / 6 * sq q) (y + d * sqrt 3 / 6 * cq q) (sgq q * d) = eH q x y (sgq q * d)).
  { unfold eH. pose proof (sg_sq (pv1 q)) as S. fold (sgq q) in S.
    replace (sgq q * d * (sgq q * (sqrt 3 / 6 * sq q))) with ((sgq q * sgq q) * (d * sqrt 3 / 6 * sq q)) by (unfold Rdiv; ring).
    replace (sgq q * d * (sgq q * (sqrt 3 / 6 * cq q))) with ((sgq q * sgq q) * (d * sqrt 3 / 6 * cq q)) by (unfold Rdiv; ring).
    now rewrite S, !Rmult_1_l. }
  assert (E3 : nN (nvec U V) (x + d * sqrt 3 / 6 * sq q) (y - d * sqrt 3 / 6 * cq q) (- sgq q * d) = eN q x y (- (sgq q * d))).
  { unfold eN. pose proof (sg_sq (pv1 q)) as S. fold (sgq q) in S.
    replace (x - - (sgq q * d) * (sgq q * (sqrt 3 / 6 * sq q))) with (x + (sgq q * sgq q) * (d * sqrt 3 / 6 * sq q)) by (unfold Rdiv; ring).
    replace (y + - (sgq q * d) * (sgq q * (sqrt 3 / 6 * cq q))) with (y - (sgq q * sgq q) * (d * sqrt 3 / 6 * cq q)) by (unfold Rdiv; ring).
    rewrite S, !Rmult_1_l. f_equal. ring. }
  assert (E4 : nH (x + d * sqrt 3 / 6 * sq q) (y - d * sqrt 3 / 6 * cq q) (- sgq q * d) = eH q x y (- (sgq q * d))).
  { unfold eH. pose proof (sg_sq (pv1 q)) as S. fold (sgq q) in S.
    replace (x - - (sgq q * d) * (sgq q * (sqrt 3 / 6 * sq q))) with (x + (sgq q * sgq q) * (d * sqrt 3 / 6 * sq q)) by (unfold Rdiv; ring).
    replace (y + - (sgq q * d) * (sgq q * (sqrt 3 / 6 * cq q))) with (y - (sgq q * sgq q) * (d * sqrt 3 / 6 * cq q)) by (unfold Rdiv; ring).
    rewrite S, !Rmult_1_l. f_equal. ring. }
  rewrite E1, E2, E3, E4. unfold eM. clear E1 E2 E3 E4.
  pose proof (eH_low q x y (sgq q * d)). pose proof (eH_low q x y (- (sgq q * d))). pose proof S3pos.
  pose proof (sg_ne (pv1 q)) as S. fold (sgq q) in S. field. repeat split; lra.
Qed.
Lemma fam_neg n p : fam n p -> fam n (fun x y s => p x y (- s)).
Proof.
  revert p. induction n; intros p (B & H).
  - split; [|exact I]. destruct B as [M B]. exists M. intros. apply B.
  - destruct H as (q & Hq & Fq). split; [destruct B as [M B]; exists M; intros; apply B|]. exists (fun x y s => - q x y (- s)). split.
    + intros x y s. eapply D_eq; [apply (derivable_pt_lim_comp (fun t => - t) (p x y) s (-1))|].
      * der. ring.
      * apply Hq.
      * ring.
    + now apply fam_opp, IHn.
Qed.
Lemma eN_fam q : fam 4 (eN q). Proof. unfold eN, nN, nvec. fams. Qed.
Lemma eH_fam q : fam 4 (eH q). Proof. unfold eH, nH. fams. Qed.
Definition PV : fn2 := fun x y => (Vx x y - Uy x y + f) / h x y.
Lemma J1_neg p a b : J1 p a b -> J1 (fun s => p (- s)) a (- b).
Proof.
  intros [E H]. split; [now rewrite Ropp_0|]. eapply D_eq; [apply (derivable_pt_lim_comp (fun t => - t) p 0 (-1) b)|ring].
  - der. ring.
  - now rewrite Ropp_0.
Qed.
Lemma J1_eq p a b a' b' : J1 p a b -> a = a' -> b = b' -> J1 p a' b'. Proof. now intros H <- <-. Qed.
Lemma eN_J1 q x y : J1 (eN q x y) 0 (sqrt 3 / 4 * (Vx x y - Uy x y)).
Proof.
  unfold eN, nN, nvec. eapply J1_eq; [repeat (cbv beta; j1 x y)| |]; cbv beta.
  - qs. field.
  - generalize (sgq q * (sqrt 3 / 6 * sq q)) (sgq q * (sqrt 3 / 6 * cq q)). intros a b. qs.
    s3 (Ux x y). s3 (Uy x y). s3 (Vx x y). s3 (Vy x y). lra.
Qed.
Lemma eH_J1 q x y : exists b, J1 (eH q x y) (h x y) b.
Proof.
  unfold eH, nH. eexists. eapply J1_eq; [repeat (cbv beta; j1 x y)| |reflexivity]; cbv beta. field.
Qed.
Lemma eM_appr q : appr (fun x y s => eM q x y s / s) (fun x y => 2 * (h x y * (Vx x y - Uy x y))).
Proof.
  apply (odd_T3 (eM q)).
  - unfold eM. apply fam_scal, fam_minus; (apply fam_mult; [|]); try apply (fam_neg 3); try (apply (fam_le 4); [lia|apply eN_fam]); apply (fam_le 4); try lia; apply eH_fam.
  - intros x y s. unfold eM. rewrite Ropp_involutive. ring.
  - intros x y. pose proof (eN_J1 q x y) as JN. destruct (eH_J1 q x y) as (b & JH). pose proof S3pos.
    eapply J1_D.
    + unfold eM. eapply (J1_mult (fun _ => 4 / sqrt 3)); [apply J1_const|].
      apply (J1_minus (fun s => eN q x y s * eH q x y (- s)) (fun s => eN q x y (- s) * eH q x y s)).
      * apply (J1_mult (eN q x y) (fun s => eH q x y (- s))); [exact JN|exact (J1_neg _ _ _ JH)].
      * apply (J1_mult (fun s => eN q x y (- s)) (eH q x y)); [exact (J1_neg _ _ _ JN)|exact JH].
    + field. lra.
Qed.
Lemma appr_sg (E : fn3) (f' : fn2) q : appr E f' -> appr (fun x y d => E x y (sgq q * d)) f'.
Proof.
  intros (C & HC & B). exists C. split; [exact HC|]. intros x y d Hd. pose proof (sg_ne (pv1 q)) as S. fold (sgq q) in S.
  assert (A : Rabs (sgq q * d) = Rabs d).
  { rewrite Rabs_mult. destruct (sg_cases (pv1 q)) as [E1 | E1]; fold (sgq q) in E1; rewrite E1; rewrite ?Rabs_R1; [ring|]. rewrite Rabs_left by lra. ring. }
  rewrite <- A. apply B. now apply Rmult_integral_contrapositive_currified.
Qed.
Lemma eHH_low q x y s : hmin * hmin <= eH q x y s * eH q x y (- s).
Proof. pose proof (eH_low q x y s). pose proof (eH_low q x y (- s)). apply Rmult_le_compat; lra. Qed.
Lemma eH_0 q x y : eH q x y 0 = h x y. Proof. destruct (eH_J1 q x y) as (b & E & _). exact E. Qed.
Lemma eHi_fam q : fam 4 (fun x y s => / (2 * (eH q x y s * eH q x y (- s)))).
Proof.
  assert (H2 : 0 < hmin * hmin) by (now apply Rmult_lt_0_compat).
  apply (fam_inv 4 _ (2 * (hmin * hmin))).
  - lra.
  - intros. pose proof (eHH_low q x y s). lra.
  - apply fam_scal, fam_mult; [apply eH_fam|apply fam_neg, eH_fam].
Qed.
Lemma eHi_appr q : appr (fun x y s => / (2 * (eH q x y s * eH q x y (- s)))) (fun x y => / (2 * (h x y * h x y))).
Proof.
  apply (appr_ext (fun x y s => / (2 * (eH q x y s * eH q x y (- s)))) _ (fun x y => / (2 * (eH q x y 0 * eH q x y (- 0))))); [reflexivity| |].
  - intros. now rewrite Ropp_0, eH_0.
  - apply (appr_even (fun x y s => / (2 * (eH q x y s * eH q x y (- s))))).
    + apply (fam_le 4); [lia|apply eHi_fam].
    + intros x y s. rewrite Ropp_involutive. f_equal. ring.
Qed.
Lemma b2_of_b3 (p : fn3) : bounded3 p -> bounded2 (fun x y => p x y 0). Proof. intros [M B]. exists M. intros. apply B. Qed.
Lemma b2_mult f1 f2 : bounded2 f1 -> bounded2 f2 -> bounded2 (fun x y => f1 x y * f2 x y).
Proof. intros [M B] [N B']. exists (M * N). intros. rewrite Rabs_mult. apply Rmult_le_compat; auto using Rabs_pos. Qed.
Lemma b2_plus f1 f2 : bounded2 f1 -> bounded2 f2 -> bounded2 (fun x y => f1 x y + f2 x y).
Proof. intros [M B] [N B']. exists (M + N). intros. eapply Rle_trans; [apply Rabs_triang|]. apply Rplus_le_compat; auto. Qed.
Lemma b2_const c : bounded2 (fun _ _ => c). Proof. exists (Rabs c). intros; lra. Qed.
Lemma b2_opp f1 : bounded2 f1 -> bounded2 (fun x y => - f1 x y).
Proof. intros [M B]. exists M. intros. rewrite Rabs_Ropp. apply B. Qed.
Lemma b2_h : bounded2 h. Proof. now apply (smooth_bounded 5). Qed.
Lemma b2_hi : bounded2 (fun x y => / h x y).
Proof. exists (/ hmin). intros x y. specialize (Hlow x y). rewrite Rabs_pos_eq; [apply Rinv_le_contravar; lra|left; apply Rinv_0_lt_compat; lra]. Qed.
Lemma b2_zeta : bounded2 (fun x y => Vx x y - Uy x y).
Proof.
  assert (S1 : smooth 4 Vx) by sm. assert (S2 : smooth 4 Uy) by sm.
  exact (b2_plus Vx _ (smooth_bounded 4 Vx S1) (b2_opp Uy (smooth_bounded 4 Uy S2))).
Qed.
Lemma b2_PV : bounded2 PV.
Proof. apply (b2_mult (fun x y => Vx x y - Uy x y + f)); [apply b2_plus; [apply b2_zeta|apply b2_const]|apply b2_hi]. Qed.
Lemma PV_appr q : appr (fun x y d => Mv d (Pv d f h (nvec U V)) q x y) PV.
Proof.
  assert (A : appr (fun x y s => / (2 * (eH q x y s * eH q x y (- s))) * (eM q x y s / s + f * (eH q x y s + eH q x y (- s))))
    (fun x y => / (2 * (h x y * h x y)) * (2 * (h x y * (Vx x y - Uy x y)) + f * (h x y + h x y)))).
  { apply appr_mult.
    - apply eHi_appr.
    - apply appr_plus; [apply eM_appr|]. apply appr_scal.
      apply (appr_ext (fun x y s => eH q x y s + eH q x y (- s)) _ (fun x y => eH q x y 0 + eH q x y (- 0))); [reflexivity| |].
      + intros. now rewrite Ropp_0, eH_0.
      + apply (appr_even (fun x y s => eH q x y s + eH q x y (- s))).
        * apply fam_plus; [|apply fam_neg]; (apply (fam_le 4); [lia|apply eH_fam]).
        * intros x y s. rewrite Ropp_involutive. ring.
    - apply (fam_bounded 4), eHi_fam.
    - apply b2_plus; apply b2_mult; try apply b2_const.
      + apply b2_mult; [apply b2_h|apply b2_zeta].
      + apply b2_plus; apply b2_h. }
  apply (appr_sg _ _ q) in A. eapply appr_ext; [| |exact A].
  - intros x y d Hd. cbv beta. rewrite Mv_eq by assumption. cbv zeta. ring.
  - intros x y. unfold PV. specialize (Hlow x y). field. lra.
Qed.

(** *** Potential vorticity flux *)
Lemma mflux_bounded : exists M, 0 <= M /\ forall q d x y, (0 <= q < 3)%Z -> Rabs (mflux d q x y) <= M.
Proof.
  destruct (three_C (fun q M => forall d x y, Rabs (mflux d q x y) <= M)) as (M & HM & B).
  - intros q a b H L d x y. specialize (H d x y). lra.
  - intros q Hq. assert (Fm : fam 0 (fun x y d => mflux d q x y)) by (unfold mflux, Me, nvec; fams).
    destruct Fm as [[M B] _]. exists (Rabs M). split; [apply Rabs_pos|]. intros. eapply Rle_trans; [apply B|apply Rle_abs].
  - exists M. split; [exact HM|]. intros; now apply B.
Qed.
Lemma mflux_0 q x y : mflux 0 q x y = h x y * nvec U V q x y.
Proof.
  unfold mflux, Me. replace (x - 0 / 2 * cq q) with x by field. replace (x + 0 / 2 * cq q) with x by field.
  replace (y - 0 / 2 * sq q) with y by field. replace (y + 0 / 2 * sq q) with y by field. field.
Qed.
Lemma Rm_appr q : (0 <= q < 3)%Z -> appr (fun x y d => Re d (mflux d) q x y) (fun x y => h x y * tvec U V q x y).
Proof.
  intros Hq. apply (appr_ext (fun x y d => Re d (mflux d) q x y) _ (fun x y => Re 0 (mflux 0) q x y)); [reflexivity| |].
  - intros x y. rewrite (Re_ext 0 _ _ q x y mflux_0). now apply Re_0.
  - apply (appr_even (fun x y d => Re d (mflux d) q x y)).
    + unfold Re, Rp, mflux, Me, nvec. cbv zeta. fams.
    + intros x y s. apply Re_even. intros. apply mflux_even.
Qed.
Lemma Rm_bounded q : bounded3 (fun x y d => Re d (mflux d) q x y).
Proof. destruct mflux_bounded as (M & HM & B). exists (4 * M). intros. apply Re_bound. intros. now apply B. Qed.
Ltac fami := repeat (cbv beta; first [fam1 | lazymatch goal with |- fam _ (fun x y s => / h (@?X x y s) (@?Y x y s)) =>
    apply (fam_inv _ (fun x y s => h (X x y s) (Y x y s)) hmin Hmin); [intros; apply Hlow|] end]).
Lemma Rq_appr q : (0 <= q < 3)%Z -> appr (fun x y d => Re d (fun q x y => mflux d q x y * PV x y) q x y)
  (fun x y => h x y * PV x y * tvec U V q x y).
Proof.
  intros Hq. apply (appr_ext (fun x y d => Re d (fun q x y => mflux d q x y * PV x y) q x y) _
    (fun x y => Re 0 (fun q x y => mflux 0 q x y * PV x y) q x y)); [reflexivity| |].
  - intros x y. rewrite (Re_ext 0 _ (fun q x y => (fun x y => h x y * PV x y) x y * nvec U V q x y)).
    + now apply (Re_0 (fun x y => h x y * PV x y)).
    + intros. rewrite mflux_0. ring.
  - apply (appr_even (fun x y d => Re d (fun q x y => mflux d q x y * PV x y) q x y)).
    + unfold Re, Rp, mflux, Me, nvec, PV. cbv zeta. unfold Rdiv. fami.
    + intros x y s. apply Re_even. intros. now rewrite mflux_even.
Qed.
Lemma Pf_appr q : (0 <= q < 3)%Z ->
  appr (fun x y d => Pf d f h (nvec U V) q x y) (fun x y => (Vx x y - Uy x y + f) * tvec U V q x y).
Proof.
  intros Hq.
  set (Q := fun (d : R) q x y => Mv d (Pv d f h (nvec U V)) q x y).
  assert (AQ : exists C, 0 <= C /\ forall q, (0 <= q < 3)%Z -> forall x y d, d <> 0 -> Rabs (Q d q x y - PV x y) <= C * Rabs d ^ 2).
  { apply (three_C (fun q C => forall x y d, d <> 0 -> Rabs (Q d q x y - PV x y) <= C * Rabs d ^ 2)).
    - intros q' a b H L x y d Hd. eapply Rle_trans; [now apply H|]. apply Rmult_le_compat_r; [apply pow2_nonneg|exact L].
    - intros q' _. apply PV_appr. }
  assert (A2 : appr (fun x y d => Re d (fun q x y => mflux d q x y * Q d q x y) q x y) (fun x y => h x y * PV x y * tvec U V q x y)).
  { destruct AQ as (C & HC & B). destruct mflux_bounded as (M & HM & BM).
    destruct (Rq_appr q Hq) as (C' & HC' & B'). exists (4 * (M * C) + C').
    split; [apply Rplus_le_le_0_compat; [|assumption]; apply Rmult_le_pos; [lra|]; now apply Rmult_le_pos|]. intros x y d Hd.
    pose proof (Re_bound d (fun q x y => mflux d q x y * (Q d q x y - PV x y)) (M * C * Rabs d ^ 2) q x y) as RB.
    rewrite (Re_ext d _ (fun q x y => 1 * (mflux d q x y * Q d q x y) + -1 * (mflux d q x y * PV x y))) in RB by (intros; ring).
    rewrite Re_lin in RB. specialize (B' x y d Hd).
    set (a := Re d (fun q x y => mflux d q x y * Q d q x y) q x y) in *. set (b := Re d (fun q x y => mflux d q x y * PV x y) q x y) in *.
    replace (a - h x y * PV x y * tvec U V q x y) with ((1 * a + -1 * b) + (b - h x y * PV x y * tvec U V q x y)) by ring.
    eapply Rle_trans; [apply Rabs_triang|].
    replace ((4 * (M * C) + C') * Rabs d ^ 2) with (4 * (M * C * Rabs d ^ 2) + C' * Rabs d ^ 2) by ring.
    apply Rplus_le_compat; [|exact B']. apply RB. intros q' x' y' Hq'. rewrite Rabs_mult, Rmult_assoc.
    apply Rmult_le_compat; auto using Rabs_pos. }
  assert (A1 : appr (fun x y d => Re d (mflux d) q x y * Q d q x y) (fun x y => h x y * tvec U V q x y * PV x y)).
  { apply appr_mult; [now apply Rm_appr| |apply Rm_bounded|apply b2_PV]. apply PV_appr. }
  eapply appr_ext; [| |apply (appr_plus _ _ _ _ (appr_scal (1 / 2) _ _ A1) (appr_scal (1 / 2) _ _ A2))].
  - intros x y d Hd. cbv beta. unfold Pf. fold (Q d). symmetry.
    rewrite (Re_ext d _ (fun q' x' y' => (1 / 2 * Q d q x y) * mflux d q' x' y' + 1 / 2 * (mflux d q' x' y' * Q d q' x' y'))).
    + rewrite Re_lin. ring.
    + intros. fold (Q d q x y). unfold mflux, Q. field.
  - intros x y. cbv beta. unfold PV. specialize (Hlow x y). field. lra.
Qed.

(** *** Tracers *)
Context (r rx ry rxx rxy ryx ryy : fn2) (Hrx : is_dx r rx) (Hry : is_dy r ry) (Hrxx : is_dx rx rxx) (Hrxy : is_dy rx rxy)
  (Hryx : is_dx ry ryx) (Hryy : is_dy ry ryy) (Sr : smooth 5 r).
Context (hxx hxy hyx hyy : fn2) (Hhxx : is_dx hx hxx) (Hhxy : is_dy hx hxy) (Hhyx : is_dx hy hyx) (Hhyy : is_dy hy hyy).
Lemma tadv_appr : appr (fun x y d => Ou d (fun q x y => mflux d q x y * Me d r q x y) x y)
  (fun x y => (hx x y * r x y + h x y * rx x y) * U x y + h x y * r x y * Ux x y
            + ((hy x y * r x y + h x y * ry x y) * V x y + h x y * r x y * Vy x y)).
Proof.
  apply (appr_ext (fun x y d => 2 / 3 * (nOu (fun q x y => mflux d q x y * Me d r q x y) x y d / d)) _
    (fun x y => 2 / 3 * (3 / 2 * ((hx x y * r x y + h x y * rx x y) * U x y + h x y * r x y * Ux x y
            + ((hy x y * r x y + h x y * ry x y) * V x y + h x y * r x y * Vy x y))))).
  - intros. unfold Ou, nOu. field. assumption.
  - intros. field.
  - apply appr_scal, (odd_T3 (fun x y d => nOu (fun q x y => mflux d q x y * Me d r q x y) x y d)).
    + unfold nOu, Df, mflux, Me, nvec. fams.
    + intros x y s. unfold nOu.
      rewrite !(Df_odd s (fun x y => mflux (- s) _ x y * Me (- s) r _ x y) (fun x y => mflux s _ x y * Me s r _ x y))
        by (intros; now rewrite mflux_even, (Me_even s r r _ _ _ (fun _ _ => eq_refl))). ring.
    + intros x y. unfold nOu, Df, mflux, Me, nvec. jet1 x y. qs.
      s3 (r x y * (h x y * Ux x y)). s3 (r x y * (h x y * Uy x y)). s3 (r x y * (h x y * Vx x y)). s3 (r x y * (h x y * Vy x y)).
      s3 (r x y * (hx x y * U x y)). s3 (r x y * (hx x y * V x y)). s3 (r x y * (hy x y * U x y)). s3 (r x y * (hy x y * V x y)).
      s3 (h x y * (rx x y * U x y)). s3 (h x y * (rx x y * V x y)). s3 (h x y * (ry x y * U x y)). s3 (h x y * (ry x y * V x y)). lra.
Qed.
Lemma tdif_appr : appr (fun x y d => Ou d (fun q x y => Me d h q x y * Gr d r q x y) x y)
  (fun x y => hx x y * rx x y + h x y * rxx x y + (hy x y * ry x y + h x y * ryy x y)).
Proof.
  apply (appr_ext (fun x y d => 2 / 3 * (nOu (fun q x y => Me d h q x y * Df d r q x y) x y d / (d * d))) _
    (fun x y => 2 / 3 * (3 / 2 * (hx x y * rx x y + h x y * rxx x y + (hy x y * ry x y + h x y * ryy x y))))).
  - intros. unfold Ou, nOu, Gr, Df. field. assumption.
  - intros. field.
  - apply appr_scal, (even_J2 (fun x y d => nOu (fun q x y => Me d h q x y * Df d r q x y) x y d)).
    + unfold nOu, Df, Me. fams.
    + intros x y s. unfold nOu.
      assert (E : forall q, Df (- s) (fun x y => Me (- s) h q x y * Df (- s) r q x y) q x y = Df s (fun x y => Me s h q x y * Df s r q x y) q x y).
      { intros q. apply Df_odd'. intros. rewrite (Me_even s h h _ _ _ (fun _ _ => eq_refl)), (Df_odd s r r _ _ _ (fun _ _ => eq_refl)). ring. }
      now rewrite !E.
    + intros x y. pose proof (schwarz r rx ry rxy ryx ltac:(sm) Hrx Hry Hrxy Hryx x y).
      unfold nOu, Df, Me. jet2 x y; qs.
      * field.
      * s3 (h x y * rxx x y). s3 (h x y * rxy x y). s3 (h x y * ryx x y). s3 (h x y * ryy x y).
        s3 (hx x y * rx x y). s3 (hx x y * ry x y). s3 (hy x y * rx x y). s3 (hy x y * ry x y). lra.
Qed.
End Terms.
