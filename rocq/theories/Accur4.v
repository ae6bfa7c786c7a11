(** The vector Laplacian: what the viscous term approximates. *)
From Coq Require Import ZArith Reals Lia Lra.
From Verif Require Import Deriv Stencil Taylor Accur Accur2 Accur3.
Open Scope R_scope.

Section Visc.
Context (U V Ux Uy Vx Vy Uxx Uxy Uyx Uyy Vxx Vxy Vyx Vyy : fn2).
Context (HUx : is_dx U Ux) (HUy : is_dy U Uy) (HVx : is_dx V Vx) (HVy : is_dy V Vy).
Context (HUxx : is_dx Ux Uxx) (HUxy : is_dy Ux Uxy) (HUyx : is_dx Uy Uyx) (HUyy : is_dy Uy Uyy)
        (HVxx : is_dx Vx Vxx) (HVxy : is_dy Vx Vxy) (HVyx : is_dx Vy Vyx) (HVyy : is_dy Vy Vyy).
Context (SU : smooth 5 U) (SV : smooth 5 V).

Ltac hints x y :=
  s3 (Uxx x y); s3 (Uxy x y); s3 (Uyx x y); s3 (Uyy x y); s3 (Vxx x y); s3 (Vxy x y); s3 (Vyx x y); s3 (Vyy x y);
  s3 (Vxx x y * sqrt 3); s3 (Vyy x y * sqrt 3); s3 (Vxy x y * sqrt 3); s3 (Vyx x y * sqrt 3);
  s3 (Uxx x y * sqrt 3); s3 (Uyy x y * sqrt 3); s3 (Uxy x y * sqrt 3); s3 (Uyx x y * sqrt 3);
  s3 (Vxx x y * (sqrt 3 * sqrt 3)); s3 (Vyy x y * (sqrt 3 * sqrt 3)); s3 (Vxy x y * (sqrt 3 * sqrt 3)); s3 (Vyx x y * (sqrt 3 * sqrt 3));
  s3 (Uxx x y * (sqrt 3 * sqrt 3)); s3 (Uyy x y * (sqrt 3 * sqrt 3)); s3 (Uxy x y * (sqrt 3 * sqrt 3)); s3 (Uyx x y * (sqrt 3 * sqrt 3)).

Lemma gdiv_appr q : (0 <= q < 3)%Z -> appr (fun x y d => Gr d (Ou d (nvec U V)) q x y)
  (fun x y => cq q * (Uxx x y + Vyx x y) + sq q * (Uxy x y + Vyy x y)).
Proof.
  intros Hq.
  apply (appr_ext (fun x y d => 2 / 3 * (Df d (fun x y => nOu (nvec U V) x y d) q x y / (d * d))) _
    (fun x y => 2 / 3 * (3 / 2 * (cq q * (Uxx x y + Vyx x y) + sq q * (Uxy x y + Vyy x y))))).
  - intros. unfold Gr, Ou, nOu, Df. field. assumption.
  - intros. field.
  - apply appr_scal, (even_J2 (fun x y d => Df d (fun x y => nOu (nvec U V) x y d) q x y)).
    + unfold nOu, Df, nvec. fams.
    + intros x y s. apply Df_odd'. intros. unfold nOu. rewrite !(Df_odd s _ _ _ _ _ (fun _ _ => eq_refl)). ring.
    + intros x y. pose proof (schwarz U Ux Uy Uxy Uyx ltac:(sm) HUx HUy HUxy HUyx x y) as E1.
      pose proof (schwarz V Vx Vy Vxy Vyx ltac:(sm) HVx HVy HVxy HVyx x y) as E2.
      unfold nOu, Df, nvec. jet2 x y; rewrite ?E1, ?E2; three q; qs; hints x y; lra.
Qed.
Definition eW (q : Z) : fn3 := fun x y d =>
  nN (nvec U V) (x - d * (sqrt 3 / 6 * sq q)) (y + d * (sqrt 3 / 6 * cq q)) (sgq q * d) +
  nN (nvec U V) (x + d * (sqrt 3 / 6 * sq q)) (y - d * (sqrt 3 / 6 * cq q)) (- (sgq q * d)).
Lemma rvort_appr q : (0 <= q < 3)%Z -> appr (fun x y d => Rg d (Vo d (nvec U V)) q x y)
  (fun x y => - sq q * (Vxx x y - Uyx x y) + cq q * (Vxy x y - Uyy x y) + sgq q / 4 * (Uyy x y - Uxx x y + 2 * Vxy x y)).
Proof.
  intros Hq.
  apply (appr_ext (fun x y d => 4 * sgq q * (eW q x y d / (d * d))) _
    (fun x y => 4 * sgq q * (sgq q / 4 * (- sq q * (Vxx x y - Uyx x y) + cq q * (Vxy x y - Uyy x y)) + (Uyy x y - Uxx x y + 2 * Vxy x y) / 16))).
  - intros x y d Hd. unfold Rg. rewrite !Vo_nN, sgq_0 by assumption. fold (sgq q). unfold eW.
    replace (d * sqrt 3 / 6 * sq q) with (d * (sqrt 3 / 6 * sq q)) by (unfold Rdiv; ring).
    replace (d * sqrt 3 / 6 * cq q) with (d * (sqrt 3 / 6 * cq q)) by (unfold Rdiv; ring).
    replace (- sgq q * d) with (- (sgq q * d)) by ring. pose proof S3pos. pose proof S3 as S3e.
    generalize (nN (nvec U V) (x - d * (sqrt 3 / 6 * sq q)) (y + d * (sqrt 3 / 6 * cq q)) (sgq q * d)).
    generalize (nN (nvec U V) (x + d * (sqrt 3 / 6 * sq q)) (y - d * (sqrt 3 / 6 * cq q)) (- (sgq q * d))). intros a b.
    transitivity (12 / (sqrt 3 * sqrt 3) * sgq q * ((b + a) / (d * d))); [rewrite S3e; field; lra|].
    assert (Hs : sgq q = 1 \/ sgq q = -1) by apply sg_cases. destruct Hs as [-> | ->]; field; repeat split; lra.
  - intros x y. assert (Hs : sgq q = 1 \/ sgq q = -1) by apply sg_cases. destruct Hs as [-> | ->]; field.
  - apply appr_scal, (even_J2 (eW q)).
    + unfold eW, nN, nvec. fams.
    + intros x y s. unfold eW. rewrite Rplus_comm. f_equal.
      * f_equal; ring.
      * f_equal; ring.
    + intros x y. pose proof (schwarz U Ux Uy Uxy Uyx ltac:(sm) HUx HUy HUxy HUyx x y) as E1.
      pose proof (schwarz V Vx Vy Vxy Vyx ltac:(sm) HVx HVy HVxy HVyx x y) as E2.
      unfold eW, nN, nvec. jet2 x y; rewrite ?E1, ?E2; three q; unfold sgq, pv1, sg; qs; hints x y; lra.
Qed.
Lemma Vl_appr q : (0 <= q < 3)%Z -> appr (fun x y d => Vl d (nvec U V) q x y)
  (fun x y => cq q * (Uxx x y + Uyy x y) + sq q * (Vxx x y + Vyy x y) - sgq q / 4 * (Uyy x y - Uxx x y + 2 * Vxy x y)).
Proof.
  intros Hq. eapply appr_ext; [| |exact (appr_minus _ _ _ _ (gdiv_appr q Hq) (rvort_appr q Hq))].
  - reflexivity.
  - intros x y. pose proof (schwarz U Ux Uy Uxy Uyx ltac:(sm) HUx HUy HUxy HUyx x y) as E1.
    pose proof (schwarz V Vx Vy Vxy Vyx ltac:(sm) HVx HVy HVxy HVyx x y) as E2. cbv beta. rewrite E1, E2. ring.
Qed.
End Visc.
