(** Derivatives of elementary expressions. *)
From Coq Require Import Reals Lra.
Open Scope R_scope.

Lemma D_eq f x a b : derivable_pt_lim f x a -> a = b -> derivable_pt_lim f x b.
Proof. now intros H <-. Qed.
Lemma D_ext f g x a : (forall y, f y = g y) -> derivable_pt_lim g x a -> derivable_pt_lim f x a.
Proof. intros E H eps He. destruct (H eps He) as [d Hd]. exists d. intros h H1 H2. rewrite !E. auto. Qed.
Lemma D_const c x : derivable_pt_lim (fun _ => c) x 0. Proof. apply derivable_pt_lim_const. Qed.
Lemma D_id x : derivable_pt_lim (fun y => y) x 1. Proof. apply derivable_pt_lim_id. Qed.
Section D.
Context (f g : R -> R) (x a b : R) (Hf : derivable_pt_lim f x a) (Hg : derivable_pt_lim g x b).
Lemma D_plus : derivable_pt_lim (fun y => f y + g y) x (a + b).
Proof. exact (derivable_pt_lim_plus f g x a b Hf Hg). Qed.
Lemma D_minus : derivable_pt_lim (fun y => f y - g y) x (a - b).
Proof. exact (derivable_pt_lim_minus f g x a b Hf Hg). Qed.
Lemma D_mult : derivable_pt_lim (fun y => f y * g y) x (a * g x + f x * b).
Proof. exact (derivable_pt_lim_mult f g x a b Hf Hg). Qed.
Lemma D_opp : derivable_pt_lim (fun y => - f y) x (- a).
Proof. exact (derivable_pt_lim_opp f x a Hf). Qed.
Lemma D_cmult c : derivable_pt_lim (fun y => c * f y) x (c * a).
Proof. exact (derivable_pt_lim_scal f c x a Hf). Qed.
Lemma D_divc c : derivable_pt_lim (fun y => f y / c) x (a / c).
Proof.
  apply D_ext with (g := fun y => / c * f y); [intros; unfold Rdiv; ring|].
  eapply D_eq; [exact (derivable_pt_lim_scal f (/ c) x a Hf)|]. unfold Rdiv. ring.
Qed.
Lemma D_sin : derivable_pt_lim (fun y => sin (f y)) x (cos (f x) * a).
Proof. exact (derivable_pt_lim_comp f sin x a _ Hf (derivable_pt_lim_sin (f x))). Qed.
Lemma D_cos : derivable_pt_lim (fun y => cos (f y)) x (- sin (f x) * a).
Proof. exact (derivable_pt_lim_comp f cos x a _ Hf (derivable_pt_lim_cos (f x))). Qed.
Lemma D_exp : derivable_pt_lim (fun y => exp (f y)) x (exp (f x) * a).
Proof. exact (derivable_pt_lim_comp f exp x a _ Hf (derivable_pt_lim_exp (f x))). Qed.
End D.

(** Proves [derivable_pt_lim f x ?l], computing the derivative. *)
Ltac der1 :=
  first [apply D_const | apply D_id |
  lazymatch goal with
  | |- derivable_pt_lim (fun y => @?f y + @?g y) _ _ => eapply (D_plus f g)
  | |- derivable_pt_lim (fun y => @?f y - @?g y) _ _ => eapply (D_minus f g)
  | |- derivable_pt_lim (fun y => @?f y * @?g y) _ _ => first [eapply (D_cmult g _ _) | eapply (D_mult f g)]
  | |- derivable_pt_lim (fun y => @?f y / ?c) _ _ => eapply (D_divc f _ _)
  | |- derivable_pt_lim (fun y => - @?f y) _ _ => eapply (D_opp f)
  | |- derivable_pt_lim (fun y => sin (@?f y)) _ _ => eapply (D_sin f)
  | |- derivable_pt_lim (fun y => cos (@?f y)) _ _ => eapply (D_cos f)
  | |- derivable_pt_lim (fun y => exp (@?f y)) _ _ => eapply (D_exp f)
  end].
Ltac der := eapply D_eq; [repeat (cbv beta; der1)|cbv beta].
