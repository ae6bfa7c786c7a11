(** Functions of one variable applied to a bounded smooth family. *)
From Coq Require Import ZArith Reals Lia Lra.
From Verif Require Import Deriv Stencil Taylor Accur UTaylor.
Open Scope R_scope.

Section U.
Context {J : Type}.
Lemma D_dx (phi phi' : R -> R) (f fx : fn2) : (forall x, derivable_pt_lim phi x (phi' x)) -> is_dx f fx -> is_dx (fun x y => phi (f x y)) (fun x y => phi' (f x y) * fx x y).
Proof. intros P H x y. apply (derivable_pt_lim_comp (fun s => f s y) phi); [apply H|apply P]. Qed.
Lemma D_dy (phi phi' : R -> R) (f fy : fn2) : (forall x, derivable_pt_lim phi x (phi' x)) -> is_dy f fy -> is_dy (fun x y => phi (f x y)) (fun x y => phi' (f x y) * fy x y).
Proof. intros P H x y. apply (derivable_pt_lim_comp (fun s => f x s) phi); [apply H|apply P]. Qed.
Lemma usmooth_trig n (f : J -> fn2) : usmooth n f -> usmooth n (fun i x y => cos (f i x y)) /\ usmooth n (fun i x y => sin (f i x y)).
Proof.
  revert f. induction n; intros f Hf.
  - split; (split; [exists 1; intros|exact I]); apply Rabs_le; [apply COS_bound|apply SIN_bound].
  - pose proof (usmooth_pred _ _ Hf) as Hp. destruct (IHn f Hp) as [Ic Is]. destruct Hf as (B & fx & fy & Hx & Hy & Sx & Sy). split.
    + split; [apply (usmooth_bounded _ _ Ic)|]. exists (fun i x y => - sin (f i x y) * fx i x y), (fun i x y => - sin (f i x y) * fy i x y).
      split; [|split; [|split]].
      * intros i. apply (D_dx cos (fun x => - sin x)); [apply derivable_pt_lim_cos|apply Hx].
      * intros i. apply (D_dy cos (fun x => - sin x)); [apply derivable_pt_lim_cos|apply Hy].
      * apply usmooth_mult; [apply usmooth_opp; exact Is|exact Sx].
      * apply usmooth_mult; [apply usmooth_opp; exact Is|exact Sy].
    + split; [apply (usmooth_bounded _ _ Is)|]. exists (fun i x y => cos (f i x y) * fx i x y), (fun i x y => cos (f i x y) * fy i x y).
      split; [|split; [|split]].
      * intros i. apply (D_dx sin cos); [apply derivable_pt_lim_sin|apply Hx].
      * intros i. apply (D_dy sin cos); [apply derivable_pt_lim_sin|apply Hy].
      * apply usmooth_mult; [exact Ic|exact Sx].
      * apply usmooth_mult; [exact Ic|exact Sy].
Qed.
Lemma usmooth_exp n (f : J -> fn2) : usmooth n f -> usmooth n (fun i x y => exp (f i x y)).
Proof.
  revert f. induction n; intros f Hf.
  - destruct Hf as [[M B] _]. split; [|exact I]. exists (exp M). intros i x y. rewrite Rabs_right by (apply Rle_ge; left; apply exp_pos).
    specialize (B i x y). pose proof (Rle_abs (f i x y)). destruct (Rle_lt_or_eq_dec (f i x y) M) as [L|E]; [lra|left; now apply exp_increasing|rewrite E; lra].
  - pose proof (IHn f (usmooth_pred _ _ Hf)) as Ie. destruct Hf as (B & fx & fy & Hx & Hy & Sx & Sy).
    split; [apply (usmooth_bounded _ _ Ie)|]. exists (fun i x y => exp (f i x y) * fx i x y), (fun i x y => exp (f i x y) * fy i x y).
    split; [|split; [|split]].
    + intros i. apply (D_dx exp exp); [apply derivable_pt_lim_exp|apply Hx].
    + intros i. apply (D_dy exp exp); [apply derivable_pt_lim_exp|apply Hy].
    + apply usmooth_mult; [exact Ie|exact Sx].
    + apply usmooth_mult; [exact Ie|exact Sy].
Qed.
Lemma usmooth_pow n (f : J -> fn2) j : usmooth n f -> usmooth n (fun i x y => f i x y ^ j).
Proof. intros H. induction j; [exact (usmooth_const n (fun _ _ => 1) (smooth_cst n 1))|]. exact (usmooth_mult n _ _ H IHj). Qed.
End U.
Lemma smooth_exp n f : smooth n f -> smooth n (fun x y => exp (f x y)).
Proof. intros H. exact (usmooth_at n _ tt (usmooth_exp (J:=unit) n (fun _ => f) (usmooth_const (J:=unit) n f H))). Qed.
Lemma smooth_mult n f g : smooth n f -> smooth n g -> smooth n (fun x y => f x y * g x y).
Proof. intros H K. exact (usmooth_at n _ tt (usmooth_mult (J:=unit) n (fun _ => f) (fun _ => g) (usmooth_const (J:=unit) n f H) (usmooth_const (J:=unit) n g K))). Qed.
