(** Complex numbers as pairs of real numbers, and polynomials of complex numbers and of operators: what is needed to
    say what a time stepper does with a linear equation. *)
From Coq Require Import ZArith Reals List Lra.
From Verif Require Import Driver.
Import ListNotations.
Open Scope R_scope.

Definition cadd (a b : R * R) : R * R := (fst a + fst b, snd a + snd b).
Definition cmul (a b : R * R) : R * R := (fst a * fst b - snd a * snd b, fst a * snd b + snd a * fst b).
Definition cscal (t : R) (a : R * R) : R * R := (t * fst a, t * snd a).
Definition cre (t : R) : R * R := (t, 0).
Definition cnorm2 (a : R * R) : R := fst a * fst a + snd a * snd a.
(** [g0 + g1 z + g2 z^2 + ...] for the list [g0; g1; g2; ...]. *)
Fixpoint cpoly (g : list R) (z : R * R) : R * R := match g with [] => cre 0 | a :: l => cadd (cre a) (cmul z (cpoly l z)) end.
(** [g0 f + g1 (dt T) f + g2 (dt T)^2 f + ...] for an operator [T]. *)
Fixpoint opoly (T : (Z -> R) -> Z -> R) (g : list R) (dt : R) (f : Z -> R) : Z -> R :=
  match g with [] => fun _ => 0 | a :: l => fun c => a * f c + dt * opoly T l dt (T f) c end.
(** What the coefficients [g] of the stability polynomial of a stepper are: those of exp up to degree 4 for RK4, 1 + z for
    LSRK with one stage, up to 1e-25 those of exp up to degree 4 and one of degree 5 for five stages, 1 for the other
    stage counts (for which do_step does nothing). *)
Definition stability_polynomial (st : stepper) (g : list R) : Prop :=
  match st with
  | RK4 => g = [1; 1; 1 / 2; 1 / 6; 1 / 24]
  | LSRK n => (n = 1%Z -> g = [1; 1]) /\ (n <> 1%Z -> n <> 5%Z -> g = [1]) /\
      (n = 5%Z -> exists g1 g2 g3 g4 g5, Rabs (g1 - 1) <= 1 / 10 ^ 25 /\ Rabs (g2 - 1 / 2) <= 1 / 10 ^ 25 /\ Rabs (g3 - 1 / 6) <= 1 / 10 ^ 25 /\
         Rabs (g4 - 1 / 24) <= 1 / 10 ^ 25 /\ 49 / 10000 < g5 < 51 / 10000 /\ g = [1; g1; g2; g3; g4; g5])
  end.
(** exp (i t). *)
Definition cis (t : R) : R * R := (cos t, sin t).

Lemma cpx_eq (a b : R * R) : fst a = fst b -> snd a = snd b -> a = b.
Proof. destruct a, b. cbn. now intros -> ->. Qed.
Ltac cpx := apply cpx_eq; cbn [fst snd cadd cmul cscal cre]; ring.
Lemma cmul_assoc a b c : cmul a (cmul b c) = cmul (cmul a b) c. Proof. cpx. Qed.
Lemma cmul_comm a b : cmul a b = cmul b a. Proof. cpx. Qed.
Lemma cmul_1 a : cmul (cre 1) a = a. Proof. cpx. Qed.
Lemma cnorm2_mul a b : cnorm2 (cmul a b) = cnorm2 a * cnorm2 b.
Proof. unfold cnorm2, cmul. cbn [fst snd]. ring. Qed.
Lemma cnorm2_pos a : 0 <= cnorm2 a.
Proof. unfold cnorm2. pose proof (Rle_0_sqr (fst a)). pose proof (Rle_0_sqr (snd a)). unfold Rsqr in *. lra. Qed.
Lemma cnorm2_cis t : cnorm2 (cis t) = 1.
Proof. unfold cnorm2, cis. cbn [fst snd]. pose proof (sin2_cos2 t) as H. unfold Rsqr in H. lra. Qed.
Lemma cis_add s t : cis (s + t) = cmul (cis s) (cis t).
Proof. apply cpx_eq; unfold cis, cmul; cbn [fst snd]; [apply cos_plus|rewrite sin_plus; ring]. Qed.
Fixpoint cpow (z : R * R) (n : nat) : R * R := match n with O => cre 1 | S n => cmul z (cpow z n) end.
