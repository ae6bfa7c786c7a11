(** Vocabulary of the convergence of tracer diffusion ([PropsHeat.v]). *)
From Coq Require Import ZArith Reals.
From Verif Require Import Deriv Stencil Taylor.
Open Scope R_scope.

(** [D t 0 0] solves the diffusion equation u_t = kappa (u_xx + u_yy) for 0 <= t <= Te.  [D t i j] is its derivative of order
    [i] in x and [j] in y; those up to order five exist and are bounded by [M].  The last line: the Laplacian of the solution
    has the derivative in time that the equation gives it. *)
Definition heat (kappa Te M : R) (D : R -> nat -> nat -> fn2) : Prop :=
  forall t, 0 <= t <= Te ->
  (forall i j, (i + j <= 4)%nat -> is_dx (D t i j) (D t (S i) j) /\ is_dy (D t i j) (D t i (S j))) /\
  (forall i j x y, (i + j <= 5)%nat -> Rabs (D t i j x y) <= M) /\
  forall x y, derivable_pt_lim (fun t => D t 0%nat 0%nat x y) t (kappa * (D t 2%nat 0%nat x y + D t 0%nat 2%nat x y)) /\
    derivable_pt_lim (fun t => D t 2%nat 0%nat x y + D t 0%nat 2%nat x y) t (kappa * (D t 4%nat 0%nat x y + 2 * D t 2%nat 2%nat x y + D t 0%nat 4%nat x y)).
