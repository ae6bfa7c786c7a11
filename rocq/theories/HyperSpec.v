(** Vocabulary of the convergence of tracer hyperdiffusion ([PropsHypd.v]). *)
From Coq Require Import ZArith Reals.
From Verif Require Import Deriv Stencil Taylor.
Open Scope R_scope.

(** [D t 0 0] solves the hyperdiffusion equation u_t = - kappa Lap (Lap u) for 0 <= t <= Te.  [D t i j] is its derivative of order
    [i] in x and [j] in y; those up to order ten exist and are bounded by [M].  The last lines: the squared Laplacian of the
    solution has the derivative in time that the equation gives it. *)
Definition hyper (kappa Te M : R) (D : R -> nat -> nat -> fn2) : Prop :=
  forall t, 0 <= t <= Te ->
  (forall i j, (i + j <= 9)%nat -> is_dx (D t i j) (D t (S i) j) /\ is_dy (D t i j) (D t i (S j))) /\
  (forall i j x y, (i + j <= 10)%nat -> Rabs (D t i j x y) <= M) /\
  forall x y,
    derivable_pt_lim (fun t => D t 0%nat 0%nat x y) t (- kappa * (D t 4%nat 0%nat x y + 2 * D t 2%nat 2%nat x y + D t 0%nat 4%nat x y)) /\
    derivable_pt_lim (fun t => D t 4%nat 0%nat x y + 2 * D t 2%nat 2%nat x y + D t 0%nat 4%nat x y) t
      (- kappa * (D t 8%nat 0%nat x y + 4 * D t 6%nat 2%nat x y + 6 * D t 4%nat 4%nat x y + 4 * D t 2%nat 6%nat x y + D t 0%nat 8%nat x y)).
