(** Vocabulary of the convergence of tracer transport ([PropsConv.v]): the transport equation, the bounds on the data
    that the error depends on, and the constant of the error estimate. *)
From Coq Require Import ZArith Reals.
From Verif Require Import Deriv Stencil Taylor Accur.
Open Scope R_scope.

(** [us 0 t] solves the transport equation u_t + (u U)_x + (u V)_y = 0 for 0 <= t <= Te; [us j t] is its j-th derivative
    in time, [FX] and [FY] are the derivatives of the fluxes. *)
Definition transported (U V : fn2) (us FX FY : nat -> R -> fn2) (Te : R) : Prop :=
  forall j t, (j <= 4)%nat -> 0 <= t <= Te ->
    is_dx (fun x y => us j t x y * U x y) (FX j t) /\ is_dy (fun x y => us j t x y * V x y) (FY j t) /\
    forall x y, us (S j) t x y = - (FX j t x y + FY j t x y) /\ derivable_pt_lim (fun t => us j t x y) t (us (S j) t x y).
(** Bounds: [Cf] on the divergence of the mass flux and [Cr d^2] on the truncation error of the tracer flux divergence,
    both for the hexagonal stencil of spacing [d] around every point; [M] on the solution and its derivatives in time. *)
Definition transport_bounds (d : R) (h U V : fn2) (us : nat -> R -> fn2) (Te Cf Cr M : R) : Prop :=
  0 <= Cf /\ 0 <= Cr /\ 0 <= M /\
  (forall x y, Rabs (Ou d (fun q x y => Me d h q x y * nvec U V q x y) x y) <= Cf) /\
  (forall j t x y, (j <= 4)%nat -> 0 <= t <= Te ->
     Rabs (us (S j) t x y + Ou d (fun q x y => Me d h q x y * nvec U V q x y * Me d (fun x y => us j t x y / h x y) q x y) x y) <= Cr * d ^ 2) /\
  (forall j t x y, (j <= 5)%nat -> 0 <= t <= Te -> Rabs (us j t x y) <= M).
(** The thickness varies by a factor of at most 4 over the distance [d]. *)
Definition mild (d : R) (h : fn2) : Prop := forall x y x' y', (x' - x) ^ 2 + (y' - y) ^ 2 <= d ^ 2 -> h x' y' <= 4 * h x y.
(** The constant of the error estimate. *)
Definition error_const (hmin hmax Te Cf Cr M : R) : R :=
  let g := Cf / (2 * hmin) in let Y := 5 / 2 + (g + 1) * Te in
  let B := 2 * (1 + 2 * Y + 3 * Y ^ 2 + 4 * Y ^ 3 + 5 * Y ^ 4) in
  sqrt (hmax / hmin) * Te * (B * Cr + 2 * M + (1 + Te + Te ^ 2 + Te ^ 3) * M) * exp (1 + Te * B * g).
