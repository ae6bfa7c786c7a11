(** Runge-Kutta steps of a linear operator on functions of any index type are polynomials of that operator. *)
From Coq Require Import ZArith Reals List Bool Lia Lra.
From Verif Require Import Arith Arrays Prog Conc Mesh Model Tableau WaveRun Cplx Driver Diffuse.
Import ListNotations.
Open Scope R_scope.

(** [opolyx T [g0; g1; ...] dt f] = g0 f + g1 dt T f + g2 dt^2 T (T f) + ... *)
Fixpoint opolyx {X} (T : (X -> R) -> X -> R) (g : list R) (dt : R) (f : X -> R) : X -> R :=
  match g with [] => fun _ => 0 | a :: l => fun x => a * f x + dt * opolyx T l dt (T f) x end.
Fixpoint xpow {X} (L : (X -> R) -> X -> R) (n : nat) (f : X -> R) : X -> R := match n with O => f | Datatypes.S n => L (xpow L n f) end.

Section LinStep.
Context {X : Type} (V : X -> Prop) (L : (X -> R) -> X -> R).
Context (Lext : forall f g x, (forall x, V x -> f x = g x) -> V x -> L f x = L g x).
Context (Llin : forall a b f g x, V x -> L (fun x => a * f x + b * g x) x = a * L f x + b * L g x).

Lemma xcomb5 phi (a0 a1 a2 a3 a4 : R) f x : V x ->
  (forall x, V x -> f x = a0 * phi x + a1 * xpow L 1 phi x + a2 * xpow L 2 phi x + a3 * xpow L 3 phi x + a4 * xpow L 4 phi x) ->
  L f x = a0 * xpow L 1 phi x + a1 * xpow L 2 phi x + a2 * xpow L 3 phi x + a3 * xpow L 4 phi x + a4 * xpow L 5 phi x.
Proof.
  intros Hx E.
  rewrite (Lext f (fun c => 1 * (fun c => 1 * (fun c => 1 * (fun c => a0 * phi c + a1 * xpow L 1 phi c) c + a2 * xpow L 2 phi c) c + a3 * xpow L 3 phi c) c + a4 * xpow L 4 phi c));
    [|intros c' Hc'; rewrite E by exact Hc'; ring|exact Hx].
  rewrite !(Llin _ _ _ _ x Hx). cbn [xpow]. ring.
Qed.
Lemma xpow_ext n f g x : (forall x, V x -> f x = g x) -> V x -> xpow L n f x = xpow L n g x.
Proof. intros E. revert x. induction n as [|n IH]; intros x Hx; [auto|]. cbn [xpow]. apply Lext; auto. Qed.
Lemma opolyx_ext g dt f f' x : (forall x, V x -> f x = f' x) -> V x -> opolyx L g dt f x = opolyx L g dt f' x.
Proof.
  revert f f' x. induction g as [|a g IH]; intros f f' x E Hx; [reflexivity|]. cbn [opolyx]. rewrite E by exact Hx. do 2 f_equal.
  apply IH; [|exact Hx]. intros. now apply Lext.
Qed.
Lemma opolyx_run g steps f f' : (forall x, V x -> f x = f' x) -> forall x, V x ->
  fold_left (fun f (s : R * R) => opolyx L g (snd s) f) steps f x = fold_left (fun f (s : R * R) => opolyx L g (snd s) f) steps f' x.
Proof.
  revert f f'. induction steps as [|s l IH]; intros f f' E x Hx; [now apply E|]. cbn [fold_left]. apply IH; [|exact Hx]. intros. now apply opolyx_ext.
Qed.
Lemma opolyx6 a0 a1 a2 a3 a4 a5 dt f x :
  opolyx L [a0; a1; a2; a3; a4; a5] dt f x = a0 * f x + a1 * dt * xpow L 1 f x + a2 * dt ^ 2 * xpow L 2 f x + a3 * dt ^ 3 * xpow L 3 f x + a4 * dt ^ 4 * xpow L 4 f x + a5 * dt ^ 5 * xpow L 5 f x.
Proof. cbn [opolyx xpow pow]. ring. Qed.

Lemma rk4_alg dt y k1 k2 k3 k4 :
  (forall x, V x -> k1 x = L y x) ->
  (forall x, V x -> k2 x = L (fun x => y x + dt * rk4_a (A:=RA) 0 * k1 x) x) ->
  (forall x, V x -> k3 x = L (fun x => y x + dt * rk4_a (A:=RA) 1 * k2 x) x) ->
  (forall x, V x -> k4 x = L (fun x => y x + dt * rk4_a (A:=RA) 2 * k3 x) x) ->
  forall x, V x -> y x + dt * rk4_b (A:=RA) 0 * k1 x + dt * rk4_b (A:=RA) 1 * k2 x + dt * rk4_b (A:=RA) 2 * k3 x + dt * rk4_b (A:=RA) 3 * k4 x =
    opolyx L [1; 1; 1 / 2; 1 / 6; 1 / 24] dt y x.
Proof.
  change (rk4_a (A:=RA) 0) with (IZR 1 / IZR 2)%R. change (rk4_a (A:=RA) 1) with (IZR 1 / IZR 2)%R. change (rk4_a (A:=RA) 2) with (IZR 1)%R.
  change (rk4_b (A:=RA) 0) with (IZR 1 / IZR 6)%R. change (rk4_b (A:=RA) 1) with (IZR 1 / IZR 3)%R. change (rk4_b (A:=RA) 2) with (IZR 1 / IZR 3)%R. change (rk4_b (A:=RA) 3) with (IZR 1 / IZR 6)%R.
  cbn [F RA]. intros H1 H2 H3 H4 x Hx.
  assert (E1 : forall x, V x -> k1 x = xpow L 1 y x) by exact H1.
  assert (E2 : forall x, V x -> k2 x = 1 * xpow L 1 y x + dt / 2 * xpow L 2 y x + 0 * xpow L 3 y x + 0 * xpow L 4 y x + 0 * xpow L 5 y x).
  { intros z Hz. rewrite H2 by exact Hz. apply xcomb5; [exact Hz|]. intros w Hw. rewrite E1 by exact Hw. field. }
  assert (E3 : forall x, V x -> k3 x = 1 * xpow L 1 y x + dt / 2 * xpow L 2 y x + dt ^ 2 / 4 * xpow L 3 y x + 0 * xpow L 4 y x + 0 * xpow L 5 y x).
  { intros z Hz. rewrite H3 by exact Hz. apply xcomb5; [exact Hz|]. intros w Hw. rewrite E2 by exact Hw. field. }
  assert (E4 : forall x, V x -> k4 x = 1 * xpow L 1 y x + dt * xpow L 2 y x + dt ^ 2 / 2 * xpow L 3 y x + dt ^ 3 / 4 * xpow L 4 y x + 0 * xpow L 5 y x).
  { intros z Hz. rewrite H4 by exact Hz. apply xcomb5; [exact Hz|]. intros w Hw. rewrite E3 by exact Hw. field. }
  rewrite E1, E2, E3, E4 by exact Hx. cbn [opolyx xpow]. field.
Qed.

Lemma lsrk5_alg dt (a b : Z -> R) (y : X -> R) (Y Q : Z -> X -> R) :
  (forall x, V x -> Y 0%Z x = y x) ->
  (forall x, V x -> Q 1%Z x = L (Y 0%Z) x /\ Y 1%Z x = Y 0%Z x + dt * b 0%Z * Q 1%Z x) ->
  (forall x, V x -> Q 2%Z x = a 1%Z * Q 1%Z x + L (Y 1%Z) x /\ Y 2%Z x = Y 1%Z x + dt * b 1%Z * Q 2%Z x) ->
  (forall x, V x -> Q 3%Z x = a 2%Z * Q 2%Z x + L (Y 2%Z) x /\ Y 3%Z x = Y 2%Z x + dt * b 2%Z * Q 3%Z x) ->
  (forall x, V x -> Q 4%Z x = a 3%Z * Q 3%Z x + L (Y 3%Z) x /\ Y 4%Z x = Y 3%Z x + dt * b 3%Z * Q 4%Z x) ->
  (forall x, V x -> Q 5%Z x = a 4%Z * Q 4%Z x + L (Y 4%Z) x /\ Y 5%Z x = Y 4%Z x + dt * b 4%Z * Q 5%Z x) ->
  forall c, V c -> Y 5%Z c = opolyx L [1; s5 (tabA a b 5%Z); s5 (fun i => tabA a b 5%Z i * s5 (tabA a b i)); s5 (fun i => tabA a b 5%Z i * s5 (fun j => tabA a b i j * s5 (tabA a b j)));
    s5 (fun i => tabA a b 5%Z i * s5 (fun j => tabA a b i j * s5 (fun l => tabA a b j l * s5 (tabA a b l)))); b 0%Z * b 1%Z * b 2%Z * b 3%Z * b 4%Z] dt y c.
Proof.
  intros EY0 E1 E2 E3 E4 E5 c Hc. rewrite opolyx6. set (phi := y) in *.
  pose (q11 := (1)%R).
  pose (y11 := (b 0%Z * q11)%R).
  assert (FQ1 : forall c, V c -> Q 1%Z c = (q11 * dt ^ 0 * xpow L 1 phi c)%R).
  { intros c' Hc'. rewrite (proj1 (E1 c' Hc')). rewrite (xcomb5 phi 1 0%R 0%R 0%R 0%R (Y 0%Z) c' Hc').
    -  unfold q11. ring.
    - intros c0 Hc0. rewrite EY0 by assumption. ring. }
  assert (FY1 : forall c, V c -> Y 1%Z c = (phi c + y11 * dt ^ 1 * xpow L 1 phi c)%R).
  { intros c' Hc'. rewrite (proj2 (E1 c' Hc')), FQ1 by exact Hc'. rewrite EY0 by assumption. unfold y11. ring. }
  pose (q21 := (a 1%Z * q11 + 1)%R).
  pose (q22 := (y11)%R).
  pose (y21 := (y11 + b 1%Z * q21)%R).
  pose (y22 := (b 1%Z * q22)%R).
  assert (FQ2 : forall c, V c -> Q 2%Z c = (q21 * dt ^ 0 * xpow L 1 phi c + q22 * dt ^ 1 * xpow L 2 phi c)%R).
  { intros c' Hc'. rewrite (proj1 (E2 c' Hc')). rewrite (xcomb5 phi 1 (y11 * dt ^ 1)%R 0%R 0%R 0%R (Y 1%Z) c' Hc').
    - rewrite FQ1 by exact Hc'. unfold q21, q22. ring.
    - intros c0 Hc0. rewrite FY1 by exact Hc0. ring. }
  assert (FY2 : forall c, V c -> Y 2%Z c = (phi c + y21 * dt ^ 1 * xpow L 1 phi c + y22 * dt ^ 2 * xpow L 2 phi c)%R).
  { intros c' Hc'. rewrite (proj2 (E2 c' Hc')), FQ2 by exact Hc'. rewrite FY1 by exact Hc'. unfold y21, y22. ring. }
  pose (q31 := (a 2%Z * q21 + 1)%R).
  pose (q32 := (a 2%Z * q22 + y21)%R).
  pose (q33 := (y22)%R).
  pose (y31 := (y21 + b 2%Z * q31)%R).
  pose (y32 := (y22 + b 2%Z * q32)%R).
  pose (y33 := (b 2%Z * q33)%R).
  assert (FQ3 : forall c, V c -> Q 3%Z c = (q31 * dt ^ 0 * xpow L 1 phi c + q32 * dt ^ 1 * xpow L 2 phi c + q33 * dt ^ 2 * xpow L 3 phi c)%R).
  { intros c' Hc'. rewrite (proj1 (E3 c' Hc')). rewrite (xcomb5 phi 1 (y21 * dt ^ 1)%R (y22 * dt ^ 2)%R 0%R 0%R (Y 2%Z) c' Hc').
    - rewrite FQ2 by exact Hc'. unfold q31, q32, q33. ring.
    - intros c0 Hc0. rewrite FY2 by exact Hc0. ring. }
  assert (FY3 : forall c, V c -> Y 3%Z c = (phi c + y31 * dt ^ 1 * xpow L 1 phi c + y32 * dt ^ 2 * xpow L 2 phi c + y33 * dt ^ 3 * xpow L 3 phi c)%R).
  { intros c' Hc'. rewrite (proj2 (E3 c' Hc')), FQ3 by exact Hc'. rewrite FY2 by exact Hc'. unfold y31, y32, y33. ring. }
  pose (q41 := (a 3%Z * q31 + 1)%R).
  pose (q42 := (a 3%Z * q32 + y31)%R).
  pose (q43 := (a 3%Z * q33 + y32)%R).
  pose (q44 := (y33)%R).
  pose (y41 := (y31 + b 3%Z * q41)%R).
  pose (y42 := (y32 + b 3%Z * q42)%R).
  pose (y43 := (y33 + b 3%Z * q43)%R).
  pose (y44 := (b 3%Z * q44)%R).
  assert (FQ4 : forall c, V c -> Q 4%Z c = (q41 * dt ^ 0 * xpow L 1 phi c + q42 * dt ^ 1 * xpow L 2 phi c + q43 * dt ^ 2 * xpow L 3 phi c + q44 * dt ^ 3 * xpow L 4 phi c)%R).
  { intros c' Hc'. rewrite (proj1 (E4 c' Hc')). rewrite (xcomb5 phi 1 (y31 * dt ^ 1)%R (y32 * dt ^ 2)%R (y33 * dt ^ 3)%R 0%R (Y 3%Z) c' Hc').
    - rewrite FQ3 by exact Hc'. unfold q41, q42, q43, q44. ring.
    - intros c0 Hc0. rewrite FY3 by exact Hc0. ring. }
  assert (FY4 : forall c, V c -> Y 4%Z c = (phi c + y41 * dt ^ 1 * xpow L 1 phi c + y42 * dt ^ 2 * xpow L 2 phi c + y43 * dt ^ 3 * xpow L 3 phi c + y44 * dt ^ 4 * xpow L 4 phi c)%R).
  { intros c' Hc'. rewrite (proj2 (E4 c' Hc')), FQ4 by exact Hc'. rewrite FY3 by exact Hc'. unfold y41, y42, y43, y44. ring. }
  pose (q51 := (a 4%Z * q41 + 1)%R).
  pose (q52 := (a 4%Z * q42 + y41)%R).
  pose (q53 := (a 4%Z * q43 + y42)%R).
  pose (q54 := (a 4%Z * q44 + y43)%R).
  pose (q55 := (y44)%R).
  pose (y51 := (y41 + b 4%Z * q51)%R).
  pose (y52 := (y42 + b 4%Z * q52)%R).
  pose (y53 := (y43 + b 4%Z * q53)%R).
  pose (y54 := (y44 + b 4%Z * q54)%R).
  pose (y55 := (b 4%Z * q55)%R).
  assert (FQ5 : forall c, V c -> Q 5%Z c = (q51 * dt ^ 0 * xpow L 1 phi c + q52 * dt ^ 1 * xpow L 2 phi c + q53 * dt ^ 2 * xpow L 3 phi c + q54 * dt ^ 3 * xpow L 4 phi c + q55 * dt ^ 4 * xpow L 5 phi c)%R).
  { intros c' Hc'. rewrite (proj1 (E5 c' Hc')). rewrite (xcomb5 phi 1 (y41 * dt ^ 1)%R (y42 * dt ^ 2)%R (y43 * dt ^ 3)%R (y44 * dt ^ 4)%R (Y 4%Z) c' Hc').
    - rewrite FQ4 by exact Hc'. unfold q51, q52, q53, q54, q55. ring.
    - intros c0 Hc0. rewrite FY4 by exact Hc0. ring. }
  assert (FY5 : forall c, V c -> Y 5%Z c = (phi c + y51 * dt ^ 1 * xpow L 1 phi c + y52 * dt ^ 2 * xpow L 2 phi c + y53 * dt ^ 3 * xpow L 3 phi c + y54 * dt ^ 4 * xpow L 4 phi c + y55 * dt ^ 5 * xpow L 5 phi c)%R).
  { intros c' Hc'. rewrite (proj2 (E5 c' Hc')), FQ5 by exact Hc'. rewrite FY4 by exact Hc'. unfold y51, y52, y53, y54, y55. ring. }
  rewrite FY5 by exact Hc. clear.
  assert (C1 : y51 = (s5 (tabA a b 5%Z))%R) by (cbv [q11  q21  q22  q31  q32  q33  q41  q42  q43  q44  q51  q52  q53  q54  q55  y11  y21  y22  y31  y32  y33  y41  y42  y43  y44  y51  y52  y53  y54  y55   s5 tabA Z.leb Z.compare Pos.compare Pos.compare_cont]; ring).
  assert (C2 : y52 = (s5 (fun i => tabA a b 5%Z i * s5 (tabA a b i)))%R) by (cbv [q11  q21  q22  q31  q32  q33  q41  q42  q43  q44  q51  q52  q53  q54  q55  y11  y21  y22  y31  y32  y33  y41  y42  y43  y44  y51  y52  y53  y54  y55   s5 tabA Z.leb Z.compare Pos.compare Pos.compare_cont]; ring).
  assert (C3 : y53 = (s5 (fun i => tabA a b 5%Z i * s5 (fun j => tabA a b i j * s5 (tabA a b j))))%R) by (cbv [q11  q21  q22  q31  q32  q33  q41  q42  q43  q44  q51  q52  q53  q54  q55  y11  y21  y22  y31  y32  y33  y41  y42  y43  y44  y51  y52  y53  y54  y55   s5 tabA Z.leb Z.compare Pos.compare Pos.compare_cont]; ring).
  assert (C4 : y54 = (s5 (fun i => tabA a b 5%Z i * s5 (fun j => tabA a b i j * s5 (fun l => tabA a b j l * s5 (tabA a b l)))))%R) by (cbv [q11  q21  q22  q31  q32  q33  q41  q42  q43  q44  q51  q52  q53  q54  q55  y11  y21  y22  y31  y32  y33  y41  y42  y43  y44  y51  y52  y53  y54  y55   s5 tabA Z.leb Z.compare Pos.compare Pos.compare_cont]; ring).
  assert (C5 : y55 = (b 0%Z * b 1%Z * b 2%Z * b 3%Z * b 4%Z)%R) by (cbv [q11  q21  q22  q31  q32  q33  q41  q42  q43  q44  q51  q52  q53  q54  q55  y11  y21  y22  y31  y32  y33  y41  y42  y43  y44  y51  y52  y53  y54  y55   s5 tabA Z.leb Z.compare Pos.compare Pos.compare_cont]; ring).
  rewrite C1, C2, C3, C4, C5. ring.
Qed.

End LinStep.
