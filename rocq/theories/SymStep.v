(** One step of a Runge Kutta method applied to a symmetric negative operator does not increase the norm, up to the limit of the
    stability interval.  The square of the norm after the step is a combination of the moments <T^k f, f>; its difference to the
    square before the step, written in the Bernstein basis, has nonnegative coefficients. *)
From Coq Require Import ZArith Reals List Lia Lra Psatz.
From Verif Require Import LinStep LaxAbs.
Open Scope R_scope.

(** Differences of a sequence: the value of t^i (1 - t)^j for the functional with the moments [mu]. *)
Fixpoint bt (mu : nat -> R) (i j : nat) : R := match j with O => mu i | S j => bt mu i j - bt mu (S i) j end.
Lemma bt_shift mu j : forall i, bt (fun k => mu (S k)) i j = bt mu (S i) j.
Proof. induction j; intros i; cbn [bt]; [reflexivity|]. now rewrite !IHj. Qed.
Lemma bt_ext mu mu' j : (forall k, mu k = mu' k) -> forall i, bt mu i j = bt mu' i j.
Proof. intros E. induction j; intros i; cbn [bt]; [apply E|]. now rewrite !IHj. Qed.
Lemma bt_lin a b c mu mu' mu'' j : forall i, bt (fun k => a * mu k + b * mu' k + c * mu'' k) i j = a * bt mu i j + b * bt mu' i j + c * bt mu'' i j.
Proof. induction j; intros i; cbn [bt]; [reflexivity|]. rewrite !IHj. ring. Qed.

Section Sym.
Context {X : Type} (V : X -> Prop) (dot : (X -> R) -> (X -> R) -> R).
Context (dext : forall f f' g, (forall x, V x -> f x = f' x) -> dot f g = dot f' g).
Context (dsym : forall f g, dot f g = dot g f).
Context (dlin : forall a b f f' g, dot (fun x => a * f x + b * f' x) g = a * dot f g + b * dot f' g).
Context (dpos : forall f, 0 <= dot f f).
Context (T : (X -> R) -> X -> R).
Context (Tlin : forall a b f g x, V x -> T (fun x => a * f x + b * g x) x = a * T f x + b * T g x).
Context (Text : forall f g x, (forall x, V x -> f x = g x) -> V x -> T f x = T g x).
Context (Tsym : forall f g, dot (T f) g = dot f (T g)).
Context (Tpos : forall f, 0 <= dot (T f) f) (Tone : forall f, dot (T f) f <= dot f f).

Lemma dext2 f g g' : (forall x, V x -> g x = g' x) -> dot f g = dot f g'.
Proof. intros E. rewrite dsym, (dext g g' f E). apply dsym. Qed.
Lemma Tsq f : dot (T f) (T f) <= dot (T f) f.
Proof.
  pose proof (schwarz_sq (fun f g => dot (T f) g)) as Q. specialize (Q ltac:(intros f0 g; cbv beta; rewrite (dsym (T g)); apply Tsym)).
  specialize (Q ltac:(intros a b f0 f' g; cbv beta; rewrite (dext _ (fun x => a * T f0 x + b * T f' x)) by (intros; now apply Tlin); apply dlin) Tpos f (T f)). cbv beta in Q.
  pose proof (Tone (T f)) as O. pose proof (dpos (T f)) as P. pose proof (Tpos f) as P1.
  destruct (Req_dec (dot (T f) (T f)) 0) as [E | N]; [lra|]. apply (Rmult_le_reg_l (dot (T f) (T f))); [lra|].
  eapply Rle_trans; [exact Q|]. rewrite Rmult_comm. apply Rmult_le_compat_r; assumption.
Qed.
(** ** Moments *)
Definition mu (f : X -> R) (k : nat) : R := dot (xpow T k f) f.
Lemma mom f i : forall j, dot (xpow T i f) (xpow T j f) = mu f (i + j).
Proof.
  intros j. revert i. induction j; intros i; [now rewrite Nat.add_0_r|]. rewrite <- plus_n_Sm. cbn [xpow]. rewrite <- Tsym. change (T (xpow T i f)) with (xpow T (S i) f). apply IHj.
Qed.
Lemma xpow_T k f : xpow T k (T f) = xpow T (S k) f.
Proof. induction k; [reflexivity|]. cbn [xpow]. rewrite IHk. reflexivity. Qed.
Lemma mu_T f k : mu (T f) k = mu f (S (S k)).
Proof. unfold mu at 1. rewrite xpow_T. change (T f) with (xpow T 1 f). rewrite mom. f_equal. lia. Qed.
Definition cmp (f : X -> R) (x : X) : R := 1 * f x + (-1) * T f x.
Lemma xpow_cmp k f x : V x -> xpow T k (cmp f) x = 1 * xpow T k f x + (-1) * xpow T (S k) f x.
Proof.
  revert x. induction k; intros x Hx; [reflexivity|]. cbn [xpow]. rewrite (Text _ (fun x => 1 * xpow T k f x + (-1) * xpow T (S k) f x)) by assumption. rewrite Tlin by exact Hx. reflexivity.
Qed.
Lemma mu_cmp f k : mu (cmp f) k = 1 * mu f k + (-2) * mu f (S k) + 1 * mu f (S (S k)).
Proof.
  unfold mu at 1. rewrite (dext _ _ _ (xpow_cmp k f)), dlin. unfold cmp. rewrite !(dsym _ (fun x => 1 * f x + -1 * T f x)), !dlin.
  rewrite !(dsym f), !(dsym (T f)). change (T f) with (xpow T 1 f). rewrite !mom. fold (mu f k). fold (mu f (S k)).
  replace (k + 1)%nat with (S k) by lia. replace (S k + 1)%nat with (S (S k)) by lia. ring.
Qed.
Lemma mu_small f : 0 <= mu f 0 /\ 0 <= mu f 1 /\ mu f 1 <= mu f 0 /\ mu f 2 <= mu f 1.
Proof.
  unfold mu. cbn [xpow]. repeat split; [apply dpos|apply Tpos|apply Tone|]. rewrite (Tsym (T f) f). apply Tsq.
Qed.
(** The moments are those of a positive functional on [0, 1]. *)
Lemma bt_pos n : forall i j f, (i + j <= n)%nat -> 0 <= bt (mu f) i j.
Proof.
  induction n as [n IH] using lt_wf_ind. intros i j f Hn.
  destruct i as [|[|i]].
  - destruct j as [|[|j]]; cbn [bt]; [apply mu_small|destruct (mu_small f) as (_ & _ & Q & _); lra|].
    pose proof (IH (n - 2)%nat ltac:(lia) 0%nat j (cmp f) ltac:(lia)) as Q. rewrite (bt_ext _ _ j (mu_cmp f)), bt_lin, bt_shift, (bt_shift (fun k => mu f (S k))), (bt_shift (mu f)) in Q. lra.
  - destruct j as [|[|j]]; cbn [bt]; [apply mu_small|destruct (mu_small f) as (_ & _ & _ & Q); lra|].
    pose proof (IH (n - 2)%nat ltac:(lia) 1%nat j (cmp f) ltac:(lia)) as Q. rewrite (bt_ext _ _ j (mu_cmp f)), bt_lin, bt_shift, (bt_shift (fun k => mu f (S k))), (bt_shift (mu f)) in Q. lra.
  - pose proof (IH (n - 2)%nat ltac:(lia) i j (T f) ltac:(lia)) as Q. rewrite (bt_ext _ _ j (mu_T f)), (bt_shift (fun k => mu f (S k))), (bt_shift (mu f)) in Q. exact Q.
Qed.

(** ** A step *)
Definition stp (a1 a2 a3 a4 a5 : R) (f : X -> R) (x : X) : R :=
  f x + a1 * xpow T 1 f x + a2 * xpow T 2 f x + a3 * xpow T 3 f x + a4 * xpow T 4 f x + a5 * xpow T 5 f x.
Lemma stp_sq a1 a2 a3 a4 a5 f : let q k := mu f k in dot (stp a1 a2 a3 a4 a5 f) (stp a1 a2 a3 a4 a5 f) =
  q 0%nat + 2 * a1 * q 1%nat + (2 * a2 + a1 * a1) * q 2%nat + (2 * a3 + 2 * a1 * a2) * q 3%nat + (2 * a4 + 2 * a1 * a3 + a2 * a2) * q 4%nat
  + (2 * a5 + 2 * a1 * a4 + 2 * a2 * a3) * q 5%nat + (2 * a1 * a5 + 2 * a2 * a4 + a3 * a3) * q 6%nat + (2 * a2 * a5 + 2 * a3 * a4) * q 7%nat + (2 * a3 * a5 + a4 * a4) * q 8%nat + 2 * a4 * a5 * q 9%nat + a5 * a5 * q 10%nat.
Proof.
  intros q.
  assert (E : forall x, V x -> stp a1 a2 a3 a4 a5 f x = 1 * (1 * (1 * (1 * (1 * xpow T 0 f x + a1 * xpow T 1 f x) + a2 * xpow T 2 f x) + a3 * xpow T 3 f x) + a4 * xpow T 4 f x) + a5 * xpow T 5 f x)
    by (intros; unfold stp; cbn [xpow]; ring).
  assert (L : forall g, dot (stp a1 a2 a3 a4 a5 f) g = dot (xpow T 0 f) g + a1 * dot (xpow T 1 f) g + a2 * dot (xpow T 2 f) g + a3 * dot (xpow T 3 f) g + a4 * dot (xpow T 4 f) g + a5 * dot (xpow T 5 f) g).
  { intros g. rewrite (dext _ _ g E).
    rewrite (dlin 1 a5 (fun x => 1 * (1 * (1 * (1 * xpow T 0 f x + a1 * xpow T 1 f x) + a2 * xpow T 2 f x) + a3 * xpow T 3 f x) + a4 * xpow T 4 f x) (xpow T 5 f)).
    rewrite (dlin 1 a4 (fun x => 1 * (1 * (1 * xpow T 0 f x + a1 * xpow T 1 f x) + a2 * xpow T 2 f x) + a3 * xpow T 3 f x) (xpow T 4 f)).
    rewrite (dlin 1 a3 (fun x => 1 * (1 * xpow T 0 f x + a1 * xpow T 1 f x) + a2 * xpow T 2 f x) (xpow T 3 f)).
    rewrite (dlin 1 a2 (fun x => 1 * xpow T 0 f x + a1 * xpow T 1 f x) (xpow T 2 f)). rewrite (dlin 1 a1 (xpow T 0 f) (xpow T 1 f)). ring. }
  rewrite L, !(dsym (xpow T _ f) (stp a1 a2 a3 a4 a5 f)), !L, !mom. cbn [Nat.add]. unfold q. ring.
Qed.
(** The difference in the Bernstein basis of degree 10. *)
Definition bc (a1 a2 a3 a4 a5 : R) (i : nat) : R :=
  let q1 := - (2 * a1) in let q2 := - (2 * a2 + a1 * a1) in let q3 := - (2 * a3 + 2 * a1 * a2) in let q4 := - (2 * a4 + 2 * a1 * a3 + a2 * a2) in
  let q5 := - (2 * a5 + 2 * a1 * a4 + 2 * a2 * a3) in let q6 := - (2 * a1 * a5 + 2 * a2 * a4 + a3 * a3) in let q7 := - (2 * a2 * a5 + 2 * a3 * a4) in
  let q8 := - (2 * a3 * a5 + a4 * a4) in let q9 := - (2 * a4 * a5) in let q10 := - (a5 * a5) in
  match i with
  | 1%nat => q1
  | 2%nat => 9 * q1 + q2
  | 3%nat => 36 * q1 + 8 * q2 + q3
  | 4%nat => 84 * q1 + 28 * q2 + 7 * q3 + q4
  | 5%nat => 126 * q1 + 56 * q2 + 21 * q3 + 6 * q4 + q5
  | 6%nat => 126 * q1 + 70 * q2 + 35 * q3 + 15 * q4 + 5 * q5 + q6
  | 7%nat => 84 * q1 + 56 * q2 + 35 * q3 + 20 * q4 + 10 * q5 + 4 * q6 + q7
  | 8%nat => 36 * q1 + 28 * q2 + 21 * q3 + 15 * q4 + 10 * q5 + 6 * q6 + 3 * q7 + q8
  | 9%nat => 9 * q1 + 8 * q2 + 7 * q3 + 6 * q4 + 5 * q5 + 4 * q6 + 3 * q7 + 2 * q8 + q9
  | 10%nat => q1 + q2 + q3 + q4 + q5 + q6 + q7 + q8 + q9 + q10
  | _ => 0 end.
Definition c9 (i : nat) : R := match i with 1%nat | 10%nat => 1 | 2%nat | 9%nat => 9 | 3%nat | 8%nat => 36 | 4%nat | 7%nat => 84 | 5%nat | 6%nat => 126 | _ => 0 end.
Lemma c9_pos i : 0 <= c9 i.
Proof. do 11 (destruct i as [|i]; [cbn [c9]; lra|]). cbn [c9]. lra. Qed.
Lemma stp_strict beta a1 a2 a3 a4 a5 : (forall i, beta * c9 i <= bc a1 a2 a3 a4 a5 i) -> forall f, dot (stp a1 a2 a3 a4 a5 f) (stp a1 a2 a3 a4 a5 f) <= dot f f - beta * dot (T f) f.
Proof.
  intros Hc f. rewrite stp_sq. cbv zeta. change (dot f f) with (mu f 0). change (dot (T f) f) with (mu f 1).
  pose proof (fun i j => bt_pos (i + j) i j f (le_n _)) as B.
  assert (E : mu f 0 - beta * mu f 1 - (mu f 0 + 2 * a1 * mu f 1 + (2 * a2 + a1 * a1) * mu f 2 + (2 * a3 + 2 * a1 * a2) * mu f 3 + (2 * a4 + 2 * a1 * a3 + a2 * a2) * mu f 4
     + (2 * a5 + 2 * a1 * a4 + 2 * a2 * a3) * mu f 5 + (2 * a1 * a5 + 2 * a2 * a4 + a3 * a3) * mu f 6 + (2 * a2 * a5 + 2 * a3 * a4) * mu f 7 + (2 * a3 * a5 + a4 * a4) * mu f 8 + 2 * a4 * a5 * mu f 9 + a5 * a5 * mu f 10)
   = (bc a1 a2 a3 a4 a5 1 - beta * c9 1) * bt (mu f) 1 9 + (bc a1 a2 a3 a4 a5 2 - beta * c9 2) * bt (mu f) 2 8 + (bc a1 a2 a3 a4 a5 3 - beta * c9 3) * bt (mu f) 3 7 + (bc a1 a2 a3 a4 a5 4 - beta * c9 4) * bt (mu f) 4 6 + (bc a1 a2 a3 a4 a5 5 - beta * c9 5) * bt (mu f) 5 5
    + (bc a1 a2 a3 a4 a5 6 - beta * c9 6) * bt (mu f) 6 4 + (bc a1 a2 a3 a4 a5 7 - beta * c9 7) * bt (mu f) 7 3 + (bc a1 a2 a3 a4 a5 8 - beta * c9 8) * bt (mu f) 8 2 + (bc a1 a2 a3 a4 a5 9 - beta * c9 9) * bt (mu f) 9 1 + (bc a1 a2 a3 a4 a5 10 - beta * c9 10) * bt (mu f) 10 0)
    by (cbn [bt bc c9]; ring).
  assert (Z : forall i j, 0 <= (bc a1 a2 a3 a4 a5 i - beta * c9 i) * bt (mu f) i j) by (intros i j; apply Rmult_le_pos; [pose proof (Hc i); lra|apply B]).
  pose proof (Z 1%nat 9%nat). pose proof (Z 2%nat 8%nat). pose proof (Z 3%nat 7%nat). pose proof (Z 4%nat 6%nat). pose proof (Z 5%nat 5%nat). pose proof (Z 6%nat 4%nat). pose proof (Z 7%nat 3%nat).
  pose proof (Z 8%nat 2%nat). pose proof (Z 9%nat 1%nat). pose proof (Z 10%nat 0%nat). lra.
Qed.
Lemma stp_contracts a1 a2 a3 a4 a5 : (forall i, 0 <= bc a1 a2 a3 a4 a5 i) -> forall f, nrm dot (stp a1 a2 a3 a4 a5 f) <= nrm dot f.
Proof.
  intros Hc f. unfold nrm. apply sqrt_le_1; try apply dpos. eapply Rle_trans; [apply (stp_strict 0); intros i; pose proof (Hc i); lra|lra].
Qed.
Lemma T_contracts f : nrm dot (T f) <= nrm dot f.
Proof. unfold nrm. apply sqrt_le_1; try apply dpos. eapply Rle_trans; [apply Tsq|apply Tone]. Qed.
End Sym.

(** ** The methods *)
Lemma bc_euler i : 0 <= bc (-2) 0 0 0 0 i.
Proof. do 11 (destruct i as [|i]; [cbn [bc]; lra|]). cbn [bc]. lra. Qed.
Lemma bc_rk4 i : let z := 278 / 100 in 0 <= bc (- z) (z ^ 2 / 2) (- (z ^ 3 / 6)) (z ^ 4 / 24) 0 i.
Proof. intros z. unfold z. do 11 (destruct i as [|i]; [cbn [bc]; lra|]). cbn [bc]. lra. Qed.
(** The five stage method: coefficients close to 1, 1/2, 1/6, 1/24, 1/200. *)
Lemma near_prod a b A B : Rabs (a - A) <= 1 / 10 ^ 20 -> Rabs (b - B) <= 1 / 10 ^ 20 -> Rabs A <= 20 -> Rabs B <= 20 -> A * B - 1 / 10 ^ 18 <= a * b <= A * B + 1 / 10 ^ 18.
Proof.
  intros Ha Hb HA HB. replace (a * b) with (A * B + ((a - A) * (b - B) + (a - A) * B + A * (b - B))) by ring.
  assert (M : forall x y p q, Rabs x <= p -> Rabs y <= q -> Rabs (x * y) <= p * q) by (intros; rewrite Rabs_mult; apply Rmult_le_compat; auto using Rabs_pos).
  pose proof (M _ _ _ _ Ha Hb) as M1. pose proof (M _ _ _ _ Ha HB) as M2. pose proof (M _ _ _ _ HA Hb) as M3.
  generalize dependent ((a - A) * (b - B)). generalize dependent ((a - A) * B). generalize dependent (A * (b - B)). intros x Hx y Hy z Hz.
  assert (1 / 10 ^ 20 * (1 / 10 ^ 20) <= 1 / 10 ^ 20) by lra. split_Rabs; lra.
Qed.
Lemma bc_lsrk5 (g1 g2 g3 g4 g5 : R) : Rabs (g1 - 1) <= 1 / 10 ^ 25 -> Rabs (g2 - 1 / 2) <= 1 / 10 ^ 25 -> Rabs (g3 - 1 / 6) <= 1 / 10 ^ 25 -> Rabs (g4 - 1 / 24) <= 1 / 10 ^ 25 -> Rabs (g5 - 1 / 200) <= 1 / 10 ^ 25 ->
  forall i, let z := 45 / 10 in 0 <= bc (- z * g1) (z ^ 2 * g2) (- z ^ 3 * g3) (z ^ 4 * g4) (- z ^ 5 * g5) i.
Proof.
  intros H1 H2 H3 H4 H5 i z.
  assert (N : forall c g q, Rabs (g - q) <= 1 / 10 ^ 25 -> Rabs c <= 10000 -> Rabs (c * g - c * q) <= 1 / 10 ^ 20).
  { intros c g q Hg Hc. replace (c * g - c * q) with (c * (g - q)) by ring. rewrite Rabs_mult. apply Rle_trans with (10000 * (1 / 10 ^ 25)); [apply Rmult_le_compat; auto using Rabs_pos|lra]. }
  assert (z1 : Rabs (- z) <= 10000) by (unfold z; rewrite Rabs_left; lra). assert (z2 : Rabs (z ^ 2) <= 10000) by (unfold z; rewrite Rabs_right; lra).
  assert (z3 : Rabs (- z ^ 3) <= 10000) by (unfold z; rewrite Rabs_left; lra). assert (z4 : Rabs (z ^ 4) <= 10000) by (unfold z; rewrite Rabs_right; lra).
  assert (z5 : Rabs (- z ^ 5) <= 10000) by (unfold z; rewrite Rabs_left; lra).
  apply (N _ _ _ H1) in z1. apply (N _ _ _ H2) in z2. apply (N _ _ _ H3) in z3. apply (N _ _ _ H4) in z4. apply (N _ _ _ H5) in z5. clear H1 H2 H3 H4 H5 N.
  set (a1 := - z * g1) in *. set (a2 := z ^ 2 * g2) in *. set (a3 := - z ^ 3 * g3) in *. set (a4 := z ^ 4 * g4) in *. set (a5 := - z ^ 5 * g5) in *. clearbody a1 a2 a3 a4 a5.
  assert (A1 : Rabs (- z * 1) <= 20) by (unfold z; rewrite Rabs_left; lra). assert (A2 : Rabs (z ^ 2 * (1 / 2)) <= 20) by (unfold z; rewrite Rabs_right; lra).
  assert (A3 : Rabs (- z ^ 3 * (1 / 6)) <= 20) by (unfold z; rewrite Rabs_left; lra). assert (A4 : Rabs (z ^ 4 * (1 / 24)) <= 20) by (unfold z; rewrite Rabs_right; lra).
  assert (A5 : Rabs (- z ^ 5 * (1 / 200)) <= 20) by (unfold z; rewrite Rabs_left; lra).
  pose proof (near_prod _ _ _ _ z1 z1 A1 A1) as P11. pose proof (near_prod _ _ _ _ z1 z2 A1 A2) as P12. pose proof (near_prod _ _ _ _ z1 z3 A1 A3) as P13. pose proof (near_prod _ _ _ _ z1 z4 A1 A4) as P14. pose proof (near_prod _ _ _ _ z1 z5 A1 A5) as P15.
  pose proof (near_prod _ _ _ _ z2 z2 A2 A2) as P22. pose proof (near_prod _ _ _ _ z2 z3 A2 A3) as P23. pose proof (near_prod _ _ _ _ z2 z4 A2 A4) as P24. pose proof (near_prod _ _ _ _ z2 z5 A2 A5) as P25.
  pose proof (near_prod _ _ _ _ z3 z3 A3 A3) as P33. pose proof (near_prod _ _ _ _ z3 z4 A3 A4) as P34. pose proof (near_prod _ _ _ _ z3 z5 A3 A5) as P35.
  pose proof (near_prod _ _ _ _ z4 z4 A4 A4) as P44. pose proof (near_prod _ _ _ _ z4 z5 A4 A5) as P45. pose proof (near_prod _ _ _ _ z5 z5 A5 A5) as P55. clear A1 A2 A3 A4 A5.
  assert (Ab : forall x y, Rabs (x - y) <= 1 / 10 ^ 20 -> y - 1 / 10 ^ 20 <= x <= y + 1 / 10 ^ 20) by (intros; split_Rabs; lra).
  apply Ab in z1, z2, z3, z4, z5. clear Ab. unfold z in *. clear z.
  do 11 (destruct i as [|i]; [cbn [bc]; lra|]). cbn [bc]. lra.
Qed.
(** Half way to the limit or less, the norm decreases at a definite rate. *)
Lemma mix_euler i : 4 / 5 * c9 i <= bc (-1) 0 0 0 0 i.
Proof. do 11 (destruct i as [|i]; [cbn [bc c9]; lra|]). cbn [bc c9]. lra. Qed.
Lemma mix_rk4 i : 4 / 5 * c9 i <= bc (- 1) (1 / 2) (- (1 / 6)) (1 / 24) 0 i.
Proof. do 11 (destruct i as [|i]; [cbn [bc c9]; lra|]). cbn [bc c9]. lra. Qed.
Lemma mix_lsrk5 (g1 g2 g3 g4 g5 : R) : Rabs (g1 - 1) <= 1 / 10 ^ 25 -> Rabs (g2 - 1 / 2) <= 1 / 10 ^ 25 -> Rabs (g3 - 1 / 6) <= 1 / 10 ^ 25 -> Rabs (g4 - 1 / 24) <= 1 / 10 ^ 25 -> Rabs (g5 - 1 / 200) <= 1 / 10 ^ 25 ->
  forall i, let z := 1 in 4 / 5 * c9 i <= bc (- z * g1) (z ^ 2 * g2) (- z ^ 3 * g3) (z ^ 4 * g4) (- z ^ 5 * g5) i.
Proof.
  intros H1 H2 H3 H4 H5 i z.
  assert (N : forall c g q, Rabs (g - q) <= 1 / 10 ^ 25 -> Rabs c <= 10000 -> Rabs (c * g - c * q) <= 1 / 10 ^ 20).
  { intros c g q Hg Hc. replace (c * g - c * q) with (c * (g - q)) by ring. rewrite Rabs_mult. apply Rle_trans with (10000 * (1 / 10 ^ 25)); [apply Rmult_le_compat; auto using Rabs_pos|lra]. }
  assert (z1 : Rabs (- z) <= 10000) by (unfold z; rewrite Rabs_left; lra). assert (z2 : Rabs (z ^ 2) <= 10000) by (unfold z; rewrite Rabs_right; lra).
  assert (z3 : Rabs (- z ^ 3) <= 10000) by (unfold z; rewrite Rabs_left; lra). assert (z4 : Rabs (z ^ 4) <= 10000) by (unfold z; rewrite Rabs_right; lra).
  assert (z5 : Rabs (- z ^ 5) <= 10000) by (unfold z; rewrite Rabs_left; lra).
  apply (N _ _ _ H1) in z1. apply (N _ _ _ H2) in z2. apply (N _ _ _ H3) in z3. apply (N _ _ _ H4) in z4. apply (N _ _ _ H5) in z5. clear H1 H2 H3 H4 H5 N.
  set (a1 := - z * g1) in *. set (a2 := z ^ 2 * g2) in *. set (a3 := - z ^ 3 * g3) in *. set (a4 := z ^ 4 * g4) in *. set (a5 := - z ^ 5 * g5) in *. clearbody a1 a2 a3 a4 a5.
  assert (A1 : Rabs (- z * 1) <= 20) by (unfold z; rewrite Rabs_left; lra). assert (A2 : Rabs (z ^ 2 * (1 / 2)) <= 20) by (unfold z; rewrite Rabs_right; lra).
  assert (A3 : Rabs (- z ^ 3 * (1 / 6)) <= 20) by (unfold z; rewrite Rabs_left; lra). assert (A4 : Rabs (z ^ 4 * (1 / 24)) <= 20) by (unfold z; rewrite Rabs_right; lra).
  assert (A5 : Rabs (- z ^ 5 * (1 / 200)) <= 20) by (unfold z; rewrite Rabs_left; lra).
  pose proof (near_prod _ _ _ _ z1 z1 A1 A1) as P11. pose proof (near_prod _ _ _ _ z1 z2 A1 A2) as P12. pose proof (near_prod _ _ _ _ z1 z3 A1 A3) as P13. pose proof (near_prod _ _ _ _ z1 z4 A1 A4) as P14. pose proof (near_prod _ _ _ _ z1 z5 A1 A5) as P15.
  pose proof (near_prod _ _ _ _ z2 z2 A2 A2) as P22. pose proof (near_prod _ _ _ _ z2 z3 A2 A3) as P23. pose proof (near_prod _ _ _ _ z2 z4 A2 A4) as P24. pose proof (near_prod _ _ _ _ z2 z5 A2 A5) as P25.
  pose proof (near_prod _ _ _ _ z3 z3 A3 A3) as P33. pose proof (near_prod _ _ _ _ z3 z4 A3 A4) as P34. pose proof (near_prod _ _ _ _ z3 z5 A3 A5) as P35.
  pose proof (near_prod _ _ _ _ z4 z4 A4 A4) as P44. pose proof (near_prod _ _ _ _ z4 z5 A4 A5) as P45. pose proof (near_prod _ _ _ _ z5 z5 A5 A5) as P55. clear A1 A2 A3 A4 A5.
  assert (Ab : forall x y, Rabs (x - y) <= 1 / 10 ^ 20 -> y - 1 / 10 ^ 20 <= x <= y + 1 / 10 ^ 20) by (intros; split_Rabs; lra).
  apply Ab in z1, z2, z3, z4, z5. clear Ab. unfold z in *. clear z.
  do 11 (destruct i as [|i]; [cbn [bc c9]; lra|]). cbn [bc c9]. lra.
Qed.
