(** The tangential reconstruction of the gradient of a plane wave, and the stencils behind it. *)
From Coq Require Import ZArith Reals List Bool Lia Lra.
From Verif Require Import Arith Arrays Prog Conc Launch Mesh AuxVars Tend Model Hex HexComb RSum Spec MeshProof MeshMem MeshFacts MeshR MeshCalc Ready SumParts RealTend Stencil Sample Waves Modes AdvNum.
Import ListNotations.
Open Scope Z_scope.

(** ** Stencils *)
(** The mean over the three cells of a vertex and the three next ones. *)
Definition Xv (d : R) (F : fn2) (p : Z) (x y : R) : R := (5 / 6 * Hv d F p x y + 1 / 6 * Hv (-2 * d) F p x y)%R.
Ltac unify_terms F :=
  repeat match goal with |- context [F ?a ?b] =>
    let v := fresh "v" in set (v := F a b);
    repeat match goal with |- context [F ?a' ?b'] => replace (F a' b') with v by (unfold v; apply at2; lra) end;
    clearbody v end.
Lemma ReGr d F q x y : d <> 0%R -> 0 <= q < 3 -> Re d (Gr d F) q x y = Rg d (Xv d F) q x y.
Proof.
  intros Hd Hq. pose proof sqrt3_sq as S3. pose proof sqrt3_pos as P3. assert (E3 : (d * (sqrt 3 * sqrt 3) = d * 3)%R) by now rewrite S3.
  assert (q = 0 \/ q = 1 \/ q = 2) as [-> | [-> | ->]] by lia; unfold Re, Rp, Rg, Xv, Hv, Gr, tw, pv0, pv1, cq, sq, dirx, diry, sg;
    repeat match goal with |- context [?a mod ?b] => let v := eval vm_compute in (a mod b) in change (a mod b) with v end; cbn [Z.eqb Pos.eqb orb Z.add Pos.add Pos.succ].
  all: unify_terms F.

  all: field_simplify_eq; [|lra].
  all: assert (S32 : (sqrt 3 ^ 2 = 3)%R) by (replace (sqrt 3 ^ 2)%R with (sqrt 3 * sqrt 3)%R by ring; exact S3); rewrite !S32; ring.
Qed.
(** The mean over the six vertices of a cell. *)
Definition Vc (d : R) (W : Z -> fn2) (x y : R) : R :=
  ((W 0%Z (x - d / 2) (y + d * sqrt 3 / 6) + W 1%Z (x - d / 2) (y - d * sqrt 3 / 6) + W 0%Z x (y - d * sqrt 3 / 3)
   + W 1%Z (x + d / 2) (y - d * sqrt 3 / 6) + W 0%Z (x + d / 2) (y + d * sqrt 3 / 6) + W 1%Z x (y + d * sqrt 3 / 3)) / 6)%R.
Lemma VcXv d F x y : d <> 0%R -> Vc d (Xv d F) x y =
  ((30 * F x y + 12 * ((F (x + d) y + F (x - d) y) + (F (x + d / 2) (y + d * (sqrt 3 / 2)) + F (x - d / 2) (y - d * (sqrt 3 / 2))) + (F (x - d / 2) (y + d * (sqrt 3 / 2)) + F (x + d / 2) (y - d * (sqrt 3 / 2))))
    + ((F (x + 3 * d / 2) (y + d * (sqrt 3 / 2)) + F (x - 3 * d / 2) (y - d * (sqrt 3 / 2))) + (F x (y + d * sqrt 3) + F x (y - d * sqrt 3)) + (F (x - 3 * d / 2) (y + d * (sqrt 3 / 2)) + F (x + 3 * d / 2) (y - d * (sqrt 3 / 2))))) / 108)%R.
Proof.
  intros Hd. unfold Vc, Xv, Hv, sg. cbn [Z.eqb]. unify_terms F. field.
Qed.
(** The factor by which a double reconstruction reduces the gradient of a plane wave. *)
Definition mu (d k l : R) : R :=
  ((15 + 12 * (cos (d * k) + cos (d / 2 * k + d * (sqrt 3 / 2) * l) + cos (- (d / 2) * k + d * (sqrt 3 / 2) * l))
    + (cos (3 * d / 2 * k + d * (sqrt 3 / 2) * l) + cos (d * sqrt 3 * l) + cos (- (3 * d / 2) * k + d * (sqrt 3 / 2) * l))) / 54)%R.
Lemma VcXv_wave d A k l p x y : d <> 0%R -> Vc d (Xv d (wave A k l p)) x y = (mu d k l * wave A k l p x y)%R.
Proof.
  intros Hd. rewrite VcXv by exact Hd. set (u := (k * x + l * y + p)%R).
  assert (G : forall s t x1 y1 x2 y2 z, (x1 = x + s -> y1 = y + t -> x2 = x - s -> y2 = y - t -> z = s * k + t * l -> wave A k l p x1 y1 + wave A k l p x2 y2 = 2 * cos z * (A * cos u))%R).
  { intros s t x1 y1 x2 y2 z -> -> -> -> ->. unfold wave. replace (k * (x + s) + l * (y + t) + p)%R with (u + (s * k + t * l))%R by (unfold u; ring). replace (k * (x - s) + l * (y - t) + p)%R with (u - (s * k + t * l))%R by (unfold u; ring).
    rewrite <- Rmult_plus_distr_l, cos_second. ring. }
  rewrite (G d 0%R _ _ _ _ (d * k)%R) by ring. rewrite (G (d / 2) (d * (sqrt 3 / 2)) _ _ _ _ (d / 2 * k + d * (sqrt 3 / 2) * l))%R by ring. rewrite (G (- (d / 2)) (d * (sqrt 3 / 2)) _ _ _ _ (- (d / 2) * k + d * (sqrt 3 / 2) * l))%R by ring.
  rewrite (G (3 * d / 2) (d * (sqrt 3 / 2)) _ _ _ _ (3 * d / 2 * k + d * (sqrt 3 / 2) * l))%R by (unfold Rdiv; ring). rewrite (G 0 (d * sqrt 3) _ _ _ _ (d * sqrt 3 * l))%R by ring. rewrite (G (- (3 * d / 2)) (d * (sqrt 3 / 2)) _ _ _ _ (- (3 * d / 2) * k + d * (sqrt 3 / 2) * l))%R by (unfold Rdiv; ring).
  unfold mu, wave. fold u. field.
Qed.
(** ** Bounds *)
Local Open Scope R_scope.
Lemma cos_1sq x : 1 - x * x / 2 <= cos x.
Proof.
  replace (cos x) with (cos (2 * (x / 2))) by (f_equal; field). rewrite cos_2a_sin. pose proof (proj1 (proj2 (sin_odd_bounds (x / 2)))) as B.
  assert (Q : Rabs (sin (x / 2)) * Rabs (sin (x / 2)) <= Rabs (x / 2) * Rabs (x / 2)) by (apply Rmult_le_compat; auto using Rabs_pos).
  rewrite <- !Rabs_mult, !(Rabs_right (_ * _)) in Q by (apply Rle_ge, Rle_0_sqr). lra.
Qed.
Lemma mu_bounds d k l : let K := k * k + l * l in 0 <= mu d k l <= 1 /\ 1 - 5 / 24 * (d * d * K) <= mu d k l.
Proof.
  intros K. unfold mu.
  set (a := d / 2 * k). set (w := d * (sqrt 3 / 2) * l).
  replace (d * k) with (2 * a) by (unfold a; field). replace (- (d / 2) * k + w) with (w - a) by (unfold a; field).
  replace (3 * d / 2 * k + w) with (w + 3 * a) by (unfold a; field). replace (- (3 * d / 2) * k + w) with (w - 3 * a) by (unfold a; field). replace (d * sqrt 3 * l) with (2 * w) by (unfold w; field).
  replace (a + w) with (w + a) by ring.
  split; [split|].
  - rewrite !cos_plus, !cos_minus. replace (3 * a) with (2 * a + a) by ring. rewrite !cos_plus, !sin_plus, (cos_2a_cos a), (cos_2a_cos w), (sin_2a a).
    pose proof (sin2_cos2 a) as SC. unfold Rsqr in SC. pose proof (COS_bound a) as [A1 A2]. pose proof (COS_bound w) as [W1 W2].
    set (c := cos a) in *. set (s := cos w) in *. set (sa := sin a) in *. set (sw := sin w) in *. clearbody c s sa sw.
    assert (E : sa * sa = 1 - c * c) by lra.
    match goal with |- 0 <= ?G / 54 => replace G with (2 + 24 * (c * c) + 18 * (c * s) + 8 * (c * c * (c * s)) + 2 * (s * s)) end.
    2:{ apply Rminus_diag_uniq. match goal with |- ?G = 0 => replace G with ((sa * sa - (1 - c * c)) * (4 * c * s)) by ring end. rewrite E. ring. }
    assert (Q : forall c s, 0 <= c <= 1 -> 0 <= s <= 1 -> 0 <= 2 + 24 * (c * c) - 18 * (c * s) - 8 * (c * c * (c * s)) + 2 * (s * s)).
    { clear. intros c s C Sx. replace (2 + 24 * (c * c) - 18 * (c * s) - 8 * (c * c * (c * s)) + 2 * (s * s)) with (s * (2 * ((2 * c - 1) * (2 * c - 1)) * (2 - c)) + (1 - s) * (24 * (c * c) + 2 * (1 - s))) by ring.
      pose proof (Rle_0_sqr (2 * c - 1)) as B. pose proof (Rle_0_sqr c) as B2. unfold Rsqr in *. apply Rplus_le_le_0_compat; apply Rmult_le_pos; try lra. apply Rmult_le_pos; lra. }
    apply Rmult_le_pos; [|lra]. destruct (Rle_dec 0 c) as [C|C], (Rle_dec 0 s) as [Sx|Sx].
    + assert (0 <= c * s) by (apply Rmult_le_pos; assumption). pose proof (Rle_0_sqr c). pose proof (Rle_0_sqr s). unfold Rsqr in *. assert (0 <= c * c * (c * s)) by (apply Rmult_le_pos; assumption). lra.
    + pose proof (Q c (- s)) as B. replace (c * - s) with (- (c * s)) in B by ring. replace (- s * - s) with (s * s) in B by ring. lra.
    + pose proof (Q (- c) s) as B. replace (- c * s) with (- (c * s)) in B by ring. replace (- c * - c) with (c * c) in B by ring. lra.
    + assert (0 <= - c * - s) by (apply Rmult_le_pos; lra). pose proof (Rle_0_sqr c). pose proof (Rle_0_sqr s). unfold Rsqr in *. assert (0 <= c * c * (- c * - s)) by (apply Rmult_le_pos; assumption).
      replace (- c * - s) with (c * s) in * by ring. lra.
  - pose proof (COS_bound (2 * a)). pose proof (COS_bound (w + a)). pose proof (COS_bound (w - a)). pose proof (COS_bound (2 * w)). pose proof (COS_bound (w + 3 * a)). pose proof (COS_bound (w - 3 * a)). lra.
  - pose proof (cos_1sq (2 * a)). pose proof (cos_1sq (w + a)). pose proof (cos_1sq (w - a)). pose proof (cos_1sq (2 * w)). pose proof (cos_1sq (w + 3 * a)). pose proof (cos_1sq (w - 3 * a)).
    pose proof (sqrt_sqrt 3 ltac:(lra)) as S3.
    assert (W : w * w = 3 / 4 * (d * d) * (l * l)) by (transitivity (sqrt 3 * sqrt 3 * (d * d) * (l * l) / 4); [unfold w; field|rewrite S3; field]).
    assert (E : a * a = d * d * (k * k) / 4) by (unfold a; field).
    assert (E0 : d * d * K = 4 * (a * a) + 4 / 3 * (w * w)) by (rewrite W, E; unfold K; field). rewrite E0. lra.
Qed.
Lemma mu_top d k l : 0 < d -> lam d k l = 0 -> 48 / 54 <= mu d k l.
Proof.
  intros Hd E. unfold lam in E. unfold mu. assert (Z : cos (d * k) + cos (d / 2 * k + d * (sqrt 3 / 2) * l) + cos (- (d / 2) * k + d * (sqrt 3 / 2) * l) = 3).
  { apply Rmult_integral in E. destruct E as [E|E]; [|lra]. assert (0 < 4 / (3 * (d * d))) by (apply Rdiv_lt_0_compat; [lra|]; assert (0 < d * d) by (now apply Rmult_lt_0_compat); lra). lra. }
  rewrite Z. pose proof (COS_bound (3 * d / 2 * k + d * (sqrt 3 / 2) * l)). pose proof (COS_bound (d * sqrt 3 * l)). pose proof (COS_bound (- (3 * d / 2) * k + d * (sqrt 3 / 2) * l)). lra.
Qed.
