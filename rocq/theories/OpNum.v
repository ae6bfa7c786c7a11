(** Errors of the difference operators for the fields of the operator test. *)
From Coq Require Import ZArith Reals List Bool Lia Lra.
From Verif Require Import Arith Hex MeshR Stencil Accur DecayNum.
Open Scope R_scope.

Lemma ss_diff X Y p q : sin (X + p) * sin (Y + q) - sin (X - p) * sin (Y - q) = sin (X + Y) * sin (p + q) - sin (X - Y) * sin (p - q).
Proof.
  unfold Rminus. rewrite !sin_plus, !cos_neg, !sin_neg.
  pose proof (sin2_cos2 p) as E1. pose proof (sin2_cos2 q) as E2. unfold Rsqr in *.
  set (sX := sin X) in *. set (cX := cos X) in *. set (sY := sin Y) in *. set (cY := cos Y) in *.
  set (sp := sin p) in *. set (cp := cos p) in *. set (s := sin q) in *. set (c := cos q) in *. ring.
Qed.
(** The normal component [c sin X cos Y + s cos X sin Y] at opposite points. *)
Definition gn (c s X Y : R) : R := c * (sin X * cos Y) + s * (cos X * sin Y).
Lemma gn_eq c s X Y : gn c s X Y = (c + s) / 2 * sin (X + Y) + (c - s) / 2 * sin (X - Y).
Proof. unfold gn, Rminus. rewrite !sin_plus, cos_neg, sin_neg. field. Qed.
Lemma gn_sum c s X Y p q : gn c s (X + p) (Y + q) + gn c s (X - p) (Y - q) =
  (c + s) * cos (p + q) * sin (X + Y) + (c - s) * cos (p - q) * sin (X - Y).
Proof.
  rewrite !gn_eq. replace (X + p + (Y + q)) with (X + Y + (p + q)) by ring. replace (X - p + (Y - q)) with (X + Y - (p + q)) by ring.
  replace (X + p - (Y + q)) with (X - Y + (p - q)) by ring. replace (X - p - (Y - q)) with (X - Y - (p - q)) by ring.
  generalize (X + Y) (X - Y) (p + q) (p - q). intros t1 t2 a b. unfold Rminus. rewrite !sin_plus, !cos_neg, !sin_neg. field.
Qed.
Lemma gn_diff c s X Y p q : gn c s (X + p) (Y + q) - gn c s (X - p) (Y - q) =
  (c + s) * sin (p + q) * cos (X + Y) + (c - s) * sin (p - q) * cos (X - Y).
Proof.
  rewrite !gn_eq. replace (X + p + (Y + q)) with (X + Y + (p + q)) by ring. replace (X - p + (Y - q)) with (X + Y - (p + q)) by ring.
  replace (X + p - (Y + q)) with (X - Y + (p - q)) by ring. replace (X - p - (Y - q)) with (X - Y - (p - q)) by ring.
  generalize (X + Y) (X - Y) (p + q) (p - q). intros t1 t2 a b. unfold Rminus. rewrite !sin_plus, !cos_neg, !sin_neg. field.
Qed.

Section Ops.
Context (d : R) (ax by_ : R -> R).
Context (Hd : 0 < d).
Context (Hax : forall x s, ax (x + s) = ax x + 2 * PI * s) (Hby : forall y s, by_ (y + s) = by_ y + 4 * PI / sqrt 3 * s).
Let t := 2 * PI * d.
Let s3 := sqrt3_pos.
Let s33 := sqrt3_sq.

Lemma Hax' x s : ax (x - s) = ax x - 2 * PI * s.
Proof. unfold Rminus at 1. rewrite Hax. ring. Qed.
Lemma Hby' y s : by_ (y - s) = by_ y - 4 * PI / sqrt 3 * s.
Proof. unfold Rminus at 1. rewrite Hby. ring. Qed.

Definition tphi : fn2 := fun x y => sin (ax x) * sin (by_ y).
Definition tvx : fn2 := fun x y => sin (ax x) * cos (by_ y).
Definition tvy : fn2 := fun x y => cos (ax x) * sin (by_ y).
Lemma nv q x y : nvec tvx tvy q x y = gn (cq q) (sq q) (ax x) (by_ y).
Proof. reflexivity. Qed.

Definition gal (q : Z) : R := if (q =? 0)%Z then t / 2 else if (q =? 1)%Z then 3 * t / 4 else t / 4.
Definition gbe (q : Z) : R := if (q =? 0)%Z then t / 2 else if (q =? 1)%Z then - (t / 4) else - (3 * t / 4).
Definition gex (q : Z) (x y : R) : R :=
  cq q * (2 * PI * cos (ax x) * sin (by_ y)) + sq q * (4 * PI / sqrt 3 * sin (ax x) * cos (by_ y)).
Lemma sq3 : 4 * PI / sqrt 3 * (d / 2 * (sqrt 3 / 2)) = t / 2.
Proof. unfold t. field. lra. Qed.
Lemma sq3' : sqrt 3 / 2 * (4 * PI / sqrt 3) = 2 * PI.
Proof. field. lra. Qed.
Lemma inv3 : 2 / sqrt 3 = 2 * sqrt 3 / 3.
Proof.
  apply (Rmult_eq_reg_r (sqrt 3)); [|lra]. replace (2 / sqrt 3 * sqrt 3) with 2 by (field; lra).
  replace (2 * sqrt 3 / 3 * sqrt 3) with (2 / 3 * (sqrt 3 * sqrt 3)) by field. rewrite s33. field.
Qed.
Lemma qc q : (0 <= q < 3)%Z -> q = 0%Z \/ q = 1%Z \/ q = 2%Z. Proof. lia. Qed.

Lemma grad_err q x y : (0 <= q < 3)%Z -> (gex q x y - Gr d tphi q x y) * d =
  (gal q - sin (gal q)) * sin (ax x + by_ y) - (gbe q - sin (gbe q)) * sin (ax x - by_ y).
Proof.
  intros Hq. unfold Gr, tphi. rewrite !Hax, !Hby, !Hax', !Hby'. rewrite ss_diff.
  set (X := ax x). set (Y := by_ y).
  assert (EX : cos X * sin Y = (sin (X + Y) - sin (X - Y)) / 2).
  { unfold Rminus. rewrite !sin_plus, cos_neg, sin_neg. field. }
  assert (EY : sin X * cos Y = (sin (X + Y) + sin (X - Y)) / 2).
  { unfold Rminus. rewrite !sin_plus, cos_neg, sin_neg. field. }
  assert (E : gex q x y * d = gal q * sin (X + Y) - gbe q * sin (X - Y)).
  { unfold gex. fold X. fold Y.
    replace (cq q * (2 * PI * cos X * sin Y) + sq q * (4 * PI / sqrt 3 * sin X * cos Y)) with
      (cq q * (2 * PI) * (cos X * sin Y) + sq q * (4 * PI / sqrt 3) * (sin X * cos Y)) by ring. rewrite EX, EY.
    destruct (qc q Hq) as [-> | [-> | ->]]; unfold gal, gbe, cq, sq; cbn [Z.eqb Pos.eqb]; try rewrite sq3'; unfold t; field; lra. }
  replace (2 * PI * (d / 2 * cq q) + 4 * PI / sqrt 3 * (d / 2 * sq q)) with (gal q).
  2:{ destruct (qc q Hq) as [-> | [-> | ->]]; unfold gal, gbe, cq, sq; cbn [Z.eqb Pos.eqb]; unfold t; field; lra. }
  replace (2 * PI * (d / 2 * cq q) - 4 * PI / sqrt 3 * (d / 2 * sq q)) with (gbe q).
  2:{ destruct (qc q Hq) as [-> | [-> | ->]]; unfold gal, gbe, cq, sq; cbn [Z.eqb Pos.eqb]; unfold t; field; lra. }
  rewrite Rmult_minus_distr_r, E. field. lra.
Qed.

Definition w1 : R := (1 + sqrt 3) / 2.
Definition w2 : R := (sqrt 3 - 1) / 2.
Definition sn (z : R) : R := z - sin z.
Definition cs1 (z : R) : R := 1 - cos z.

Lemma div_err x y : 2 * PI * (1 + 2 / sqrt 3) * cos (ax x) * cos (by_ y) - Ou d (nvec tvx tvy) x y =
  4 / (3 * d) * (sn (t / 2) + w1 * sn (3 * t / 4) + w2 * sn (t / 4)) * (cos (ax x) * cos (by_ y)).
Proof.
  unfold Ou, Df. rewrite !nv, !Hax, !Hby, !Hax', !Hby', !gn_diff.
  set (X := ax x). set (Y := by_ y). unfold cq, sq. cbn [Z.eqb Pos.eqb].
  replace (2 * PI * (d / 2 * 1) + 4 * PI / sqrt 3 * (d / 2 * 0)) with (t / 2) by (unfold t; field; lra).
  replace (2 * PI * (d / 2 * 1) - 4 * PI / sqrt 3 * (d / 2 * 0)) with (t / 2) by (unfold t; field; lra).
  rewrite !sq3.
  replace (2 * PI * (d / 2 * (1 / 2)) + t / 2) with (3 * t / 4) by (unfold t; field).
  replace (2 * PI * (d / 2 * (1 / 2)) - t / 2) with (- (t / 4)) by (unfold t; field).
  replace (2 * PI * (d / 2 * - (1 / 2)) + t / 2) with (t / 4) by (unfold t; field).
  replace (2 * PI * (d / 2 * - (1 / 2)) - t / 2) with (- (3 * t / 4)) by (unfold t; field).
  rewrite !sin_neg.
  assert (EX : cos (X + Y) = cos X * cos Y - sin X * sin Y) by apply cos_plus.
  assert (EY : cos (X - Y) = cos X * cos Y + sin X * sin Y) by apply cos_minus.
  rewrite EX, EY. unfold sn, w1, w2.
  replace (2 * PI * (1 + 2 / sqrt 3)) with (4 / (3 * d) * (t / 2 + (1 + sqrt 3) / 2 * (3 * t / 4) + (sqrt 3 - 1) / 2 * (t / 4))).
  2:{ rewrite inv3. unfold t. field. lra. }
  field. lra.
Qed.

Definition cP : R := cs1 (t / 3) + w2 * cs1 (5 * t / 12) - w1 * cs1 (t / 12).
Definition cQ : R := sn (t / 3) - w2 * sn (5 * t / 12) - w1 * sn (t / 12).
Lemma curl_err p x y : (0 <= p < 2)%Z ->
  2 * PI * (-1 + 2 / sqrt 3) * sin (ax x) * sin (by_ y) - Vo d (nvec tvx tvy) p x y =
  4 / (sqrt 3 * d) * sin (ax x) * (sg p * cP * cos (by_ y) + cQ * sin (by_ y)).
Proof.
  intros Hp. unfold Vo. rewrite !nv, !Hax, !Hby, !Hax', !Hby', !gn_eq.
  set (X := ax x). set (Y := by_ y). unfold cq, sq. cbn [Z.eqb Pos.eqb].
  assert (Eg : sg p * sg p = 1 /\ (sg p = 1 \/ sg p = -1)) by (unfold sg; destruct (Z.eqb_spec p 0); lra).
  destruct Eg as [_ Eg]. set (g := sg p) in *. clearbody g.
  replace (4 * PI / sqrt 3 * (g * (d * sqrt 3 / 6))) with (g * (t / 3)) by (unfold t; field; lra).
  replace (4 * PI / sqrt 3 * (g * (d * sqrt 3 / 12))) with (g * (t / 6)) by (unfold t; field; lra).
  replace (2 * PI * (g * (d / 4))) with (g * (t / 4)) by (unfold t; field; lra).
  replace (X + (Y - g * (t / 3))) with (X + (Y + g * - (t / 3))) by ring.
  replace (X - (Y - g * (t / 3))) with (X - Y + g * (t / 3)) by ring.
  replace (X + g * (t / 4) + (Y + g * (t / 6))) with (X + (Y + g * (5 * t / 12))) by field.
  replace (X + g * (t / 4) - (Y + g * (t / 6))) with (X - Y + g * (t / 12)) by field.
  replace (X - g * (t / 4) + (Y + g * (t / 6))) with (X + (Y + g * - (t / 12))) by field.
  replace (X - g * (t / 4) - (Y + g * (t / 6))) with (X - Y + g * - (5 * t / 12)) by field.
  rewrite <- !Rplus_assoc.
  assert (E : forall z u, sin (z + g * u) = sin z * cos u + g * cos z * sin u).
  { intros z u. rewrite sin_plus. destruct Eg as [-> | ->].
    - rewrite !Rmult_1_l. ring.
    - replace (-1 * u) with (- u) by ring. rewrite sin_neg, cos_neg. ring. }
  rewrite !E, !sin_neg, !cos_neg.
  assert (A1 : sin (X + Y) = sin X * cos Y + cos X * sin Y) by apply sin_plus.
  assert (A2 : sin (X - Y) = sin X * cos Y - cos X * sin Y) by apply sin_minus.
  assert (A3 : cos (X + Y) = cos X * cos Y - sin X * sin Y) by apply cos_plus.
  assert (A4 : cos (X - Y) = cos X * cos Y + sin X * sin Y) by apply cos_minus.
  rewrite A1, A2, A3, A4. clear A1 A2 A3 A4 E. unfold cP, cQ, sn, cs1, w1, w2.
  replace (2 * PI * (-1 + 2 / sqrt 3)) with (4 / (sqrt 3 * d) * (t / 3 - (sqrt 3 - 1) / 2 * (5 * t / 12) - (1 + sqrt 3) / 2 * (t / 12))).
  2:{ unfold t. field. lra. }
  destruct Eg as [-> | ->]; field; lra.
Qed.

(** The tangential component. *)
Definition u4 : R := t / 4.
Definition K0 : R := sqrt 3 / 3 * ((1 / 12 + sqrt 3 / 4) * cs1 u4 + (1 / 12 + sqrt 3 / 12) * cs1 (5 * u4) + (sqrt 3 / 6 - 1 / 6) * cs1 (3 * u4)).
Definition Ka : R := sqrt 3 / 3 * ((sqrt 3 / 6 - 1 / 6) * cs1 (2 * u4) - 1 / 6 * cs1 (5 * u4) + (sqrt 3 / 12 - 1 / 12) * cs1 (4 * u4) - 1 / 3 * cs1 u4).
Definition Kb : R := sqrt 3 / 3 * (- (1 / 6 + sqrt 3 / 6) * cs1 (2 * u4) - 1 / 6 * cs1 u4 - (1 / 12 + sqrt 3 / 12) * cs1 (4 * u4) - 1 / 3 * cs1 (3 * u4)).
Lemma t1_sum X Y : - sqrt 3 / 2 * (sin X * cos Y) + 1 / 2 * (cos X * sin Y) = (1 - sqrt 3) / 4 * sin (X + Y) - (1 + sqrt 3) / 4 * sin (X - Y).
Proof. rewrite sin_plus, sin_minus. field. Qed.
Lemma angs (a b : R) : cos (- a) = cos a. Proof. apply cos_neg. Qed.
Ltac cang := repeat match goal with |- context [cos ?a] =>
  first [ lazymatch a with u4 => fail | _ * u4 => fail | ax _ => fail | by_ _ => fail end
        | let e := fresh in
          first [ assert (e : cos a = cos u4) by (f_equal; unfold u4, t; field; lra)
                | assert (e : cos a = cos u4) by (rewrite <- (cos_neg u4); f_equal; unfold u4, t; field; lra)
                | assert (e : cos a = cos (2 * u4)) by (f_equal; unfold u4, t; field; lra)
                | assert (e : cos a = cos (2 * u4)) by (rewrite <- (cos_neg (2 * u4)); f_equal; unfold u4, t; field; lra)
                | assert (e : cos a = cos (3 * u4)) by (f_equal; unfold u4, t; field; lra)
                | assert (e : cos a = cos (3 * u4)) by (rewrite <- (cos_neg (3 * u4)); f_equal; unfold u4, t; field; lra)
                | assert (e : cos a = cos (4 * u4)) by (f_equal; unfold u4, t; field; lra)
                | assert (e : cos a = cos (4 * u4)) by (rewrite <- (cos_neg (4 * u4)); f_equal; unfold u4, t; field; lra)
                | assert (e : cos a = cos (5 * u4)) by (f_equal; unfold u4, t; field; lra)
                | assert (e : cos a = cos (5 * u4)) by (rewrite <- (cos_neg (5 * u4)); f_equal; unfold u4, t; field; lra) ];
          rewrite e; clear e ] end.
Definition Kt1 (q : Z) : R := if (q =? 0)%Z then K0 else if (q =? 1)%Z then Ka else Kb.
Definition Kt2 (q : Z) : R := if (q =? 0)%Z then - K0 else if (q =? 1)%Z then Kb else Ka.
Lemma recon_err q x y : (0 <= q < 3)%Z ->
  tvec tvx tvy q x y - Re d (nvec tvx tvy) q x y = Kt1 q * sin (ax x + by_ y) + Kt2 q * sin (ax x - by_ y).
Proof.
  intros Hq. unfold Re, Rp. cbv zeta. rewrite !nv, !Hax, !Hby, !Hax', !Hby', !gn_sum.
  replace (tvec tvx tvy q x y) with (gn (- sq q) (cq q) (ax x) (by_ y)) by reflexivity. rewrite gn_eq.
  set (S1 := sin (ax x + by_ y)). set (S2 := sin (ax x - by_ y)). clearbody S1 S2.
  destruct (qc q Hq) as [-> | [-> | ->]];
    repeat match goal with |- context [(?a mod 6)%Z] => let v := eval vm_compute in (a mod 6)%Z in change (a mod 6)%Z with v end;
    repeat match goal with |- context [(?a mod 3)%Z] => let v := eval vm_compute in (a mod 3)%Z in change (a mod 3)%Z with v end;
    unfold tw, cq, sq, dirx, diry, Kt1, Kt2, K0, Ka, Kb, cs1; cbn [Z.eqb Pos.eqb orb].
  all: cang.
  all: pose proof s33 as H3; generalize (cos u4) (cos (2 * u4)) (cos (3 * u4)) (cos (4 * u4)) (cos (5 * u4)); intros c1 c2 c3 c4 c5;
    revert H3; generalize (sqrt 3); intros r H3; field [H3].
Qed.
End Ops.
