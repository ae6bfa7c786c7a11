(** How large the errors of the operator test are. *)
From Coq Require Import ZArith Reals List Bool Lia Lra.
From Verif Require Import Arith Hex MeshR Stencil Accur DecayNum OpNum.
Open Scope R_scope.

Lemma sn_bounds z : 0 <= z -> z * z * z / 6 * (1 - z * z / 20) <= sn z <= z * z * z / 6.
Proof. intros Hz. unfold sn. pose proof (sin3 z Hz). pose proof (sin5 z Hz). lra. Qed.
Lemma sn_neg z : sn (- z) = - sn z. Proof. unfold sn. rewrite sin_neg. ring. Qed.
Lemma cs_bounds z : z * z / 2 * (1 - z * z / 12) <= cs1 z <= z * z / 2.
Proof. unfold cs1. destruct (cos_bounds z) as [[H1 H2] _]. lra. Qed.
Lemma cs_pos z : 0 <= cs1 z. Proof. unfold cs1. pose proof (COS_bound z). lra. Qed.

Lemma lin2 a b p q : Rabs p <= 1 -> Rabs q <= 1 -> Rabs (a * p + b * q) <= Rabs a + Rabs b.
Proof.
  intros Hp Hq. eapply Rle_trans; [apply Rabs_triang|]. rewrite !Rabs_mult.
  pose proof (Rabs_pos a). pose proof (Rabs_pos b). apply Rplus_le_compat; rewrite <- Rmult_1_r; apply Rmult_le_compat_l; auto.
Qed.
Lemma sin_le1 x : Rabs (sin x) <= 1. Proof. apply Rabs_le, SIN_bound. Qed.
Lemma cos_le1 x : Rabs (cos x) <= 1. Proof. apply Rabs_le, COS_bound. Qed.

Lemma s3_bounds : 1732 / 1000 < sqrt 3 < 17321 / 10000.
Proof.
  pose proof sqrt3_pos as P. pose proof sqrt3_sq as Q. split.
  - destruct (Rlt_le_dec (1732 / 1000) (sqrt 3)); [assumption|]. assert (sqrt 3 * sqrt 3 <= 1732 / 1000 * (1732 / 1000)) by (apply Rmult_le_compat; lra). lra.
  - destruct (Rlt_le_dec (sqrt 3) (17321 / 10000)); [assumption|]. assert (17321 / 10000 * (17321 / 10000) <= sqrt 3 * sqrt 3) by (apply Rmult_le_compat; lra). lra.
Qed.
Lemma cos_le1' x y : Rabs (cos x * cos y) <= 1.
Proof.
  rewrite Rabs_mult. rewrite <- (Rmult_1_r 1). apply Rmult_le_compat; auto using Rabs_pos, cos_le1.
Qed.

Lemma sn_b z : 0 <= z -> z * z <= 18 / 1000 -> 999 / 1000 * (z * z * z / 6) <= sn z <= z * z * z / 6.
Proof.
  intros Hz Hs. destruct (sn_bounds z Hz) as [H1 H2]. split; [|exact H2]. eapply Rle_trans; [|exact H1].
  assert (P : 0 <= z * z * z / 6) by (assert (0 <= z * z * z) by (repeat apply Rmult_le_pos; assumption); lra).
  rewrite Rmult_comm. apply Rmult_le_compat_l; [exact P|]. lra.
Qed.
Lemma cs_b z : z * z <= 3 / 100 -> 997 / 1000 * (z * z / 2) <= cs1 z <= z * z / 2.
Proof.
  intros Hs. destruct (cs_bounds z) as [H1 H2]. split; [|exact H2]. eapply Rle_trans; [|exact H1].
  assert (P : 0 <= z * z / 2) by (pose proof (Rle_0_sqr z); unfold Rsqr in *; lra).
  rewrite Rmult_comm. apply Rmult_le_compat_l; [exact P|]. lra.
Qed.

Section Bounds.
Context (T : R) (HT : 0 < T) (HT2 : T * T <= 18 / 1000).
Let T3 := T * T * T.
Lemma T3p : 0 < T3. Proof. unfold T3. repeat apply Rmult_lt_0_compat; exact HT. Qed.
Lemma T2p : 0 < T * T. Proof. apply Rmult_lt_0_compat; exact HT. Qed.

Ltac snb c z := let H := fresh "B" in
  assert (H : 999 / 1000 * (c * c * c * T3 / 6) <= sn z <= c * c * c * T3 / 6) by
    (replace (c * c * c * T3) with (z * z * z) by (unfold T3; field); apply sn_b; [lra|replace (z * z) with (c * c * (T * T)) by field; pose proof T2p; lra]).
Ltac csb c z := let H := fresh "B" in
  assert (H : 997 / 1000 * (c * c * (T * T) / 2) <= cs1 z <= c * c * (T * T) / 2) by
    (replace (c * c * (T * T)) with (z * z) by field; apply cs_b; replace (z * z) with (c * c * (T * T)) by field; pose proof T2p; lra).

(** Gradient. *)
Lemma grad_bound q a b : (0 <= q < 3)%Z -> a = (if (q =? 0)%Z then T / 2 else if (q =? 1)%Z then 3 * T / 4 else T / 4) ->
  b = (if (q =? 0)%Z then T / 2 else if (q =? 1)%Z then - (T / 4) else - (3 * T / 4)) ->
  Rabs (sn a) + Rabs (sn b) <= 7 / 96 * T3.
Proof.
  intros Hq -> ->. snb (1 / 2) (T / 2). snb (3 / 4) (3 * T / 4). snb (1 / 4) (T / 4). pose proof T3p.
  destruct (qc q Hq) as [-> | [-> | ->]]; cbn [Z.eqb Pos.eqb]; rewrite ?sn_neg, ?Rabs_Ropp, !Rabs_right by lra; lra.
Qed.
Lemma grad_attained p1 p2 : 99 / 100 <= p1 -> 99 / 100 <= p2 ->
  97 / 100 * (7 / 96 * T3) <= sn (3 * T / 4) * p1 - sn (- (T / 4)) * p2.
Proof.
  intros H1 H2. rewrite sn_neg. snb (3 / 4) (3 * T / 4). snb (1 / 4) (T / 4). pose proof T3p.
  assert (sn (3 * T / 4) * (99 / 100) <= sn (3 * T / 4) * p1) by (apply Rmult_le_compat_l; lra).
  assert (sn (T / 4) * (99 / 100) <= sn (T / 4) * p2) by (apply Rmult_le_compat_l; lra). lra.
Qed.
(** Divergence. *)
Definition cD : R := sn (T / 2) + w1 * sn (3 * T / 4) + w2 * sn (T / 4).
Lemma div_bound : 97 / 100 * ((21 + 14 * sqrt 3) / 384 * T3) <= cD <= (21 + 14 * sqrt 3) / 384 * T3 /\ 0 < cD.
Proof.
  unfold cD. snb (1 / 2) (T / 2). snb (3 / 4) (3 * T / 4). snb (1 / 4) (T / 4). pose proof T3p. pose proof s3_bounds as [L U].
  assert (W1 : 0 < w1) by (unfold w1; lra). assert (W2 : 0 < w2) by (unfold w2; lra).
  assert (E : (21 + 14 * sqrt 3) / 384 * T3 = 1 / 2 * (1 / 2) * (1 / 2) * T3 / 6 + w1 * (3 / 4 * (3 / 4) * (3 / 4) * T3 / 6) + w2 * (1 / 4 * (1 / 4) * (1 / 4) * T3 / 6))
    by (unfold w1, w2; field).
  assert (w1 * (999 / 1000 * (3 / 4 * (3 / 4) * (3 / 4) * T3 / 6)) <= w1 * sn (3 * T / 4) <= w1 * (3 / 4 * (3 / 4) * (3 / 4) * T3 / 6)) by (split; apply Rmult_le_compat_l; lra).
  assert (w2 * (999 / 1000 * (1 / 4 * (1 / 4) * (1 / 4) * T3 / 6)) <= w2 * sn (T / 4) <= w2 * (1 / 4 * (1 / 4) * (1 / 4) * T3 / 6)) by (split; apply Rmult_le_compat_l; lra).
  assert (0 < w1 * (3 / 4 * (3 / 4) * (3 / 4) * T3 / 6)) by (apply Rmult_lt_0_compat; lra).
  assert (0 < w2 * (1 / 4 * (1 / 4) * (1 / 4) * T3 / 6)) by (apply Rmult_lt_0_compat; lra).
  rewrite E. lra.
Qed.
(** Vorticity. *)
Definition bP : R := cs1 (T / 3) + w2 * cs1 (5 * T / 12) - w1 * cs1 (T / 12).
Definition bQ : R := sn (T / 3) - w2 * sn (5 * T / 12) - w1 * sn (T / 12).
Lemma w_bounds : 1366 / 1000 <= w1 <= 13661 / 10000 /\ 366 / 1000 <= w2 <= 3661 / 10000.
Proof. unfold w1, w2. pose proof s3_bounds. lra. Qed.
Lemma P_bound : 99 / 100 * ((1 + 4 * sqrt 3) / 96 * (T * T)) <= bP <= 1005 / 1000 * ((1 + 4 * sqrt 3) / 96 * (T * T)).
Proof.
  unfold bP. csb (1 / 3) (T / 3). csb (5 / 12) (5 * T / 12). csb (1 / 12) (T / 12). pose proof T2p. destruct w_bounds as [[L1 U1] [L2 U2]].
  set (Y := T * T) in *. clearbody Y.
  assert (E : (1 + 4 * sqrt 3) / 96 * Y = 1 / 3 * (1 / 3) * Y / 2 + w2 * (5 / 12 * (5 / 12) * Y / 2) - w1 * (1 / 12 * (1 / 12) * Y / 2)) by (unfold w1, w2; field).
  assert (w2 * (997 / 1000 * (5 / 12 * (5 / 12) * Y / 2)) <= w2 * cs1 (5 * T / 12) <= w2 * (5 / 12 * (5 / 12) * Y / 2)) by (split; apply Rmult_le_compat_l; lra).
  assert (w1 * (997 / 1000 * (1 / 12 * (1 / 12) * Y / 2)) <= w1 * cs1 (T / 12) <= w1 * (1 / 12 * (1 / 12) * Y / 2)) by (split; apply Rmult_le_compat_l; lra).
  assert (366 / 1000 * Y <= w2 * Y <= 3661 / 10000 * Y) by (split; apply Rmult_le_compat_r; lra).
  assert (1366 / 1000 * Y <= w1 * Y <= 13661 / 10000 * Y) by (split; apply Rmult_le_compat_r; lra).
  rewrite E. lra.
Qed.
Lemma Q_bound : Rabs bQ <= 2 / 1000 * T3.
Proof.
  unfold bQ. snb (1 / 3) (T / 3). snb (5 / 12) (5 * T / 12). snb (1 / 12) (T / 12). pose proof T3p. destruct w_bounds as [[L1 U1] [L2 U2]].
  assert (w2 * (999 / 1000 * (5 / 12 * (5 / 12) * (5 / 12) * T3 / 6)) <= w2 * sn (5 * T / 12) <= w2 * (5 / 12 * (5 / 12) * (5 / 12) * T3 / 6)) by (split; apply Rmult_le_compat_l; lra).
  assert (w1 * (999 / 1000 * (1 / 12 * (1 / 12) * (1 / 12) * T3 / 6)) <= w1 * sn (T / 12) <= w1 * (1 / 12 * (1 / 12) * (1 / 12) * T3 / 6)) by (split; apply Rmult_le_compat_l; lra).
  assert (366 / 1000 * T3 <= w2 * T3 <= 3661 / 10000 * T3) by (split; apply Rmult_le_compat_r; lra).
  assert (1366 / 1000 * T3 <= w1 * T3 <= 13661 / 10000 * T3) by (split; apply Rmult_le_compat_r; lra).
  apply Rabs_le. lra.
Qed.
Lemma T_small : T <= 135 / 1000.
Proof. destruct (Rle_lt_dec T (135 / 1000)); [assumption|]. assert (135 / 1000 * (135 / 1000) <= T * T) by (apply Rmult_le_compat; lra). lra. Qed.
Lemma T3_small : T3 <= 135 / 1000 * (T * T).
Proof. unfold T3. rewrite (Rmult_comm (135 / 1000)). apply Rmult_le_compat_l; [pose proof T2p; lra|apply T_small]. Qed.
Lemma curl_bound g sX cY sY : Rabs g = 1 -> Rabs sX <= 1 -> Rabs cY <= 1 -> Rabs sY <= 1 ->
  Rabs (sX * (g * bP * cY + bQ * sY)) <= 101 / 100 * ((1 + 4 * sqrt 3) / 96 * (T * T)).
Proof.
  intros Hg HX HY HY'. pose proof P_bound as [P1 P2]. pose proof Q_bound as Q. pose proof T3_small as S3. pose proof T2p. pose proof s3_bounds as [L U].
  rewrite Rabs_mult. assert (A : Rabs (g * bP * cY + bQ * sY) <= Rabs (g * bP) + Rabs bQ) by now apply lin2.
  rewrite Rabs_mult, Hg in A. assert (0 <= (1 + 4 * sqrt 3) / 96 * (T * T)) by (apply Rmult_le_pos; lra).
  assert (1732 / 1000 * (T * T) <= sqrt 3 * (T * T)) by (apply Rmult_le_compat_r; lra).
  rewrite (Rabs_right bP) in A by lra.
  eapply Rle_trans; [apply (Rmult_le_compat _ 1 _ _ (Rabs_pos _) (Rabs_pos _) HX A)|]. lra.
Qed.
Lemma curl_attained sX cY sY : 997 / 1000 <= sX <= 1 -> 998 / 1000 <= cY -> Rabs sY <= 1 ->
  98 / 100 * ((1 + 4 * sqrt 3) / 96 * (T * T)) <= sX * (1 * bP * cY + bQ * sY).
Proof.
  intros HX HY HY'. pose proof P_bound as [P1 P2]. pose proof Q_bound as Q. pose proof T3_small as S3. pose proof T2p. pose proof s3_bounds as [L U].
  assert (0 <= (1 + 4 * sqrt 3) / 96 * (T * T)) by (apply Rmult_le_pos; lra).
  assert (1732 / 1000 * (T * T) <= sqrt 3 * (T * T)) by (apply Rmult_le_compat_r; lra).
  assert (A : bP * (998 / 1000) <= bP * cY) by (apply Rmult_le_compat_l; lra).
  assert (B : Rabs (bQ * sY) <= Rabs bQ * 1) by (rewrite Rabs_mult; apply Rmult_le_compat_l; [apply Rabs_pos|exact HY']).
  assert (B' : - (2 / 1000 * T3) <= bQ * sY) by (pose proof (Rle_abs (- (bQ * sY))) as C; rewrite Rabs_Ropp in C; lra).
  assert (G : 0 <= 1 * bP * cY + bQ * sY) by lra.
  assert (997 / 1000 * (1 * bP * cY + bQ * sY) <= sX * (1 * bP * cY + bQ * sY)) by (apply Rmult_le_compat_r; lra). lra.
Qed.
(** Tangential component. *)
Definition bu : R := T / 4.
Definition bK0 : R := sqrt 3 / 3 * ((1 / 12 + sqrt 3 / 4) * cs1 bu + (1 / 12 + sqrt 3 / 12) * cs1 (5 * bu) + (sqrt 3 / 6 - 1 / 6) * cs1 (3 * bu)).
Definition bKa : R := sqrt 3 / 3 * ((sqrt 3 / 6 - 1 / 6) * cs1 (2 * bu) - 1 / 6 * cs1 (5 * bu) + (sqrt 3 / 12 - 1 / 12) * cs1 (4 * bu) - 1 / 3 * cs1 bu).
Definition bKb : R := sqrt 3 / 3 * (- (1 / 6 + sqrt 3 / 6) * cs1 (2 * bu) - 1 / 6 * cs1 bu - (1 / 12 + sqrt 3 / 12) * cs1 (4 * bu) - 1 / 3 * cs1 (3 * bu)).
Definition cR : R := (69 + 4 * sqrt 3) / 288 * (T * T).
Lemma mulb k lo hi x : 0 <= k -> lo <= x <= hi -> k * lo <= k * x <= k * hi.
Proof. intros Hk [H1 H2]. split; apply Rmult_le_compat_l; auto. Qed.
Lemma recon_bound : 997 / 1000 * cR <= 2 * bK0 <= cR /\ Rabs bKa + Rabs bKb <= cR.
Proof.
  pose proof T2p as TP. pose proof s3_bounds as [L U]. pose proof sqrt3_sq as Q.
  csb (1 / 4) (T / 4). csb (1 / 2) (2 * (T / 4)). csb (3 / 4) (3 * (T / 4)). csb 1 (4 * (T / 4)). csb (5 / 4) (5 * (T / 4)).
  unfold bK0, bKa, bKb, cR, bu. set (Y := T * T) in *. clearbody Y.
  generalize dependent (cs1 (T / 4)). intros c1 D1. generalize dependent (cs1 (2 * (T / 4))). intros c2 D2.
  generalize dependent (cs1 (3 * (T / 4))). intros c3 D3. generalize dependent (cs1 (4 * (T / 4))). intros c4 D4.
  generalize dependent (cs1 (5 * (T / 4))). intros c5 D5. clear HT HT2 T3. generalize dependent (sqrt 3). intros r L U Q.
  split.
  - pose proof (mulb (1 / 12 + r / 4) _ _ _ ltac:(lra) D1) as M1. pose proof (mulb (1 / 12 + r / 12) _ _ _ ltac:(lra) D5) as M5.
    pose proof (mulb (r / 6 - 1 / 6) _ _ _ ltac:(lra) D3) as M3.
    assert (M : 997 / 1000 * ((1 / 12 + r / 4) * (1 / 4 * (1 / 4) * Y / 2) + (1 / 12 + r / 12) * (5 / 4 * (5 / 4) * Y / 2) + (r / 6 - 1 / 6) * (3 / 4 * (3 / 4) * Y / 2)) <=
       (1 / 12 + r / 4) * c1 + (1 / 12 + r / 12) * c5 + (r / 6 - 1 / 6) * c3 <=
       (1 / 12 + r / 4) * (1 / 4 * (1 / 4) * Y / 2) + (1 / 12 + r / 12) * (5 / 4 * (5 / 4) * Y / 2) + (r / 6 - 1 / 6) * (3 / 4 * (3 / 4) * Y / 2)) by lra.
    apply (mulb (2 * (r / 3))) in M; [|lra].
    assert (E : 2 * (r / 3) * ((1 / 12 + r / 4) * (1 / 4 * (1 / 4) * Y / 2) + (1 / 12 + r / 12) * (5 / 4 * (5 / 4) * Y / 2) + (r / 6 - 1 / 6) * (3 / 4 * (3 / 4) * Y / 2)) =
      (69 + 4 * r) / 288 * Y) by field [Q]. lra.
  - pose proof (mulb (r / 6 - 1 / 6) _ _ _ ltac:(lra) D2) as M2. pose proof (mulb (r / 12 - 1 / 12) _ _ _ ltac:(lra) D4) as M4.
    pose proof (mulb (1 / 6 + r / 6) _ _ _ ltac:(lra) D2) as N2. pose proof (mulb (1 / 12 + r / 12) _ _ _ ltac:(lra) D4) as N4.
    assert (RY : 1732 / 1000 * Y <= r * Y <= 17321 / 10000 * Y) by (split; apply Rmult_le_compat_r; lra).
    assert (A : Rabs ((r / 6 - 1 / 6) * c2 - 1 / 6 * c5 + (r / 12 - 1 / 12) * c4 - 1 / 3 * c1) <= 145 / 1000 * Y) by (apply Rabs_le; lra).
    assert (B : Rabs (- (1 / 6 + r / 6) * c2 - 1 / 6 * c1 - (1 / 12 + r / 12) * c4 - 1 / 3 * c3) <= 28 / 100 * Y) by (apply Rabs_le; lra).
    rewrite !Rabs_mult, (Rabs_right (r / 3)) by lra.
    apply (Rmult_le_compat_l (r / 3)) in A; [|lra]. apply (Rmult_le_compat_l (r / 3)) in B; [|lra]. lra.
Qed.
End Bounds.
