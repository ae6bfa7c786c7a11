(** Transport by a flow that does not change, as a linear operator on the cells: in the inner product weighted with the
    inverse thickness it is the sum of a skew operator and of a multiplication by a bounded function. *)
From Coq Require Import ZArith Reals List Bool Lia Lra.
From Verif Require Import Arith Arrays Prog Conc Mesh Model Hex HexComb RSum Spec MeshProof MeshMem MeshFacts MeshR MeshCalc Ready SumParts LinStep LaxAbs.
Import ListNotations.
Open Scope Z_scope.

Lemma weighted (q0 q1 w v l p s : R) : (0 < q0 -> 0 < q1 -> q0 <= 4 * q1 -> q1 <= 4 * q0 -> w = (q0 + q1) / 2 -> 0 < l ->
  w * (p * s) <= 5 / 8 * (l * (q0 * (p * p)) + / l * (q1 * (s * s))))%R.
Proof.
  intros P0 P1 R0 R1 Ew Pl. assert (Pi : (0 < / l)%R) by now apply Rinv_0_lt_compat.
  set (a := (5 / 4 * l * q0)%R). set (c := (5 / 4 * / l * q1)%R).
  assert (Pa : (0 < a)%R) by (unfold a; apply Rmult_lt_0_compat; [lra|exact P0]).
  assert (W : (w * w <= a * c)%R).
  { replace (a * c)%R with (25 / 16 * (q0 * q1))%R by (unfold a, c; field; lra). rewrite Ew.
    assert (0 <= (4 * q0 - q1) * (4 * q1 - q0))%R by (apply Rmult_le_pos; lra).
    replace ((q0 + q1) / 2 * ((q0 + q1) / 2))%R with ((q0 * q0 + q1 * q1 + 2 * (q0 * q1)) / 4)%R by field.
    replace ((4 * q0 - q1) * (4 * q1 - q0))%R with (17 * (q0 * q1) - 4 * (q0 * q0) - 4 * (q1 * q1))%R in H by ring. lra. }
  assert (Q : (0 <= a * (a * (p * p) + c * (s * s) - 2 * (w * (p * s))))%R).
  { replace (a * (a * (p * p) + c * (s * s) - 2 * (w * (p * s))))%R with ((a * p - w * s) * (a * p - w * s) + (a * c - w * w) * (s * s))%R by ring.
    apply Rplus_le_le_0_compat; [apply Rle_0_sqr|]. apply Rmult_le_pos; [lra|apply Rle_0_sqr]. }
  assert (Q2 : (0 <= a * (p * p) + c * (s * s) - 2 * (w * (p * s)))%R).
  { apply (Rmult_le_reg_l a); [exact Pa|]. rewrite Rmult_0_r. exact Q. }
  unfold a, c in Q2. replace (5 / 8 * (l * (q0 * (p * p)) + / l * (q1 * (s * s))))%R with ((5 / 4 * l * q0 * (p * p) + 5 / 4 * / l * q1 * (s * s)) / 2)%R by (field; lra). lra.
Qed.
Lemma weighted_abs (q0 q1 w v l p s : R) : (0 < q0 -> 0 < q1 -> q0 <= 4 * q1 -> q1 <= 4 * q0 -> w = (q0 + q1) / 2 -> 0 < l ->
  w * Rabs (p * s) <= 5 / 8 * (l * (q0 * (p * p)) + / l * (q1 * (s * s))))%R.
Proof.
  intros. replace (p * p)%R with (Rabs p * Rabs p)%R by (rewrite <- Rabs_mult; apply Rabs_pos_eq, Rle_0_sqr).
  replace (s * s)%R with (Rabs s * Rabs s)%R by (rewrite <- Rabs_mult; apply Rabs_pos_eq, Rle_0_sqr). rewrite Rabs_mult. now apply weighted.
Qed.

Section OnMesh.
Context (cf : config) (h : hexargs RA) (ntr : Z).
Local Notation D := (dims_of cf h ntr).
Local Notation X := (nx h).
Local Notation Y := (ny h).
Local Notation NC := (nx h * ny h).
Context (Hok : mesh_ok cf h) (Hdc : (0 < (dc h : R))%R) (m : mem RA) (Hm : hexmem h (d_nlayers D) m) (N1 : 2 <= nx h) (N2 : 2 <= ny h).
Context (q u : Z -> R) (vm gam : R).
Context (Qpos : forall c, 0 <= c < NC -> (0 < q c)%R).
Context (Qrat : forall e, 0 <= e < 3 * NC -> (q (hcoe X Y e 0) <= 4 * q (hcoe X Y e 1) /\ q (hcoe X Y e 1) <= 4 * q (hcoe X Y e 0))%R).
Context (Ub : forall e, 0 <= e < 3 * NC -> (Rabs (u e) <= vm)%R) (Vp : (0 < vm)%R).
Local Notation W := (fun e => emean m q e * u e)%R.
Context (Gp : (0 <= gam)%R) (Ob : forall c, 0 <= c < NC -> (Rabs (outflow m W c) <= 2 * gam * q c)%R).
Local Notation V := (fun c => 0 <= c < NC).
Local Notation rr a ix := (mr m a ix%Z : R).
Let Hx := Hx cf h Hok.
Let Hy := Hy cf h Hok.

Definition wdot (f g : Z -> R) : R := (/ IZR NC * rsum NC (fun c => f c * g c / q c))%R.
Definition advT (f : Z -> R) (c : Z) : R := (- outflow m (fun e => emean m q e * u e * emean m (fun c => f c / q c) e) c)%R.
Definition advK (f : Z -> R) (c : Z) : R := (advT f c + 1 / 2 * (outflow m W c / q c) * f c)%R.

Lemma NC1 : (1 <= IZR NC)%R.
Proof. apply IZR_le. nia. Qed.
Lemma wdot_ext f f' g : (forall c, V c -> f c = f' c) -> wdot f g = wdot f' g.
Proof. intros E. unfold wdot. f_equal. apply rsum_ext. intros c Hc. now rewrite E. Qed.
Lemma wdot_sym f g : wdot f g = wdot g f.
Proof. unfold wdot. f_equal. apply rsum_ext. intros c Hc. unfold Rdiv. ring. Qed.
Lemma wdot_lin a b f f' g : wdot (fun c => a * f c + b * f' c)%R g = (a * wdot f g + b * wdot f' g)%R.
Proof.
  unfold wdot. rewrite (rsum_ext NC _ (fun c => a * (f c * g c / q c) + b * (f' c * g c / q c))%R) by (intros; unfold Rdiv; ring).
  rewrite rsum_plus, !rsum_scal. ring.
Qed.
Lemma wdot_pos f : (0 <= wdot f f)%R.
Proof.
  unfold wdot. pose proof NC1. apply Rmult_le_pos; [left; apply Rinv_0_lt_compat; lra|]. apply rsum_nonneg. intros c Hc.
  unfold Rdiv. apply Rmult_le_pos; [apply Rle_0_sqr|]. left. apply Rinv_0_lt_compat. now apply Qpos.
Qed.
Lemma advT_ext f g c : (forall c, V c -> f c = g c) -> V c -> advT f c = advT g c.
Proof.
  intros E Hc. unfold advT. f_equal. rewrite !(outflow_eq cf h ntr Hok m Hm) by exact Hc. f_equal. apply rsum_ext. intros j Hj.
  pose proof (hE_range X Y Hx Hy c j Hc Hj) as He. do 2 f_equal. unfold emean.
  rewrite !E by (rewrite (hm_coe _ _ _ Hm) by lia; apply hcoe_range; auto; lia). reflexivity.
Qed.
Lemma advT_lin a b f g c : V c -> advT (fun c => a * f c + b * g c)%R c = (a * advT f c + b * advT g c)%R.
Proof.
  intros Hc. unfold advT. rewrite !(outflow_eq cf h ntr Hok m Hm) by exact Hc.
  rewrite (rsum_ext 6 _ (fun j => a * (cs h c j * (emean m q (hE X Y c j) * u (hE X Y c j) * emean m (fun c => f c / q c) (hE X Y c j)))
     + b * (cs h c j * (emean m q (hE X Y c j) * u (hE X Y c j) * emean m (fun c => g c / q c) (hE X Y c j))))%R).
  - rewrite rsum_plus, !rsum_scal. ring.
  - intros j Hj. unfold emean, Rdiv. ring.
Qed.
(** The quadratic form of the skew part. *)
Lemma form f g : (hareac h * rsum NC (fun c => advK f c * g c / q c))%R =
  rsum (3 * NC) (fun e => hdve h / 2 * (W e * (f (hcoe X Y e 0) / q (hcoe X Y e 0) * (g (hcoe X Y e 1) / q (hcoe X Y e 1)) - f (hcoe X Y e 1) / q (hcoe X Y e 1) * (g (hcoe X Y e 0) / q (hcoe X Y e 0)))))%R.
Proof.
  set (p := fun c => (f c / q c)%R). set (s := fun c => (g c / q c)%R).
  transitivity (- rsum NC (fun c => rr AreaCell [c] * s c * outflow m (fun e => emean m q e * u e * emean m p e) c) + 1 / 2 * rsum NC (fun c => rr AreaCell [c] * (s c * p c) * outflow m W c))%R.
  - rewrite <- rsum_opp, <- !rsum_scal, <- rsum_plus. apply rsum_ext. intros c Hc. rewrite (hm_area _ _ _ Hm) by lia.
    unfold advK, advT. fold p. unfold s. pose proof (Qpos c Hc) as Q.
    set (a := outflow m (fun e => emean m q e * u e * emean m p e)%R c). set (b := outflow m W c). unfold p. generalize a b. clear a b. intros a b. cbn [F RA]. field. lra.
  - rewrite !(gauss cf h ntr Hok Hdc m Hm) by assumption. rewrite Ropp_involutive, <- rsum_opp, <- !rsum_scal, <- rsum_plus. apply rsum_ext. intros e He.
    unfold grad, emean. rewrite !(hm_coe _ _ _ Hm), (hm_dce _ _ _ Hm), (hm_dve _ _ _ Hm) by lia.
    cbv beta. fold (p (hcoe X Y e 0)) (p (hcoe X Y e 1)) (s (hcoe X Y e 0)) (s (hcoe X Y e 1)).
    generalize (p (hcoe X Y e 0)) (p (hcoe X Y e 1)) (s (hcoe X Y e 0)) (s (hcoe X Y e 1)) (q (hcoe X Y e 0)) (q (hcoe X Y e 1)) (u e). intros. cbn [F RA]. field. lra.
Qed.
Lemma skewK f g : wdot (advK f) g = (- wdot f (advK g))%R.
Proof.
  rewrite (wdot_sym f (advK g)). unfold wdot. pose proof (area_pos h Hdc) as Pa.
  assert (E : (hareac h * rsum NC (fun c => advK f c * g c / q c) = - (hareac h * rsum NC (fun c => advK g c * f c / q c)))%R).
  { rewrite !form, <- rsum_opp. apply rsum_ext. intros e He. cbv beta. ring. }
  assert (E2 : (rsum NC (fun c => advK f c * g c / q c) = - rsum NC (fun c => advK g c * f c / q c))%R).
  { apply (Rmult_eq_reg_l (hareac h : R)); [|lra]. rewrite E. ring. }
  rewrite E2. ring.
Qed.
(** Every cell is met by six edges. *)
Lemma six (phi : Z -> R) : rsum (3 * NC) (fun e => phi (hcoe X Y e 0) + phi (hcoe X Y e 1))%R = (6 * rsum NC phi)%R.
Proof.
  rewrite <- (cell_edge cf h Hok (fun c _ => phi c) (fun c _ => phi c)). rewrite <- rsum_scal. apply rsum_ext. intros c Hc. rewrite rsum_small6. cbn [Z.ltb Z.compare Pos.compare Pos.compare_cont]. lra.
Qed.
Lemma half_bound f g l : (0 < l)%R -> (rsum NC (fun c => advK f c * g c / q c) <= 5 / 4 * vm / dc h * (l * rsum NC (fun c => f c * f c / q c) + / l * rsum NC (fun c => g c * g c / q c)))%R.
Proof.
  intros Pl. pose proof (area_pos h Hdc) as Pa. pose proof (dve_pos h Hdc) as Pd. assert (Pi : (0 < / l)%R) by now apply Rinv_0_lt_compat.
  apply (Rmult_le_reg_l (hareac h : R)); [exact Pa|]. rewrite form.
  set (F2 := fun c => (f c * f c / q c)%R). set (G2 := fun c => (g c * g c / q c)%R).
  apply Rle_trans with (hdve h / 2 * vm * (5 / 8) * rsum (3 * NC) (fun e => (fun c => l * F2 c + / l * G2 c) (hcoe X Y e 0) + (fun c => l * F2 c + / l * G2 c) (hcoe X Y e 1)))%R.
  - rewrite <- rsum_scal. apply rsum_le. intros e He. cbv beta.
    pose proof (hcoe_range X Y Hx Hy e 0 He) as R0. pose proof (hcoe_range X Y Hx Hy e 1 He) as R1.
    destruct (Qrat e He) as [r0 r1]. pose proof (Qpos _ R0) as P0. pose proof (Qpos _ R1) as P1.
    assert (Ew : emean m q e = ((q (hcoe X Y e 0) + q (hcoe X Y e 1)) / 2)%R) by (unfold emean; now rewrite !(hm_coe _ _ _ Hm) by lia).
    assert (A : (q (hcoe X Y e 0) * (f (hcoe X Y e 0) / q (hcoe X Y e 0) * (f (hcoe X Y e 0) / q (hcoe X Y e 0))) = F2 (hcoe X Y e 0))%R) by (unfold F2; field; lra).
    assert (A' : (q (hcoe X Y e 1) * (f (hcoe X Y e 1) / q (hcoe X Y e 1) * (f (hcoe X Y e 1) / q (hcoe X Y e 1))) = F2 (hcoe X Y e 1))%R) by (unfold F2; field; lra).
    assert (B : (q (hcoe X Y e 0) * (g (hcoe X Y e 0) / q (hcoe X Y e 0) * (g (hcoe X Y e 0) / q (hcoe X Y e 0))) = G2 (hcoe X Y e 0))%R) by (unfold G2; field; lra).
    assert (B' : (q (hcoe X Y e 1) * (g (hcoe X Y e 1) / q (hcoe X Y e 1) * (g (hcoe X Y e 1) / q (hcoe X Y e 1))) = G2 (hcoe X Y e 1))%R) by (unfold G2; field; lra).
    set (p0 := (f (hcoe X Y e 0) / q (hcoe X Y e 0))%R) in *. set (p1 := (f (hcoe X Y e 1) / q (hcoe X Y e 1))%R) in *.
    set (s0 := (g (hcoe X Y e 0) / q (hcoe X Y e 0))%R) in *. set (s1 := (g (hcoe X Y e 1) / q (hcoe X Y e 1))%R) in *.
    pose proof (weighted_abs (q (hcoe X Y e 0)) (q (hcoe X Y e 1)) (emean m q e) 0 l p0 s1 P0 P1 r0 r1 Ew Pl) as K1.
    pose proof (weighted_abs (q (hcoe X Y e 1)) (q (hcoe X Y e 0)) (emean m q e) 0 l p1 s0 P1 P0 r1 r0 ltac:(rewrite Ew; field) Pl) as K2.
    rewrite A, B' in K1. rewrite A', B in K2.
    assert (Pw : (0 < emean m q e)%R) by (rewrite Ew; lra).
    assert (K3 : (emean m q e * u e * (p0 * s1 - p1 * s0) <= vm * (emean m q e * Rabs (p0 * s1) + emean m q e * Rabs (p1 * s0)))%R).
    { eapply Rle_trans; [apply Rle_abs|]. rewrite !Rabs_mult, (Rabs_pos_eq (emean m q e)) by lra. pose proof (Ub e He) as Ue. pose proof (Rabs_pos (u e)) as Up.
      replace (vm * (emean m q e * (Rabs p0 * Rabs s1) + emean m q e * (Rabs p1 * Rabs s0)))%R with (emean m q e * vm * (Rabs p0 * Rabs s1 + Rabs p1 * Rabs s0))%R by ring.
      apply Rmult_le_compat; [apply Rmult_le_pos; lra|apply Rabs_pos|apply Rmult_le_compat_l; lra|].
      unfold Rminus. eapply Rle_trans; [apply Rabs_triang|]. rewrite Rabs_Ropp, !Rabs_mult. lra. }
    replace (hdve h / 2 * vm * (5 / 8) * (l * F2 (hcoe X Y e 0) + / l * G2 (hcoe X Y e 0) + (l * F2 (hcoe X Y e 1) + / l * G2 (hcoe X Y e 1))))%R
      with (hdve h / 2 * (vm * (5 / 8 * (l * F2 (hcoe X Y e 0) + / l * G2 (hcoe X Y e 1)) + 5 / 8 * (l * F2 (hcoe X Y e 1) + / l * G2 (hcoe X Y e 0)))))%R by ring.
    apply Rmult_le_compat_l; [lra|]. eapply Rle_trans; [exact K3|]. apply Rmult_le_compat_l; [lra|]. lra.
  - rewrite (six (fun c => l * F2 c + / l * G2 c)%R), rsum_plus, !rsum_scal. right.
    generalize (rsum NC F2) (rsum NC G2) (/ l)%R. intros a b il. rewrite hareac_R, hdve_R. pose proof sqrt3_pos. cbn [F RA]. field. lra.
Qed.
Lemma boundK2 f : (wdot (advK f) (advK f) <= (5 / 2 * vm / dc h) ^ 2 * wdot f f)%R.
Proof.
  unfold wdot. set (k := (5 / 4 * vm / dc h)%R). assert (Pk : (0 < k)%R) by (unfold k; apply Rdiv_lt_0_compat; lra).
  pose proof (half_bound f (advK f) (2 * k) ltac:(lra)) as H. fold k in H.
  set (F2 := rsum NC (fun c => f c * f c / q c)%R) in *. set (G2 := rsum NC (fun c => advK f c * advK f c / q c)%R) in *.
  replace (k * (2 * k * F2 + / (2 * k) * G2))%R with (2 * (k * k) * F2 + 1 / 2 * G2)%R in H by (field; lra).
  replace (5 / 2 * vm / dc h)%R with (2 * k)%R by (unfold k; cbn [F RA]; field; lra).
  replace ((2 * k) ^ 2 * (/ IZR NC * F2))%R with (/ IZR NC * (4 * (k * k) * F2))%R by ring.
  apply Rmult_le_compat_l; [|lra]. pose proof NC1. left. apply Rinv_0_lt_compat. lra.
Qed.
Local Notation nrm := (nrm wdot).
Lemma boundK f : (nrm (advK f) <= 5 / 2 * vm / dc h * nrm f)%R.
Proof.
  assert (Pk : (0 < 5 / 2 * vm / dc h)%R) by (apply Rdiv_lt_0_compat; lra).
  unfold LaxAbs.nrm. rewrite <- (sqrt_pow2 (5 / 2 * vm / dc h)) by lra. rewrite <- sqrt_mult by (apply pow2_ge_0 || apply wdot_pos).
  apply sqrt_le_1; [apply wdot_pos|apply Rmult_le_pos; [apply pow2_ge_0|apply wdot_pos]|apply boundK2].
Qed.
Lemma boundD f : (nrm (fun c => advT f c - advK f c) <= gam * nrm f)%R.
Proof.
  unfold LaxAbs.nrm. rewrite <- (sqrt_pow2 gam) by exact Gp. rewrite <- sqrt_mult by (apply pow2_ge_0 || apply wdot_pos).
  apply sqrt_le_1; [apply wdot_pos|apply Rmult_le_pos; [apply pow2_ge_0|apply wdot_pos]|].
  unfold wdot. pose proof NC1 as H1. rewrite <- (Rmult_assoc (gam ^ 2)), (Rmult_comm (gam ^ 2)), (Rmult_assoc _ (gam ^ 2)).
  apply Rmult_le_compat_l; [left; apply Rinv_0_lt_compat; lra|]. rewrite <- rsum_scal. apply rsum_le. intros c Hc. pose proof (Qpos c Hc) as Q. pose proof (Ob c Hc) as O.
  set (o := (outflow m W c / q c)%R).
  assert (Po : (Rabs o <= 2 * gam)%R).
  { unfold o, Rdiv. rewrite Rabs_mult, (Rabs_pos_eq (/ q c)) by (left; now apply Rinv_0_lt_compat). apply (Rmult_le_reg_r (q c)); [exact Q|]. rewrite Rmult_assoc, Rinv_l by lra. lra. }
  assert (P2 : (o * o <= 4 * (gam ^ 2))%R).
  { replace (o * o)%R with (Rabs o * Rabs o)%R by (rewrite <- Rabs_mult; apply Rabs_pos_eq, Rle_0_sqr). replace (4 * gam ^ 2)%R with ((2 * gam) * (2 * gam))%R by ring.
    apply Rmult_le_compat; auto using Rabs_pos. }
  unfold advK. fold o.
  replace ((advT f c - (advT f c + 1 / 2 * o * f c)) * (advT f c - (advT f c + 1 / 2 * o * f c)) / q c)%R with (1 / 4 * (o * o) * (f c * f c / q c))%R by (field; lra).
  apply Rmult_le_compat_r; [|lra]. unfold Rdiv. apply Rmult_le_pos; [apply Rle_0_sqr|]. left. now apply Rinv_0_lt_compat.
Qed.
Lemma boundT f : (nrm (advT f) <= (5 / 2 * vm / dc h + gam) * nrm f)%R.
Proof.
  rewrite (nrm_ext V wdot wdot_ext wdot_sym _ (fun c => advK f c + (advT f c - advK f c))%R) by (intros; ring).
  eapply Rle_trans; [apply (nrm_plus V wdot wdot_ext wdot_sym wdot_lin wdot_pos)|]. rewrite Rmult_plus_distr_r. apply Rplus_le_compat; [apply boundK|apply boundD].
Qed.
(** Bounds of norms by the largest value and back to the mean square. *)
Lemma nrm_max f M qmin : (0 < qmin)%R -> (forall c, V c -> (qmin <= q c)%R) -> (0 <= M)%R -> (forall c, V c -> (Rabs (f c) <= M)%R) -> (nrm f <= M / sqrt qmin)%R.
Proof.
  intros Pq Q M0 Hf. unfold LaxAbs.nrm. rewrite <- (sqrt_pow2 M) by exact M0. rewrite <- sqrt_div by (apply pow2_ge_0 || exact Pq).
  apply sqrt_le_1; [apply wdot_pos|unfold Rdiv; apply Rmult_le_pos; [apply pow2_ge_0|left; now apply Rinv_0_lt_compat]|].
  unfold wdot. pose proof NC1 as H1.
  apply Rle_trans with (/ IZR NC * rsum NC (fun _ => M ^ 2 / qmin))%R.
  - apply Rmult_le_compat_l; [left; apply Rinv_0_lt_compat; lra|]. apply rsum_le. intros c Hc. pose proof (Q c Hc).
    unfold Rdiv. apply Rmult_le_compat; [apply Rle_0_sqr|left; apply Rinv_0_lt_compat; lra| |apply Rinv_le_contravar; lra].
    replace (f c * f c)%R with (Rabs (f c) * Rabs (f c))%R by (rewrite <- Rabs_mult; apply Rabs_pos_eq, Rle_0_sqr).
    replace (M ^ 2)%R with (M * M)%R by ring. apply Rmult_le_compat; auto using Rabs_pos.
  - rewrite rsum_const by nia. right. field. lra.
Qed.
Lemma rms f qmax : (0 < qmax)%R -> (forall c, V c -> (q c <= qmax)%R) -> (sqrt (rsum NC (fun c => f c * f c) / IZR NC) <= sqrt qmax * nrm f)%R.
Proof.
  intros Pq Q. unfold LaxAbs.nrm. rewrite <- sqrt_mult by (lra || apply wdot_pos). pose proof NC1 as H1.
  assert (P : (0 <= rsum NC (fun c => f c * f c))%R) by (apply rsum_nonneg; intros; apply Rle_0_sqr).
  apply sqrt_le_1; [unfold Rdiv; apply Rmult_le_pos; [exact P|left; apply Rinv_0_lt_compat; lra]|apply Rmult_le_pos; [lra|apply wdot_pos]|].
  unfold wdot. rewrite Rmult_comm, Rmult_assoc. unfold Rdiv. rewrite Rmult_comm. apply Rmult_le_compat_l; [left; apply Rinv_0_lt_compat; lra|].
  rewrite <- rsum_scal_r. apply rsum_le. intros c Hc. pose proof (Qpos c Hc). pose proof (Q c Hc).
  replace (f c * f c * / q c * qmax)%R with (f c * f c * (qmax / q c))%R by (field; lra). apply Rle_trans with (f c * f c * 1)%R; [lra|].
  apply Rmult_le_compat_l; [apply Rle_0_sqr|]. apply (Rmult_le_reg_r (q c)); [lra|]. unfold Rdiv. rewrite Rmult_assoc, Rinv_l by lra. lra.
Qed.
End OnMesh.
