(** Norms of the mesh operators: the tangential reconstruction never increases the sum of squares, and the sharp bound of
    the gradient and the divergence. *)
From Coq Require Import ZArith Reals List Bool Lia Lra.
From Verif Require Import Arith Arrays Prog Conc Mesh Hex HexComb RSum Spec MeshProof MeshMem MeshFacts MeshR MeshCalc SumParts.
Import ListNotations.
Open Scope Z_scope.

Ltac mod6 := repeat match goal with |- context [(?a mod 6)] => let v := eval vm_compute in (a mod 6) in change (a mod 6) with v end.
Ltac mod6_in H := repeat match type of H with context [(?a mod 6)] => let v := eval vm_compute in (a mod 6) in change (a mod 6) with v in H end.
Section Comb.
Context (cf : config) (h : hexargs RA) (Hok : mesh_ok cf h).
Local Notation X := (nx h).
Local Notation Y := (ny h).
Local Notation NC := (nx h * ny h).
Let Hx := Hx cf h Hok.
Let Hy := Hy cf h Hok.
Local Notation nb := (nb X Y).
Local Notation inb_ := (inb_ X Y).
Local Notation hE := (hE X Y).
Local Notation hcoe := (hcoe X Y).
Local Notation hvoe := (hvoe X Y).
Local Notation heov := (heov X Y).
Local Notation hcov := (hcov X Y).
Local Notation heoe := (heoe X Y).

Lemma inb_bij j (f : Z -> R) : 2 <= j < 6 -> rsum NC (fun d => f (inb_ d j)) = rsum NC f.
Proof.
  intros Hj. rewrite <- (nb_bij cf h Hok j (fun d => f (inb_ d j)) Hj). apply rsum_ext. intros c Hc. now rewrite (inb_nb X Y Hx) by lia.
Qed.
(** Every cell is met by six vertices. *)
Lemma vertex_cells (f : Z -> R) : rsum (2 * NC) (fun v => rsum 3 (fun s => f (hcov v s))) = (6 * rsum NC f)%R.
Proof.
  rewrite rsum_split2 by (pose proof Hx; pose proof Hy; nia).
  rewrite (rsum_ext NC _ (fun d => f d + f (inb_ d 2) + f (inb_ d 3) + f (inb_ d 3) + f (inb_ d 4) + f d)%R).
  2:{ intros d Hd. rewrite !rsum_small3, !hcov_e, !hcov_o. cbn [Z.eqb Pos.eqb]. lra. }
  rewrite !rsum_plus, !inb_bij by lia. lra.
Qed.
Lemma triangle (a b c : R) : ((a - b) * (a - b) + (b - c) * (b - c) + (c - a) * (c - a) <= 3 * (a * a + b * b + c * c))%R.
Proof. pose proof (Rle_0_sqr (a + b + c)) as H. unfold Rsqr in H. lra. Qed.
(** The differences around a vertex. *)
Lemma vertex_diff (phi : Z -> R) v : Z.even Y = true -> 0 <= v < 2 * NC ->
  (rsum 3 (fun s => let e := heov v s in (phi (hcoe e 1) - phi (hcoe e 0)) * (phi (hcoe e 1) - phi (hcoe e 0))) <= 3 * rsum 3 (fun s => phi (hcov v s) * phi (hcov v s)))%R.
Proof.
  intros Hev Hv. rewrite !rsum_small3. cbv zeta. destruct (vdec v) as [d Hd]. assert (Hd' : 0 <= d < NC) by lia.
  assert (E3 : forall q, 3 * q = 3 * q + 0) by (intros; lia).
  destruct Hd as [-> | ->]; rewrite ?heov_e, ?heov_o, ?hcov_e, ?hcov_o; cbn [Z.eqb Pos.eqb];
    rewrite (E3 d); replace (3 * d + 0 + 1) with (3 * d + 1) by lia; rewrite !hcoe_q by lia; cbn [Z.eqb Pos.eqb].
  - pose proof (inb_range X Y Hx Hy d 2 Hd') as Ha.
    replace (3 + 0) with 3 by lia. replace (3 + 2) with 5 by lia. replace (3 + 1) with 4 by lia.
    rewrite !(inb_is_nb X Y Hx Hy Hev) by (try (apply nb_range; assumption); auto; lia). mod6.
    pose proof (nb_opp X Y Hx Hev d 5 Hd' ltac:(lia)) as E1. pose proof (nb_turn X Y Hx Hev d 5 Hd' ltac:(lia)) as E2.
    mod6_in E1. mod6_in E2. rewrite E1, E2. pose proof (triangle (phi d) (phi (nb d 5)) (phi (nb d 0))). lra.
  - pose proof (inb_range X Y Hx Hy d 3 Hd') as Ha.
    replace (3 + 0) with 3 by lia. replace (3 + 2) with 5 by lia. replace (3 + 1) with 4 by lia.
    rewrite !(inb_is_nb X Y Hx Hy Hev) by (try (apply nb_range; assumption); auto; lia). mod6.
    pose proof (nb_turn X Y Hx Hev d 0 Hd' ltac:(lia)) as E2. mod6_in E2. rewrite E2. pose proof (triangle (phi d) (phi (nb d 0)) (phi (nb d 1))). lra.
Qed.
Lemma diff_bound (phi : Z -> R) : Z.even Y = true ->
  (rsum (3 * NC) (fun e => (phi (hcoe e 1) - phi (hcoe e 0)) * (phi (hcoe e 1) - phi (hcoe e 0))) <= 9 * rsum NC (fun c => phi c * phi c))%R.
Proof.
  intros Hev. set (G := fun _ e : Z => ((phi (hcoe e 1) - phi (hcoe e 0)) * (phi (hcoe e 1) - phi (hcoe e 0)))%R).
  pose proof (vertex_edge cf h Hok G G) as E. cbv beta in E.
  rewrite (rsum_ext (3 * NC) (fun e => G (hvoe e 0) e + G (hvoe e 1) e)%R (fun e => 2 * G e e)%R) in E by (intros; unfold G; ring). rewrite rsum_scal in E.
  assert (B : (rsum (2 * NC) (fun v => rsum 3 (fun s => if eend v s =? 0 then G v (heov v s) else G v (heov v s))) <= 3 * (6 * rsum NC (fun c => phi c * phi c)))%R).
  { rewrite <- vertex_cells, <- rsum_scal. apply rsum_le. intros v Hv.
    rewrite (rsum_ext 3 _ (fun s => let e := heov v s in (phi (hcoe e 1) - phi (hcoe e 0)) * (phi (hcoe e 1) - phi (hcoe e 0)))%R); [now apply vertex_diff|].
    intros s Hs. destruct (eend v s =? 0); reflexivity. }
  rewrite E in B. unfold G in B. lra.
Qed.

(** ** The reconstruction *)
Lemma form_cells (v u : Z -> R) :
  rsum (3 * NC) (fun e => v e * rsum 10 (fun s => hw (A:=RA) e s * u (heoe e s)))%R =
  (sqrt 3 / 3 * rsum NC (fun c => rsum 6 (fun j => v (hE c j) * tpart h u c j)))%R.
Proof.
  rewrite (rsum_ext (3 * NC) _ (fun e => (sqrt 3 / 3) * ((fun c e => v e * tpart h u c (3 + e mod 3)) (hcoe e 0) e + (fun c e => v e * tpart h u c (e mod 3)) (hcoe e 1) e))%R).
  2:{ intros e He. pose proof (Z.div_mod e 3 ltac:(lia)) as E. pose proof (Z.mod_pos_bound e 3 ltac:(lia)) as Hq.
      assert (Hd : 0 <= e / 3 < NC) by (split; [apply Z.div_pos; lia|apply Z.div_lt_upper_bound; lia]).
      rewrite E. set (d := e / 3) in *. set (q := e mod 3) in *.
      rewrite (recon_sum h u) by auto. cbv beta. rewrite !hcoe_q, mod3 by lia. cbn [Z.eqb]. ring. }
  rewrite rsum_scal. f_equal.
  rewrite <- (cell_edge cf h Hok (fun c e => v e * tpart h u c (3 + e mod 3))%R (fun c e => v e * tpart h u c (e mod 3))%R).
  apply rsum_ext. intros c Hc. rewrite !rsum_small6. cbn [Z.ltb Z.compare Pos.compare Pos.compare_cont].
  rewrite !hE_mod_ by lia.
  repeat match goal with |- context [?a mod 3] => let v := eval vm_compute in (a mod 3) in change (a mod 3) with v end.
  cbn [Z.add Pos.add Pos.succ]. reflexivity.
Qed.
Lemma cell_bound (u : Z -> R) c : (rsum 6 (fun j => tpart h u c j * tpart h u c j) <= 3 / 4 * rsum 6 (fun j => u (hE c j) * u (hE c j)))%R.
Proof.
  rewrite !rsum_small6. unfold tpart. cbv zeta.
  repeat match goal with |- context [?a mod ?b] => let v := eval vm_compute in (a mod b) in change (a mod b) with v end.
  unfold cw. cbn [Z.eqb Pos.eqb].
  set (a := u (hE c 0)). set (b := u (hE c 1)). set (d := u (hE c 2)). set (e := u (hE c 3)). set (f := u (hE c 4)). set (g := u (hE c 5)).
  pose proof (Rle_0_sqr (a + b + d - e - f - g)) as S0. pose proof (Rle_0_sqr (a - b + d + e - f + g)) as S3.
  pose proof (Rle_0_sqr (a - b / 2 - d / 2 - e + f / 2 + g / 2)) as S1. pose proof (Rle_0_sqr (b - d - f + g)) as S2. unfold Rsqr in *. lra.
Qed.
Lemma form_bound (v u : Z -> R) :
  (rsum (3 * NC) (fun e => v e * rsum 10 (fun s => hw (A:=RA) e s * u (heoe e s))) <= 1 / 2 * (rsum (3 * NC) (fun e => v e * v e) + rsum (3 * NC) (fun e => u e * u e)))%R.
Proof.
  rewrite form_cells. assert (P3 : (0 < sqrt 3)%R) by apply sqrt3_pos. assert (Q3 : (sqrt 3 * sqrt 3 = 3)%R) by (apply sqrt_sqrt; lra).
  assert (E : forall f : Z -> R, rsum NC (fun c => rsum 6 (fun j => f (hE c j) * f (hE c j)))%R = (2 * rsum (3 * NC) (fun e => f e * f e))%R).
  { intros f. pose proof (cell_edge cf h Hok (fun _ e => f e * f e)%R (fun _ e => f e * f e)%R) as E. cbv beta in E.
    rewrite <- rsum_scal. rewrite (rsum_ext (3 * NC) (fun e => 2 * (f e * f e))%R (fun e => f e * f e + f e * f e)%R) by (intros; ring). rewrite <- E.
    apply rsum_ext. intros c Hc. apply rsum_ext. intros j Hj. destruct (j <? 3); reflexivity. }
  assert (B : (rsum NC (fun c => rsum 6 (fun j => v (hE c j) * tpart h u c j)) <= sqrt 3 / 4 * (2 * rsum (3 * NC) (fun e => v e * v e) + 2 * rsum (3 * NC) (fun e => u e * u e)))%R).
  { rewrite <- !E, <- rsum_plus, <- rsum_scal. apply rsum_le. intros c Hc. pose proof (cell_bound u c) as C.
    assert (G : (rsum 6 (fun j => v (hE c j) * tpart h u c j) <= sqrt 3 / 4 * rsum 6 (fun j => v (hE c j) * v (hE c j)) + sqrt 3 / 3 * rsum 6 (fun j => tpart h u c j * tpart h u c j))%R).
    { rewrite <- !rsum_scal, <- rsum_plus. apply rsum_le. intros j Hj. set (x := v (hE c j)). set (t := tpart h u c j).
      pose proof (Rle_0_sqr (sqrt 3 / 2 * x - t)) as G. unfold Rsqr in G.
      assert (G2 : (0 <= sqrt 3 * ((sqrt 3 / 2 * x - t) * (sqrt 3 / 2 * x - t)))%R) by (apply Rmult_le_pos; lra).
      replace (sqrt 3 * ((sqrt 3 / 2 * x - t) * (sqrt 3 / 2 * x - t)))%R with ((sqrt 3 * sqrt 3) * (sqrt 3 / 4 * (x * x)) - (sqrt 3 * sqrt 3) * (x * t) + sqrt 3 * (t * t))%R in G2 by field.
      rewrite Q3 in G2. lra. }
    assert (K : (sqrt 3 / 3 * rsum 6 (fun j => tpart h u c j * tpart h u c j) <= sqrt 3 / 3 * (3 / 4 * rsum 6 (fun j => u (hE c j) * u (hE c j))))%R) by (apply Rmult_le_compat_l; lra).
    lra. }
  apply Rmult_le_compat_l with (r := (sqrt 3 / 3)%R) in B; [|lra].
  replace (sqrt 3 / 3 * (sqrt 3 / 4 * (2 * rsum (3 * NC) (fun e => v e * v e) + 2 * rsum (3 * NC) (fun e => u e * u e))))%R
    with ((sqrt 3 * sqrt 3) * (1 / 6 * (rsum (3 * NC) (fun e => v e * v e) + rsum (3 * NC) (fun e => u e * u e))))%R in B by field.
  rewrite Q3 in B. lra.
Qed.
End Comb.

Section OnMem.
Context (cf : config) (h : hexargs RA) (ntr : Z).
Local Notation D := (dims_of cf h ntr).
Local Notation X := (nx h).
Local Notation Y := (ny h).
Local Notation NC := (nx h * ny h).
Context (Hok : mesh_ok cf h) (Hdc : (0 < (dc h : R))%R) (m : mem RA) (Hm : hexmem h (d_nlayers D) m) (N1 : 2 <= nx h) (Ev : Z.even (ny h) = true).
Let Hx := Hx cf h Hok.
Let Hy := Hy cf h Hok.
Let N2 : 2 <= ny h. Proof. pose proof Hy. assert (C : ny h = 1 \/ 2 <= ny h) by lia. destruct C as [C|C]; [rewrite C in Ev; discriminate|exact C]. Qed.
Local Notation ri a ix := (mi m a ix%Z).
Local Notation rr a ix := (mr m a ix%Z : R).

(** The tangential reconstruction is a contraction. *)
Lemma recon_contracts (u : Z -> R) : (rsum (3 * NC) (fun e => recon m u e * recon m u e) <= rsum (3 * NC) (fun e => u e * u e))%R.
Proof.
  pose proof (form_bound cf h Hok (recon m u) u) as B.
  rewrite (rsum_ext (3 * NC) (fun e => recon m u e * rsum 10 (fun s => hw (A:=RA) e s * u (heoe X Y e s)))%R (fun e => recon m u e * recon m u e)%R) in B; [lra|].
  intros e He. f_equal. unfold recon. rewrite (hm_noe _ _ _ Hm) by lia. apply rsum_ext. intros s Hs. now rewrite (hm_w _ _ _ Hm), (hm_eoe _ _ _ Hm) by lia.
Qed.
(** The gradient: sharp. *)
Lemma grad_bound (phi : Z -> R) :
  (rsum (3 * NC) (fun e => rr DcEdge [e] * rr DvEdge [e] * (grad m phi e * grad m phi e)) <= 6 / (dc h * dc h) * rsum NC (fun c => rr AreaCell [c] * (phi c * phi c)))%R.
Proof.
  pose proof (diff_bound cf h Hok phi Ev) as B. assert (P3 : (0 < sqrt 3)%R) by apply sqrt3_pos. assert (Q3 : (sqrt 3 * sqrt 3 = 3)%R) by (apply sqrt_sqrt; lra).
  assert (d0 : (dc h : R) <> 0%R) by lra.
  assert (E1 : rsum (3 * NC) (fun e => rr DcEdge [e] * rr DvEdge [e] * (grad m phi e * grad m phi e))%R
     = (sqrt 3 / 3 * rsum (3 * NC) (fun e => (phi (hcoe X Y e 1) - phi (hcoe X Y e 0)) * (phi (hcoe X Y e 1) - phi (hcoe X Y e 0))))%R).
  { rewrite <- rsum_scal. apply rsum_ext. intros e He. unfold grad. rewrite !(hm_coe _ _ _ Hm), (hm_dce _ _ _ Hm), (hm_dve _ _ _ Hm), hdve_R by lia. cbn [F RA]. field. exact d0. }
  assert (E2 : (6 / (dc h * dc h) * rsum NC (fun c => rr AreaCell [c] * (phi c * phi c)))%R = (3 * sqrt 3 * rsum NC (fun c => phi c * phi c))%R).
  { rewrite <- !rsum_scal. apply rsum_ext. intros c Hc. rewrite (hm_area _ _ _ Hm), hareac_R by lia. cbn [F RA]. field. exact d0. }
  rewrite E1, E2. apply Rmult_le_compat_l with (r := (sqrt 3 / 3)%R) in B; [|lra]. lra.
Qed.
(** The divergence, by duality. *)
Lemma div_bound (u : Z -> R) :
  (rsum NC (fun c => rr AreaCell [c] * (outflow m u c * outflow m u c)) <= 6 / (dc h * dc h) * rsum (3 * NC) (fun e => rr DcEdge [e] * rr DvEdge [e] * (u e * u e)))%R.
Proof.
  set (K := (6 / (dc h * dc h))%R). assert (dd : (0 < dc h * dc h)%R) by now apply Rmult_lt_0_compat.
  assert (K0 : (0 < K)%R) by (unfold K; apply Rdiv_lt_0_compat; lra).
  pose proof (gauss cf h ntr Hok Hdc m Hm (outflow m u) u N1 N2) as G. pose proof (grad_bound (outflow m u)) as B. fold K in B.
  set (phi := outflow m u) in *.
  set (Dv := rsum NC (fun c => rr AreaCell [c] * (phi c * phi c))%R) in *. set (U := rsum (3 * NC) (fun e => rr DcEdge [e] * rr DvEdge [e] * (u e * u e))%R).
  assert (G' : Dv = (- rsum (3 * NC) (fun e => rr DcEdge [e] * rr DvEdge [e] * u e * grad m phi e))%R).
  { rewrite <- G. unfold Dv. apply rsum_ext. intros. ring. }
  assert (A : (0 <= rsum (3 * NC) (fun e => rr DcEdge [e] * rr DvEdge [e] * ((K * u e + grad m phi e) * (K * u e + grad m phi e))))%R).
  { apply rsum_nonneg. intros e He. rewrite (hm_dce _ _ _ Hm), (hm_dve _ _ _ Hm) by lia. apply Rmult_le_pos; [|apply Rle_0_sqr].
    apply Rmult_le_pos; [lra|]. apply Rlt_le, (dve_pos h Hdc). }
  rewrite (rsum_ext (3 * NC) _ (fun e => (K * K) * (rr DcEdge [e] * rr DvEdge [e] * (u e * u e)) + 2 * K * (rr DcEdge [e] * rr DvEdge [e] * u e * grad m phi e) + rr DcEdge [e] * rr DvEdge [e] * (grad m phi e * grad m phi e))%R) in A by (intros; cbn [F RA]; ring).
  rewrite !rsum_plus, !rsum_scal in A. fold U in A.
  replace (rsum (3 * NC) (fun e => rr DcEdge [e] * rr DvEdge [e] * u e * grad m phi e))%R with (- Dv)%R in A by (rewrite G'; ring).
  apply Rmult_le_reg_l with K; [exact K0|]. lra.
Qed.
End OnMem.
