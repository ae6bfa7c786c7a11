(** Summation by parts on the built mesh: sums over cells or vertices turned into sums over edges. *)
From Coq Require Import ZArith Reals List Bool Lia Lra ZifyBool.
From Verif Require Import Arith Arrays Prog Conc Mesh RSum Spec Hex HexComb Launch MeshProof MeshMem MeshFacts MeshR MeshCalc.
Import ListNotations.
Open Scope Z_scope.

Section Comb.
Context (cf : config) (h : hexargs RA).
Local Notation X := (nx h).
Local Notation Y := (ny h).
Local Notation NC := (nx h * ny h).
Context (Hok : mesh_ok cf h).
Let Hx := Hx cf h Hok.
Let Hy := Hy cf h Hok.
Local Notation nb := (nb X Y).
Local Notation inb_ := (inb_ X Y).
Local Notation hE := (hE X Y).
Local Notation hV := (hV X Y).
Local Notation hcoe := (hcoe X Y).
Local Notation hvoe := (hvoe X Y).
Local Notation heoe := (heoe X Y).
Local Notation hcov := (hcov X Y).
Local Notation heov := (heov X Y).

Lemma NCp : 0 <= NC. Proof. pose proof Hx. pose proof Hy. nia. Qed.

Lemma nb_bij j (f : Z -> R) : 2 <= j < 6 -> rsum NC (fun c => f (nb c j)) = rsum NC f.
Proof.
  intros Hj. apply (rsum_bij NC (fun c => nb c j) f).
  - intros c Hc. apply nb_range; auto.
  - intros c d Hc Hd E. rewrite <- (inb_nb X Y Hx c j), <- (inb_nb X Y Hx d j) by lia. now rewrite E.
Qed.

(** Every edge is met twice: from its cell 0 at slots 3 - 5, from its cell 1 at slots 0 - 2. *)
Lemma cell_edge (G0 G1 : Z -> Z -> R) :
  rsum NC (fun c => rsum 6 (fun j => if j <? 3 then G1 c (hE c j) else G0 c (hE c j))) =
  rsum (3 * NC) (fun e => G0 (hcoe e 0) e + G1 (hcoe e 1) e)%R.
Proof.
  rewrite rsum_split3 by apply NCp.
  rewrite (rsum_ext NC _ (fun c => G1 c (3 * c)%Z + G1 c (3 * c + 1)%Z + G1 c (3 * c + 2)%Z
    + G0 c (3 * nb c 3)%Z + G0 c (3 * nb c 4 + 1)%Z + G0 c (3 * nb c 5 + 2)%Z)%R).
  2:{ intros c Hc. rewrite rsum_small6. unfold Hex.hE. cbn [Z.ltb Z.compare Pos.compare Pos.compare_cont].
      rewrite !Z.add_0_r. reflexivity. }
  rewrite !rsum_plus.
  rewrite (rsum_ext NC (fun c => G0 c (3 * nb c 3)%Z) (fun c => (fun d => G0 (inb_ d 3) (3 * d)%Z) (nb c 3))).
  2:{ intros c Hc. cbv beta. now rewrite (inb_nb X Y Hx) by lia. }
  rewrite (nb_bij 3 (fun d => G0 (inb_ d 3) (3 * d)%Z)) by lia.
  rewrite (rsum_ext NC (fun c => G0 c (3 * nb c 4 + 1)%Z) (fun c => (fun d => G0 (inb_ d 4) (3 * d + 1)%Z) (nb c 4))).
  2:{ intros c Hc. cbv beta. now rewrite (inb_nb X Y Hx) by lia. }
  rewrite (nb_bij 4 (fun d => G0 (inb_ d 4) (3 * d + 1)%Z)) by lia.
  rewrite (rsum_ext NC (fun c => G0 c (3 * nb c 5 + 2)%Z) (fun c => (fun d => G0 (inb_ d 5) (3 * d + 2)%Z) (nb c 5))).
  2:{ intros c Hc. cbv beta. now rewrite (inb_nb X Y Hx) by lia. }
  rewrite (nb_bij 5 (fun d => G0 (inb_ d 5) (3 * d + 2)%Z)) by lia.
  rewrite <- !rsum_plus. apply rsum_ext. intros c Hc.
  replace (3 * c) with (3 * c + 0) by lia. replace (3 * c + 0 + 1) with (3 * c + 1) by lia. replace (3 * c + 0 + 2) with (3 * c + 2) by lia.
  rewrite !hcoe_q by lia. cbn [Z.eqb Z.add Pos.add Pos.succ]. lra.
Qed.

(** Every edge is met twice by the vertices: as [eend] 0 and 1. *)
Lemma vertex_edge (G0 G1 : Z -> Z -> R) :
  rsum (2 * NC) (fun v => rsum 3 (fun s => if eend v s =? 0 then G0 v (heov v s) else G1 v (heov v s))) =
  rsum (3 * NC) (fun e => G0 (hvoe e 0) e + G1 (hvoe e 1) e)%R.
Proof.
  rewrite rsum_split3, rsum_split2 by apply NCp.
  rewrite (rsum_ext NC _ (fun d => G1 (2 * d)%Z (3 * d)%Z + G1 (2 * d)%Z (3 * inb_ d 2 + 2)%Z + G0 (2 * d)%Z (3 * inb_ d 2 + 1)%Z
    + G0 (2 * d + 1)%Z (3 * d)%Z + G0 (2 * d + 1)%Z (3 * inb_ d 3 + 2)%Z + G1 (2 * d + 1)%Z (3 * d + 1)%Z)%R).
  2:{ intros d Hd. rewrite !rsum_small3. unfold eend. rewrite !mod2', !mod2 by lia. rewrite !heov_e, !heov_o.
      cbn [Z.eqb Pos.eqb negb]. ring. }
  rewrite !rsum_plus.
  rewrite <- (nb_bij 2 (fun d => G1 (2 * d)%Z (3 * inb_ d 2 + 2)%Z)) by lia.
  rewrite <- (nb_bij 2 (fun d => G0 (2 * d)%Z (3 * inb_ d 2 + 1)%Z)) by lia.
  rewrite <- (nb_bij 3 (fun d => G0 (2 * d + 1)%Z (3 * inb_ d 3 + 2)%Z)) by lia.
  rewrite <- !rsum_plus. apply rsum_ext. intros c Hc. cbv beta. rewrite !(inb_nb X Y Hx) by lia.
  replace (3 * c) with (3 * c + 0) by lia. replace (3 * c + 0 + 1) with (3 * c + 1) by lia. replace (3 * c + 0 + 2) with (3 * c + 2) by lia.
  rewrite !hvoe_q by lia. unfold Hex.hV. cbn [Z.eqb Pos.eqb Z.add Pos.add Pos.succ]. ring.
Qed.

(** The weights do no work: [Q] symmetric. *)
Lemma weights_no_work (Q : Z -> Z -> R) : (forall e e', Q e e' = Q e' e) ->
  rsum (3 * NC) (fun e => rsum 10 (fun s => hw (A:=RA) e s * Q e (heoe e s)))%R = 0%R.
Proof.
  intros HQ.
  rewrite (rsum_ext _ _ (fun e => (sqrt 3 / 3) * ((fun c e => tpart h (Q e) c (3 + e mod 3)) (hcoe e 0) e + (fun c e => tpart h (Q e) c (e mod 3)) (hcoe e 1) e))%R).
  2:{ intros e He. pose proof (Z.div_mod e 3 ltac:(lia)) as E. pose proof (Z.mod_pos_bound e 3 ltac:(lia)) as Hq.
      assert (Hd : 0 <= e / 3 < NC) by (split; [apply Z.div_pos; lia|apply Z.div_lt_upper_bound; lia]).
      rewrite E. set (d := e / 3) in *. set (q := e mod 3) in *.
      rewrite (recon_sum h (Q (3 * d + q))) by auto. cbv beta. rewrite !hcoe_q, mod3 by lia. reflexivity. }
  rewrite rsum_scal.
  rewrite <- (cell_edge (fun c e => tpart h (Q e) c (3 + e mod 3)) (fun c e => tpart h (Q e) c (e mod 3))).
  rewrite rsum_zero; [lra|]. intros c Hc. rewrite rsum_small6. cbn [Z.ltb Z.compare Pos.compare Pos.compare_cont].
  rewrite !hE_mod_ by lia.
  repeat match goal with |- context [?a mod 3] => let v := eval vm_compute in (a mod 3) in change (a mod 3) with v end.
  cbn [Z.add Pos.add Pos.succ].
  unfold tpart. cbv zeta.
  repeat match goal with |- context [?a mod ?b] => let v := eval vm_compute in (a mod b) in change (a mod b) with v end.
  unfold cw. cbn [Z.eqb Pos.eqb].
  rewrite (HQ (hE c 1) (hE c 0)), (HQ (hE c 2) (hE c 0)), (HQ (hE c 3) (hE c 0)), (HQ (hE c 4) (hE c 0)), (HQ (hE c 5) (hE c 0)),
    (HQ (hE c 2) (hE c 1)), (HQ (hE c 3) (hE c 1)), (HQ (hE c 4) (hE c 1)), (HQ (hE c 5) (hE c 1)),
    (HQ (hE c 3) (hE c 2)), (HQ (hE c 4) (hE c 2)), (HQ (hE c 5) (hE c 2)),
    (HQ (hE c 4) (hE c 3)), (HQ (hE c 5) (hE c 3)), (HQ (hE c 5) (hE c 4)). lra.
Qed.
End Comb.

Section OnMem.
Context (cf : config) (h : hexargs RA) (ntr : Z).
Local Notation D := (dims_of cf h ntr).
Local Notation X := (nx h).
Local Notation Y := (ny h).
Local Notation NC := (nx h * ny h).
Context (Hok : mesh_ok cf h) (Hdc : (0 < (dc h : R))%R) (m : mem RA) (Hm : hexmem h (d_nlayers D) m).
Let Hx := Hx cf h Hok.
Let Hy := Hy cf h Hok.
Local Notation ri a ix := (mi m a ix%Z).
Local Notation rr a ix := (mr m a ix%Z : R).

Lemma dve_pos : (0 < hdve h)%R.
Proof. rewrite hdve_R. pose proof sqrt3_pos. nra. Qed.
Lemma area_pos : (0 < hareac h)%R.
Proof. rewrite hareac_R. pose proof sqrt3_pos. assert (0 < dc h * dc h)%R by nra. nra. Qed.
Lemma atri_pos : (0 < hatri h)%R.
Proof. rewrite hatri_R. pose proof sqrt3_pos. assert (0 < dc h * dc h)%R by nra. nra. Qed.
Lemma coe0_range e : 0 <= e < 3 * NC -> 0 <= ri CellsOnEdge [e; 0] < NC.
Proof. intros He. rewrite (hm_coe _ _ _ Hm) by lia. apply hcoe_range; auto; lia. Qed.
Lemma coe1_range e : 0 <= e < 3 * NC -> 0 <= ri CellsOnEdge [e; 1] < NC.
Proof. intros He. rewrite (hm_coe _ _ _ Hm) by lia. apply hcoe_range; auto; lia. Qed.
Lemma voe0_range e : 0 <= e < 3 * NC -> 0 <= ri VerticesOnEdge [e; 0] < 2 * NC.
Proof. intros He. rewrite (hm_voe _ _ _ Hm) by lia. apply hvoe_range; auto; lia. Qed.
Lemma voe1_range e : 0 <= e < 3 * NC -> 0 <= ri VerticesOnEdge [e; 1] < 2 * NC.
Proof. intros He. rewrite (hm_voe _ _ _ Hm) by lia. apply hvoe_range; auto; lia. Qed.

(** Discrete Gauss theorem. *)
Lemma gauss (phi g : Z -> R) : 2 <= X -> 2 <= Y ->
  rsum NC (fun c => rr AreaCell [c] * phi c * outflow m g c)%R =
  (- rsum (3 * NC) (fun e => rr DcEdge [e] * rr DvEdge [e] * g e * grad m phi e))%R.
Proof.
  intros H1 H2. pose proof area_pos as Ha.
  rewrite (rsum_ext NC _ (fun c => rsum 6 (fun j => if j <? 3 then (fun c e => - (hdve h * phi c * g e)) c (hE X Y c j) else (fun c e => hdve h * phi c * g e) c (hE X Y c j)))%R).
  2:{ intros c Hc. rewrite (outflow_eq cf h ntr Hok m Hm) by lia. rewrite (hm_area _ _ _ Hm) by lia.
      transitivity (hdve h * phi c * rsum 6 (fun j => cs h c j * g (hE X Y c j)))%R; [field; lra|].
      rewrite <- rsum_scal. apply rsum_ext. intros j Hj. rewrite (cs_closed cf h Hok) by lia. destruct (j <? 3); ring. }
  rewrite (cell_edge cf h Hok (fun c e => hdve h * phi c * g e)%R (fun c e => - (hdve h * phi c * g e))%R).
  rewrite <- rsum_opp. apply rsum_ext. intros e He. cbv beta. unfold grad.
  rewrite !(hm_coe _ _ _ Hm), (hm_dce _ _ _ Hm), (hm_dve _ _ _ Hm) by lia. field. lra.
Qed.
(** Discrete Stokes theorem. *)
Lemma stokes (psi g : Z -> R) :
  rsum (2 * NC) (fun v => psi v * circ m g v)%R =
  rsum (3 * NC) (fun e => rr DcEdge [e] * rr DvEdge [e] * g e * rgrad m psi e)%R.
Proof.
  pose proof dve_pos as Ha.
  rewrite (rsum_ext (2 * NC) _ (fun v => rsum 3 (fun s => if eend v s =? 0 then (fun v e => - (dc h * psi v * g e)) v (heov X Y v s) else (fun v e => dc h * psi v * g e) v (heov X Y v s)))%R).
  2:{ intros v Hv. rewrite (circ_eq cf h ntr Hok m Hm) by lia. rewrite <- Rmult_assoc, <- rsum_scal. apply rsum_ext. intros s Hs.
      unfold vs, hesv. rewrite (hesv_closed X Y Hx Hy) by lia. destruct (eend v s =? 0); ring. }
  rewrite (vertex_edge cf h Hok (fun c e => - (dc h * psi c * g e))%R (fun c e => dc h * psi c * g e)%R).
  apply rsum_ext. intros e He. cbv beta. unfold rgrad.
  rewrite !(hm_voe _ _ _ Hm), (hm_dce _ _ _ Hm), (hm_dve _ _ _ Hm) by lia. field. lra.
Qed.
(** Averages over the edges of cells against sums over edges; signs do not matter. *)
Lemma cell_mean (phi g : Z -> R) :
  rsum NC (fun c => phi c * rsum (ri NedgesOnCell [c]) (fun j => let e := ri EdgesOnCell [c; j] in rr DvEdge [e] * rr DcEdge [e] * g e))%R =
  rsum (3 * NC) (fun e => rr DcEdge [e] * rr DvEdge [e] * g e * (phi (ri CellsOnEdge [e; 0]) + phi (ri CellsOnEdge [e; 1])))%R.
Proof.
  rewrite (rsum_ext NC _ (fun c => rsum 6 (fun j => if j <? 3 then (fun c e => hdve h * dc h * phi c * g e) c (hE X Y c j) else (fun c e => hdve h * dc h * phi c * g e) c (hE X Y c j)))%R).
  2:{ intros c Hc. rewrite (hm_noc _ _ _ Hm) by lia. rewrite <- rsum_scal. apply rsum_ext. intros j Hj. cbv zeta.
      rewrite (hm_eoc _ _ _ Hm) by lia. pose proof (hE_range X Y Hx Hy c j Hc Hj).
      rewrite (hm_dce _ _ _ Hm), (hm_dve _ _ _ Hm) by lia. destruct (j <? 3); ring. }
  rewrite (cell_edge cf h Hok (fun c e => hdve h * dc h * phi c * g e)%R (fun c e => hdve h * dc h * phi c * g e)%R).
  apply rsum_ext. intros e He. cbv beta.
  rewrite !(hm_coe _ _ _ Hm), (hm_dce _ _ _ Hm), (hm_dve _ _ _ Hm) by lia. ring.
Qed.
(** The tangential reconstruction is antisymmetric. *)
Lemma no_work (Q : Z -> Z -> R) : (forall e e', Q e e' = Q e' e) ->
  rsum (3 * NC) (fun e => rr DcEdge [e] * rr DvEdge [e] * rsum (ri NedgesOnEdge [e]) (fun j => rr WeightsOnEdge [e; j] * Q e (ri EdgesOnEdge [e; j])))%R = 0%R.
Proof.
  intros HQ.
  rewrite (rsum_ext _ _ (fun e => dc h * hdve h * rsum 10 (fun s => hw (A:=RA) e s * Q e (heoe X Y e s)))%R).
  2:{ intros e He. rewrite (hm_noe _ _ _ Hm), (hm_dce _ _ _ Hm), (hm_dve _ _ _ Hm) by lia. f_equal. apply rsum_ext. intros s Hs.
      now rewrite (hm_w _ _ _ Hm), (hm_eoe _ _ _ Hm) by lia. }
  rewrite rsum_scal, (weights_no_work cf h Hok Q HQ). ring.
Qed.
End OnMem.
