(** Integral identities behind the conservation properties. *)
From Coq Require Import ZArith Reals List Bool Lia Lra.
From Verif Require Import Arith Arrays Prog Conc Launch Mesh AuxVars Tend Model Hex HexComb RSum Spec MeshProof MeshMem MeshFacts MeshR MeshCalc SumParts Over Formulas RealOps KernBase Terms KernAux KernTend TendFn StepFn Ready Rel RelRun Relate TendVal RealTend.
Import ListNotations.
Open Scope Z_scope.

Section ConsBase.
Context (S : setup RA) (Hok : setup_ok S) (Hdc : (0 < (dc (mesh_of_setup S) : R))%R) (m : mem RA) (Hr : ready S m).
Local Notation cf := (cfg_of S).
Local Notation P := (par_of S).
Local Notation h := (mesh_of_setup S).
Local Notation D := (sdims S).
Local Notation X := (nx h).
Local Notation Y := (ny h).
Local Notation NC := (nx h * ny h).
Local Notation NL := (d_nlayers D).
Let Hm0 : mesh_ok cf h := proj1 Hok.
Let Hh : hexmem h (d_nlayers (dims_of cf h (ntracers P))) m := ready_hex S Hok m Hr.
Let Hw : wfm D m := ready_wfm S Hok m Hr.
Local Notation ri b ix := (mi m b ix%Z).
Local Notation rr b ix := (mr m b ix%Z : R).
Local Notation gauss := (gauss cf h (ntracers P) Hm0 Hdc m Hh).
Local Notation stokes := (stokes cf h (ntracers P) Hm0 Hdc m Hh).
Local Notation cell_mean := (cell_mean cf h (ntracers P) Hm0 m Hh).
Local Notation no_work := (no_work cf h (ntracers P) Hm0 m Hh).

Lemma cb_area c : 0 <= c < NC -> (0 < rr AreaCell [c])%R.
Proof. intros Hc. rewrite (hm_area _ _ _ Hh) by lia. apply (area_pos h Hdc). Qed.
Lemma cb_dc e : 0 <= e < 3 * NC -> (0 < rr DcEdge [e])%R.
Proof. intros Hc. rewrite (hm_dce _ _ _ Hh) by lia. exact Hdc. Qed.
Lemma cb_dv e : 0 <= e < 3 * NC -> (0 < rr DvEdge [e])%R.
Proof. intros Hc. rewrite (hm_dve _ _ _ Hh) by lia. apply (dve_pos h Hdc). Qed.
Lemma cb_atri v : 0 <= v < 2 * NC -> (0 < rr AreaTriangle [v])%R.
Proof. intros Hc. rewrite (hm_atri _ _ _ Hh) by lia. apply (atri_pos h Hdc). Qed.

Lemma grad_const phi e : phi (ri CellsOnEdge [e; 1]) = phi (ri CellsOnEdge [e; 0]) -> grad m phi e = 0%R.
Proof. intros E. unfold grad. rewrite E. unfold Rdiv. ring. Qed.
Lemma rgrad_const phi e : phi (ri VerticesOnEdge [e; 1]) = phi (ri VerticesOnEdge [e; 0]) -> rgrad m phi e = 0%R.
Proof. intros E. unfold rgrad. rewrite E. unfold Rdiv. ring. Qed.

Lemma outflow_scal a g c : outflow m (fun e => a * g e)%R c = (a * outflow m g c)%R.
Proof.
  unfold outflow. rewrite (rsum_ext _ _ (fun j => a * (let e := ri EdgesOnCell [c; j] in rr EdgeSignOnCell [c; j] * rr DvEdge [e] * g e))%R)
    by (intros; cbv zeta; ring).
  rewrite rsum_scal. unfold Rdiv. ring.
Qed.
Lemma outflow_zero g c : 0 <= c < NC -> (forall e, 0 <= e < 3 * NC -> g e = 0%R) -> outflow m g c = 0%R.
Proof.
  intros Hc E. rewrite (outflow_ext S Hok m Hr g (fun e => 0 * 0)%R) by (intros; rewrite ?E by assumption; auto; ring).
  rewrite (outflow_scal 0 (fun _ => 0%R)). ring.
Qed.
Lemma circ_zero g v : 0 <= v < 2 * NC -> (forall e, 0 <= e < 3 * NC -> g e = 0%R) -> circ m g v = 0%R.
Proof.
  intros Hv E. rewrite (circ_ext S Hok m Hr g (fun e => 0)%R) by assumption.
  unfold circ. apply rsum_zero. intros. cbv zeta. ring.
Qed.

(** Integrals of fluxes and of vorticity vanish. *)
Lemma out_sum0 g : 2 <= X -> 2 <= Y -> rsum NC (fun c => rr AreaCell [c] * outflow m g c)%R = 0%R.
Proof.
  intros H1 H2. pose proof (gauss (fun _ => 1%R) g H1 H2) as G.
  rewrite (rsum_ext NC _ (fun c => rr AreaCell [c] * outflow m g c)%R) in G by (intros; ring). rewrite G.
  rewrite rsum_zero; [ring|]. intros e He. rewrite grad_const by reflexivity. ring.
Qed.
Lemma circ_sum0 g : rsum (2 * NC) (fun v => circ m g v) = 0%R.
Proof.
  pose proof (stokes (fun _ => 1%R) g) as G.
  rewrite (rsum_ext (2 * NC) _ (fun v => circ m g v)%R) in G by (intros; ring). rewrite G.
  apply rsum_zero. intros e He. rewrite rgrad_const by reflexivity. ring.
Qed.

(** The potential vorticity flux does no work. *)
Lemma pv_no_work f q u : rsum (3 * NC) (fun e => rr DcEdge [e] * rr DvEdge [e] * (emean m q e * u e) * pvflux m f q u e)%R = 0%R.
Proof.
  rewrite <- (no_work (fun e e' => emean m q e * u e * (emean m q e' * u e') * ((pvedge m f q u e + pvedge m f q u e') / 2))%R)
    by (intros; unfold Rdiv; ring).
  apply rsum_ext. intros e He. unfold pvflux. rewrite Rmult_assoc. f_equal. rewrite <- rsum_scal.
  apply rsum_ext. intros j Hj. cbv zeta. ring.
Qed.

(** Kinetic energy as a quadratic form. *)
Definition kinb (u w : Z -> R) (c : Z) : R :=
  (rsum (ri NedgesOnCell [c]) (fun j => let e := ri EdgesOnCell [c; j] in rr DvEdge [e] * rr DcEdge [e] * (u e * w e)) / rr AreaCell [c] / 4)%R.
Lemma kin_pert u w eps c : kin m (fun e => u e + eps * w e)%R c = (kin m u c + 2 * eps * kinb u w c + eps * eps * kin m w c)%R.
Proof.
  unfold kin, kinb.
  rewrite (rsum_ext _ _ (fun j => (let e := ri EdgesOnCell [c; j] in rr DvEdge [e] * rr DcEdge [e] * (u e * u e)) +
    (2 * eps * (let e := ri EdgesOnCell [c; j] in rr DvEdge [e] * rr DcEdge [e] * (u e * w e)) +
     eps * eps * (let e := ri EdgesOnCell [c; j] in rr DvEdge [e] * rr DcEdge [e] * (w e * w e))))%R) by (intros; cbv zeta; ring).
  rewrite !rsum_plus, !rsum_scal. unfold Rdiv. ring.
Qed.

(** Rate of change of the energy. *)
Lemma energy_rate f g q u kh kv : 2 <= X -> 2 <= Y ->
  (forall c, 0 <= c < NC -> kh c = (- outflow m (fun e => emean m q e * u e) c)%R) ->
  (forall e, 0 <= e < 3 * NC -> kv e = (pvflux m f q u e - grad m (kin m u) e - g * grad m q e)%R) ->
  rsum NC (fun c => rr AreaCell [c] * (g * q c * kh c + kh c * kin m u c + 2 * (q c * kinb u kv c)))%R = 0%R.
Proof.
  intros H1 H2 Eh Ev.
  rewrite (rsum_ext _ _ (fun c => - (rr AreaCell [c] * (g * q c + kin m u c) * outflow m (fun e => emean m q e * u e) c) +
     / 2 * (q c * rsum (ri NedgesOnCell [c]) (fun j => let e := ri EdgesOnCell [c; j] in rr DvEdge [e] * rr DcEdge [e] * (u e * kv e))))%R).
  2:{ intros c Hc. rewrite Eh by assumption. unfold kinb. pose proof (cb_area c Hc). field. lra. }
  rewrite rsum_plus, rsum_opp, rsum_scal.
  rewrite (gauss (fun c => g * q c + kin m u c)%R (fun e => emean m q e * u e)%R H1 H2), (cell_mean q (fun e => u e * kv e)%R).
  rewrite Ropp_involutive, <- rsum_scal, <- rsum_plus.
  rewrite <- (pv_no_work f q u). apply rsum_ext. intros e He. rewrite Ev by assumption. unfold grad, emean.
  pose proof (cb_dc e He). field. lra.
Qed.

(** ** Dissipation *)
Lemma cb_dcdv e : 0 <= e < 3 * NC -> (0 < rr DcEdge [e] * rr DvEdge [e])%R.
Proof. intros He. pose proof (cb_dc e He). pose proof (cb_dv e He). nra. Qed.
Lemma vlap'_work u w w' : 2 <= X -> 2 <= Y ->
  rsum (3 * NC) (fun e => rr DcEdge [e] * rr DvEdge [e] * u e * vlap' m w w' e)%R =
  (- rsum NC (fun c => rr AreaCell [c] * outflow m u c * outflow m w c)
   - rsum (2 * NC) (fun v => rr AreaTriangle [v] * vort m u v * vort m w' v))%R.
Proof.
  intros H1 H2. unfold vlap'.
  rewrite (rsum_ext _ _ (fun e => rr DcEdge [e] * rr DvEdge [e] * u e * grad m (outflow m w) e - rr DcEdge [e] * rr DvEdge [e] * u e * rgrad m (vort m w') e)%R)
    by (intros; ring).
  rewrite rsum_minus, <- (stokes (vort m w') u). apply (f_equal2 Rminus).
  - pose proof (gauss (outflow m w) u H1 H2) as G. apply Ropp_eq_compat in G. rewrite Ropp_involutive in G. rewrite <- G.
    f_equal. apply rsum_ext. intros. ring.
  - apply rsum_ext. intros v Hv. unfold vort at 2. pose proof (cb_atri v Hv). field. lra.
Qed.
Lemma vlap_work u : 2 <= X -> 2 <= Y ->
  (rsum (3 * NC) (fun e => rr DcEdge [e] * rr DvEdge [e] * u e * vlap m u e) <= 0)%R.
Proof.
  intros H1 H2. pose proof (vlap'_work u u u H1 H2) as G. unfold vlap' in G. unfold vlap. rewrite G.
  assert (0 <= rsum NC (fun c => rr AreaCell [c] * outflow m u c * outflow m u c))%R.
  { apply rsum_nonneg. intros c Hc. pose proof (cb_area c Hc). rewrite Rmult_assoc. apply Rmult_le_pos; [lra|]. apply Rle_0_sqr. }
  assert (0 <= rsum (2 * NC) (fun v => rr AreaTriangle [v] * vort m u v * vort m u v))%R.
  { apply rsum_nonneg. intros c Hc. pose proof (cb_atri c Hc). rewrite Rmult_assoc. apply Rmult_le_pos; [lra|]. apply Rle_0_sqr. }
  lra.
Qed.
Lemma hyper_work u : 2 <= X -> 2 <= Y ->
  rsum (3 * NC) (fun e => rr DcEdge [e] * rr DvEdge [e] * u e * vlap' m (vlap m u) (vlap m u) e)%R =
  rsum (3 * NC) (fun e => rr DcEdge [e] * rr DvEdge [e] * (vlap m u e * vlap m u e))%R.
Proof.
  intros H1 H2. rewrite vlap'_work by assumption.
  pose proof (vlap'_work (vlap m u) u u H1 H2) as G.
  rewrite (rsum_ext (3 * NC) _ (fun e => rr DcEdge [e] * rr DvEdge [e] * vlap m u e * vlap' m u u e)%R)
    by (intros; unfold vlap, vlap'; ring).
  rewrite G. apply (f_equal2 Rminus); [apply (f_equal Ropp)|]; apply rsum_ext; intros; ring.
Qed.
(** Diffusion of a concentration. *)
Lemma diff_work q r : 2 <= X -> 2 <= Y ->
  rsum NC (fun c => rr AreaCell [c] * r c * outflow m (fun e => q e * grad m r e) c)%R =
  (- rsum (3 * NC) (fun e => rr DcEdge [e] * rr DvEdge [e] * (q e * (grad m r e * grad m r e))))%R.
Proof.
  intros H1 H2. rewrite gauss by assumption. f_equal. apply rsum_ext. intros. ring.
Qed.

(** ** Uniform flow *)
Section Uniform.
Context (U V : R).
Definition uni (e : Z) : R := (U * cos (rr AngleEdge [e]) + V * sin (rr AngleEdge [e]))%R.
Definition uq (q : Z) : R := (U * cos (ang q) + V * sin (ang q))%R.
Lemma uni_q e q : 0 <= e < 3 * NC -> e mod 3 = q -> uni e = uq q.
Proof. intros He <-. unfold uni. rewrite (hm_ang _ _ _ Hh) by lia. now rewrite hang_R. Qed.
Lemma uq_val : uq 0 = U /\ uq 1 = (U / 2 + V * (sqrt 3 / 2))%R /\ uq 2 = (- (U / 2) + V * (sqrt 3 / 2))%R.
Proof.
  unfold uq, ang. cbn [Z.eqb Pos.eqb]. rewrite cos_0, sin_0, cos_PI3, sin_PI3, cos_2PI3, sin_2PI3. repeat split; field.
Qed.
Lemma uq_sum : uq 1 = (uq 0 + uq 2)%R.
Proof. destruct uq_val as (-> & -> & ->). field. Qed.
Lemma uni_hE c j : 0 <= c < NC -> 0 <= j < 6 -> uni (hE X Y c j) = uq (j mod 3).
Proof.
  intros Hc Hj. apply uni_q; [apply hE_range; auto; apply Hm0|]. apply hE_mod_. exact Hj.
Qed.
Lemma uni_outflow c : 2 <= X -> 2 <= Y -> 0 <= c < NC -> outflow m uni c = 0%R.
Proof.
  intros H1 H2 Hc. rewrite (outflow_eq cf h (ntracers P) Hm0 m Hh) by assumption. rewrite rsum_small6.
  rewrite !(cs_closed cf h Hm0), !uni_hE by (assumption || lia).
  change (0 mod 3) with 0. change (1 mod 3) with 1. change (2 mod 3) with 2. change (3 mod 3) with 0. change (4 mod 3) with 1. change (5 mod 3) with 2.
  cbn [Z.ltb Z.compare Pos.compare Pos.compare_cont]. ring.
Qed.
Lemma uni_circ v : 0 <= v < 2 * NC -> circ m uni v = 0%R.
Proof.
  intros Hv. rewrite (circ_eq cf h (ntracers P) Hm0 m Hh), (curl_sum cf h Hm0) by assumption.
  assert (Hd : 0 <= v / 2 < NC) by (split; [apply Z.div_pos; lia|apply Z.div_lt_upper_bound; lia]).
  assert (Hn : forall j, 2 <= j < 6 -> 0 <= inb_ X Y (v / 2) j < NC) by (intros; apply inb_range; auto; apply Hm0).
  pose proof (Hn 2 ltac:(lia)). pose proof (Hn 3 ltac:(lia)).
  assert (E : forall d q, 0 <= d < NC -> 0 <= q < 3 -> uni (3 * d + q) = uq q).
  { intros d q Hd' Hq. apply uni_q; [lia|]. now apply mod3. }
  assert (E0 : uni (3 * (v / 2)) = uq 0) by (rewrite <- (E (v / 2) 0) by lia; f_equal; lia).
  rewrite E0, !E by lia. pose proof uq_sum as Q. destruct (v mod 2 =? 0); rewrite Q; ring.
Qed.
Lemma uni_kin c : 0 <= c < NC -> kin m uni c = ((U * U + V * V) / 2)%R.
Proof.
  intros Hc. unfold kin. rewrite (hm_noc _ _ _ Hh), (hm_area _ _ _ Hh) by assumption.
  rewrite (rsum_ext _ _ (fun j => hdve h * dc h * (uq (j mod 3) * uq (j mod 3)))%R).
  2:{ intros j Hj. cbv zeta. rewrite (hm_eoc _ _ _ Hh) by assumption.
      pose proof (hE_range X Y ltac:(apply Hm0) ltac:(apply Hm0) c j Hc Hj) as He.
      rewrite (hm_dve _ _ _ Hh), (hm_dce _ _ _ Hh), uni_hE by assumption. reflexivity. }
  rewrite rsum_small6, hareac_R, hdve_R.
  change (0 mod 3) with 0. change (1 mod 3) with 1. change (2 mod 3) with 2. change (3 mod 3) with 0. change (4 mod 3) with 1. change (5 mod 3) with 2.
  destruct uq_val as (-> & -> & ->). pose proof sqrt3_pos. pose proof sqrt3_sq as Q.
  assert (dc h <> 0 :> R)%R by lra. set (d := dc h : R) in *. set (s := sqrt 3) in *.
  transitivity (U * U / 2 + V * V * (s * s) / 6)%R.
  { field. split; lra. }
  rewrite Q. field.
Qed.
End Uniform.
End ConsBase.
