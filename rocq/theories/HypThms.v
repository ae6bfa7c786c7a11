(** Proofs about what hyperdiffusion does to the variance of a tracer. *)
From Coq Require Import ZArith Reals List Bool Lia Lra Psatz.
From Verif Require Import Arith Arrays Prog Conc Launch Mesh AuxVars Tend Model Hex HexComb RSum Spec MeshProof MeshMem MeshR MeshCalc Over Formulas KernBase TendFn Ready TendVal StepVal StepRun StepThms RealTend SumParts Diag FieldInv ConsBase ConsThms SteadyThms Diffuse.
Import ListNotations.
Open Scope Z_scope.

(** The same setup with another coefficient of hyperdiffusion. *)
Definition set_eddy_diff4 {A} (S : setup A) (x : F A) : setup A := let P := par_of S in
  mkSetup (cfg_of S) (mesh_of_setup S) (mkParams (f0 P) (grav P) (drag_coeff P) (visc_del2 P) (visc_del4 P) (eddy_diff2 P) x (ntracers P) (disable_h P) (disable_vn P)) (hook S).

Section Hyp.
Context (S : setup RA) (Hok : setup_ok S) (Hdc : (0 < (dc (mesh_of_setup S) : R))%R) (H1 : 2 <= nx (mesh_of_setup S)) (H2 : 2 <= ny (mesh_of_setup S)).
Local Notation X := (nx (mesh_of_setup S)).
Local Notation Y := (ny (mesh_of_setup S)).
Local Notation NC := (X * Y).
Local Notation NL := (d_nlayers (sdims S)).

(** The variance work of hyperdiffusion, as a sum over the edges. *)
Lemma hyp_work (t s : sid) (time : R) md m m1 m0 (Hst : s <> t) (Hr : ready S m) l k : 0 <= l < ntracers (par_of S) -> 0 <= k < NL ->
  exec (sdims S) (compute_tendency S t s time md) m (OK m1) -> exec (sdims S) (compute_tendency (set_eddy_diff4 S (IZR 0)) t s time md) m (OK m0) ->
  let q c := mr m (HCell s) [c; k] : R in let r c := (mr m (TrCell s) [l; c; k] / mr m (HCell s) [c; k])%R in
  rsum NC (fun c => mr m AreaCell [c] * r c * (mr m1 (TrCell t) [l; c; k] - mr m0 (TrCell t) [l; c; k]))%R =
  (Rmax 0 (eddy_diff4 (par_of S)) * rsum (3 * NC) (fun e => mr m DcEdge [e] * mr m DvEdge [e] * (emean m q e * grad m r e) * grad m (lap m r) e))%R.
Proof.
  intros Hl Hk X1 X0 q r. apply (tendency_exec S Hok) in X1; auto. apply (tendency_exec (set_eddy_diff4 S (IZR 0)) Hok) in X0; auto.
  destruct X1 as [_ X1], X0 as [_ X0]. set (D := outflow m (fun e => emean m q e * grad m r e)%R).
  transitivity (rsum NC (fun c => - Rmax 0 (eddy_diff4 (par_of S)) * (mr m AreaCell [c] * r c * outflow m (grad m D) c))%R).
  { apply rsum_ext. intros c Hc. rewrite X1, X0. rewrite (T_tr S Hok m Hr), (T_tr (set_eddy_diff4 S (IZR 0)) Hok m Hr) by assumption.
    unfold ttend. cbv zeta. cbn [set_eddy_diff4 par_of]. fold q. fold r. fold D.
    assert (E0 : tracer_hyperdiff_enabled (mkParams (f0 (par_of S)) (grav (par_of S)) (drag_coeff (par_of S)) (visc_del2 (par_of S)) (visc_del4 (par_of S)) (eddy_diff2 (par_of S)) (IZR 0) (ntracers (par_of S)) (disable_h (par_of S)) (disable_vn (par_of S))) = false)
      by (apply disabled_le; apply Rle_refl).
    rewrite E0. unfold tracer_diff_enabled, tracer_hyperdiff_enabled. cbn [eddy_diff2 flt RA fofZ].
    destruct (Rlt_dec 0 (eddy_diff4 (par_of S))) as [P4|P4]; [rewrite (Rmax_right 0 (eddy_diff4 (par_of S))) by (apply Rlt_le, P4)|rewrite (Rmax_left 0 (eddy_diff4 (par_of S))) by (apply Rnot_lt_le, P4)];
    destruct (Rlt_dec 0 (eddy_diff2 (par_of S))); cbn [F RA]; ring. }
  rewrite rsum_scal. pose proof (gauss _ _ (ntracers (par_of S)) (proj1 Hok) Hdc m (ready_hex S Hok m Hr)) as G.
  rewrite (G r (grad m D) H1 H2).
  assert (E : rsum (3 * NC) (fun e => mr m DcEdge [e] * mr m DvEdge [e] * grad m D e * grad m r e)%R = rsum (3 * NC) (fun e => mr m DcEdge [e] * mr m DvEdge [e] * (emean m q e * grad m r e) * grad m (lap m r) e)%R).
  { pose proof (G D (grad m r) H1 H2) as G1. pose proof (G (lap m r) (fun e => emean m q e * grad m r e)%R H1 H2) as G2. fold D in G2.
    rewrite (rsum_ext NC _ (fun c => mr m AreaCell [c] * D c * outflow m (grad m r) c)%R) in G2 by (intros; unfold lap; cbn [F RA]; ring).
    rewrite (rsum_ext (3 * NC) _ (fun e => mr m DcEdge [e] * mr m DvEdge [e] * grad m r e * grad m D e)%R) by (intros; cbn [F RA]; ring).
    rewrite G1 in G2. lra. }
  rewrite E. ring.
Qed.

(** Uniform thickness. *)
Lemma hyp_uniform m (Hr : ready S m) q r H : (forall c, 0 <= c < NC -> q c = H) ->
  rsum (3 * NC) (fun e => mr m DcEdge [e] * mr m DvEdge [e] * (emean m q e * grad m r e) * grad m (lap m r) e)%R = (- (H * rsum NC (fun c => mr m AreaCell [c] * (lap m r c * lap m r c))))%R.
Proof.
  intros Hq. pose proof (gauss _ _ (ntracers (par_of S)) (proj1 Hok) Hdc m (ready_hex S Hok m Hr) (lap m r) (grad m r) H1 H2) as G.
  rewrite (rsum_ext (3 * NC) _ (fun e => H * (mr m DcEdge [e] * mr m DvEdge [e] * grad m r e * grad m (lap m r) e))%R).
  2:{ intros e He. unfold emean. rewrite !Hq by (apply (wf_coe _ _ (ready_wfm S Hok m Hr)); auto; lia). cbn [F RA]. field. }
  rewrite rsum_scal. rewrite (rsum_ext NC _ (fun c => mr m AreaCell [c] * lap m r c * outflow m (grad m r) c)%R) by (intros; unfold lap; cbn [F RA]; ring).
  rewrite G. ring.
Qed.
Lemma lap_zero m (Hr : ready S m) r : rsum NC (fun c => mr m AreaCell [c] * (lap m r c * lap m r c))%R = 0%R -> forall e, 0 <= e < 3 * NC -> r (mi m CellsOnEdge [e; 0]) = r (mi m CellsOnEdge [e; 1]).
Proof.
  intros Z0 e He.
  assert (Zc : forall c, 0 <= c < NC -> lap m r c = 0%R).
  { intros c Hc. pose proof (rsum_zero_each NC (fun c => mr m AreaCell [c] * (lap m r c * lap m r c))%R) as Q. cbv beta in Q.
    assert (Pa : forall c, 0 <= c < NC -> (0 < mr m AreaCell [c])%R) by (intros c' Hc'; rewrite (hm_area _ _ _ (ready_hex S Hok m Hr)) by lia; apply (area_pos (mesh_of_setup S) Hdc)).
    assert (Zq := Q ltac:(intros c' Hc'; apply Rmult_le_pos; [apply Rlt_le, Pa, Hc'|apply Rle_0_sqr]) Z0 c Hc).
    apply Rmult_integral in Zq. specialize (Pa c Hc). destruct Zq as [Zq|Zq]; [lra|]. apply Rmult_integral in Zq. now destruct Zq. }
  pose proof (diff_work S Hok Hdc m Hr (fun _ => 1%R) r H1 H2) as G.
  rewrite (rsum_ext NC _ (fun c => 0 * 0)%R) in G.
  2:{ intros c Hc. rewrite (outflow_ext S Hok m Hr _ (grad m r)) by (try exact Hc; intros; ring). change (outflow m (grad m r) c) with (lap m r c). rewrite Zc by exact Hc. ring. }
  rewrite rsum_scal, Rmult_0_l in G.
  assert (P0 : forall e, 0 <= e < 3 * NC -> (0 <= mr m DcEdge [e] * mr m DvEdge [e] * (1 * (grad m r e * grad m r e)))%R).
  { intros e' He'. apply Rmult_le_pos; [apply Rlt_le; now apply (cb_dcdv S Hok Hdc m Hr)|]. apply Rmult_le_pos; [lra|apply Rle_0_sqr]. }
  assert (Ze := rsum_zero_each _ _ P0 ltac:(cbn [F RA] in *; lra) e He). cbv beta in Ze.
  pose proof (cb_dcdv S Hok Hdc m Hr e He) as D0. apply Rmult_integral in Ze. destruct Ze as [Ze|Ze]; [lra|].
  rewrite Rmult_1_l in Ze. apply Rmult_integral in Ze. assert (G0 : grad m r e = 0%R) by (destruct Ze; assumption). unfold grad in G0.
  pose proof (cb_dc S Hok Hdc m Hr e He) as D1. apply (Rmult_eq_compat_r (mr m DcEdge [e])) in G0. unfold Rdiv in G0. rewrite Rmult_assoc, Rinv_l in G0 by lra. lra.
Qed.

(** A field and a thickness for which the work is positive: three cells in a row. *)
Context (HX : 4 <= X).
Definition rw (c : Z) : R := if c =? 1 then 1%R else if c =? 2 then 20%R else 0%R.
Definition d0 (c : Z) : R := if c =? 0 then 1%R else 0%R.
Lemma row0 c : 0 <= c < X -> colof X c = c /\ rowof X c = 0.
Proof. intros Hc. unfold colof, rowof. split; [now apply Z.mod_small|now apply Z.div_small]. Qed.
Lemma later c i r : 0 <= i < X -> 1 <= r -> c < X -> cix X i r <> c.
Proof. intros Hi Hr Hc. unfold cix. nia. Qed.
Lemma inb_0 j : 3 <= j < 6 -> inb_ X Y 0 j <> 2.
Proof.
  intros Hj. unfold inb_. destruct (row0 0 ltac:(lia)) as [-> ->]. cbv zeta. 
  assert (j = 3 \/ j = 4 \/ j = 5) as [-> | [-> | ->]] by lia; cbn [Z.eqb Pos.eqb].
  - unfold cix, mxc. cbn [Z.eqb]. lia.
  - apply later; try lia; unfold mxc, myr; cbn [Z.eqb]; try destruct (Z.even _); lia.
  - apply later; try lia; unfold pxc, myr; change (0 =? 0) with true; cbv iota; try destruct (Z.even _); try destruct (Z.eqb_spec 0 (X - 1)); lia.
Qed.
Lemma inb_2 j : 3 <= j < 6 -> inb_ X Y 2 j <> 0.
Proof.
  intros Hj. unfold inb_. destruct (row0 2 ltac:(lia)) as [-> ->]. cbv zeta. 
  assert (j = 3 \/ j = 4 \/ j = 5) as [-> | [-> | ->]] by lia; cbn [Z.eqb Pos.eqb].
  - unfold cix, mxc. cbn [Z.eqb]. lia.
  - apply later; try lia; unfold mxc, myr; cbn [Z.eqb]; try destruct (Z.even _); lia.
  - apply later; try lia; unfold pxc, myr; change (0 =? 0) with true; cbv iota; try destruct (Z.even _); try destruct (Z.eqb_spec 2 (X - 1)); lia.
Qed.
Lemma nbr_0 j : 0 <= j < 6 -> nbr X Y 0 j <> 2.
Proof.
  intros Hj. unfold nbr. destruct (Z.ltb_spec j 3); [apply inb_0; lia|]. unfold nb. destruct (row0 0 ltac:(lia)) as [-> ->].
  assert (E1 : pyr Y 0 = 1) by (unfold pyr; destruct (Z.eqb_spec 0 (Y - 1)); lia). assert (E2 : pxc X 0 = 1) by (unfold pxc; destruct (Z.eqb_spec 0 (X - 1)); lia). assert (E3 : mxc X 0 = X - 1) by reflexivity.
  assert (j = 3 \/ j = 4 \/ j = 5) as [-> | [-> | ->]] by lia; unfold ncol, nrow; cbn [Z.even Z.eqb Pos.eqb orb].
  - rewrite E2. unfold cix. lia.
  - rewrite E1. apply later; lia.
  - rewrite E1, E3. apply later; lia.
Qed.
Lemma nbr_03 : nbr X Y 0 3 = 1 /\ nbr X Y 1 3 = 2.
Proof.
  unfold nbr, nb. cbn [Z.ltb Z.compare Pos.compare Pos.compare_cont]. destruct (row0 0 ltac:(lia)) as [-> ->]. destruct (row0 1 ltac:(lia)) as [-> ->].
  assert (E1 : pxc X 1 = 2) by (unfold pxc; destruct (Z.eqb_spec 1 (X - 1)); lia). assert (E2 : pxc X 0 = 1) by (unfold pxc; destruct (Z.eqb_spec 0 (X - 1)); lia).
  unfold ncol, nrow, cix. cbn [Z.even Z.eqb Pos.eqb orb]. rewrite E1, E2. lia.
Qed.
Lemma rw_nonneg c : (0 <= rw c)%R.
Proof. unfold rw. destruct (c =? 1); [lra|]. destruct (c =? 2); lra. Qed.
Lemma rw_not2 c : c <> 2 -> rw c = 0%R \/ (c = 1 /\ rw c = 1%R).
Proof. intros Hc. unfold rw. destruct (Z.eqb_spec c 1); [right; split; [assumption|reflexivity]|]. destruct (Z.eqb_spec c 2); [contradiction|now left]. Qed.
Lemma lap_rw m (Hr : ready S m) : (lap m rw 0 < lap m rw 1)%R.
Proof.
  rewrite !(lap_avg S Hok Hdc m Hr H1 H2) by nia. apply Rmult_lt_compat_l; [apply Rdiv_lt_0_compat; [lra|apply Rmult_lt_0_compat; exact Hdc]|].
  assert (A0 : (avg6 X Y rw 0 <= 1)%R).
  { unfold avg6. rewrite rsum_small6. assert (Q : forall j, 0 <= j < 6 -> (rw (nbr X Y 0%Z j) <= 1)%R) by (intros j Hj; destruct (rw_not2 _ (nbr_0 j Hj)) as [-> | [_ ->]]; lra).
    pose proof (Q 0 ltac:(lia)). pose proof (Q 1 ltac:(lia)). pose proof (Q 2 ltac:(lia)). pose proof (Q 3 ltac:(lia)). pose proof (Q 4 ltac:(lia)). pose proof (Q 5 ltac:(lia)). lra. }
  assert (A1 : (20 / 6 <= avg6 X Y rw 1)%R).
  { unfold avg6. rewrite rsum_small6. rewrite (proj2 nbr_03). pose proof (fun j => rw_nonneg (nbr X Y 1%Z j)) as Q.
    pose proof (Q 0). pose proof (Q 1). pose proof (Q 2). pose proof (Q 4). pose proof (Q 5). change (rw 2) with 20%R. lra. }
  change (rw 0) with 0%R. change (rw 1) with 1%R. lra.
Qed.
Lemma coe_02 e : 0 <= e < 3 * NC -> (hcoe X Y e 0 = 0 -> hcoe X Y e 1 <> 2) /\ (hcoe X Y e 1 = 0 -> hcoe X Y e 0 <> 2).
Proof.
  intros He. unfold hcoe, Hex.ecell. cbn [Z.eqb]. pose proof (Z.mod_pos_bound e 3 ltac:(lia)). split.
  - intros E0 E1. rewrite E1 in E0. revert E0. apply inb_2. lia.
  - intros E1. rewrite E1. apply inb_0. lia.
Qed.
Lemma rw_term m (Hr : ready S m) e : 0 <= e < 3 * NC -> (0 <= mr m DcEdge [e] * mr m DvEdge [e] * (emean m d0 e * grad m rw e) * grad m (lap m rw) e)%R /\
  (hcoe X Y e 0 = 0 -> hcoe X Y e 1 = 1 -> (0 < mr m DcEdge [e] * mr m DvEdge [e] * (emean m d0 e * grad m rw e) * grad m (lap m rw) e)%R).
Proof.
  intros He. pose proof (cb_dcdv S Hok Hdc m Hr e He) as D0. pose proof (cb_dc S Hok Hdc m Hr e He) as D1. pose proof (lap_rw m Hr) as L.
  destruct (coe_02 e He) as [N0 N1]. unfold emean, grad. rewrite !(hm_coe _ _ _ (ready_hex S Hok m Hr)) by lia.
  set (a := hcoe X Y e 0) in *. set (b := hcoe X Y e 1) in *.
  assert (K : forall x y z w : R, (0 < x)%R -> (0 < y)%R -> (x * (z * (w / y)) = (x / y) * (z * w))%R) by (intros; field; lra).
  set (dd := mr m DcEdge [e]) in *. set (vv := mr m DvEdge [e]) in *. set (Lp := lap m rw) in *.
  assert (Sh : (dd * vv * ((d0 a + d0 b) / 2 * ((rw b - rw a) / dd)) * ((Lp b - Lp a) / dd) = (dd * vv) / (2 * (dd * dd)) * ((d0 a + d0 b) * ((rw b - rw a) * (Lp b - Lp a))))%R) by (cbn [F RA] in *; field; lra).
  assert (Pk : (0 < dd * vv / (2 * (dd * dd)))%R) by (apply Rdiv_lt_0_compat; [exact D0|]; cbn [F RA] in *; nra).
  cbn [F RA] in *. rewrite Sh. split.
  - apply Rmult_le_pos; [lra|]. unfold d0. destruct (Z.eqb_spec a 0) as [Ea|Ea]; destruct (Z.eqb_spec b 0) as [Eb|Eb].
    + rewrite Ea, Eb. lra.
    + rewrite Ea. change (rw 0) with 0%R. destruct (rw_not2 b (N0 Ea)) as [-> | [E1 ->]]; [lra|]. rewrite E1. lra.
    + rewrite Eb. change (rw 0) with 0%R. destruct (rw_not2 a (N1 Eb)) as [-> | [E1 ->]]; [lra|]. rewrite E1. lra.
    + lra.
  - intros Ea Eb. apply Rmult_lt_0_compat; [exact Pk|]. rewrite Ea, Eb. change (rw 0) with 0%R. change (rw 1) with 1%R. change (d0 0) with 1%R. change (d0 1) with 0%R. lra.
Qed.
Lemma rw_pos m (Hr : ready S m) : (0 < rsum (3 * NC) (fun e => mr m DcEdge [e] * mr m DvEdge [e] * (emean m d0 e * grad m rw e) * grad m (lap m rw) e))%R.
Proof.
  pose proof (rsum_nonneg (3 * NC) (fun e => mr m DcEdge [e] * mr m DvEdge [e] * (emean m d0 e * grad m rw e) * grad m (lap m rw) e)%R (fun e He => proj1 (rw_term m Hr e He))) as Q.
  destruct (Rle_lt_or_eq_dec _ _ Q) as [P|P]; [exact P|exfalso].
  assert (He : 0 <= 3 * nb X Y 0 3 < 3 * NC) by (pose proof (nb_range X Y ltac:(lia) ltac:(lia) 0 3 ltac:(nia)); lia).
  pose proof (rsum_zero_each (3 * NC) _ (fun e He => proj1 (rw_term m Hr e He)) (eq_sym P) (3 * nb X Y 0 3) He) as Z0. cbv beta in Z0.
  pose proof (proj2 (rw_term m Hr (3 * nb X Y 0 3) He)) as P1.
  assert (E1 : nb X Y 0 3 = 1) by exact (proj1 nbr_03). rewrite E1 in P1, Z0. change (3 * 1) with 3 in *.
  assert (E0 : hcoe X Y 3 0 = 0).
  { unfold hcoe, Hex.ecell, inb_. cbn [Z.eqb]. change (3 / 3) with 1. change (3 mod 3) with 0. destruct (row0 1 ltac:(lia)) as [-> ->]. cbn [Z.add Z.eqb Pos.eqb]. unfold cix, mxc. cbn [Z.eqb]. lia. }
  specialize (P1 E0 eq_refl). lra.
Qed.
End Hyp.

Lemma C97_hyperdiffusion_dissipates_proof :
forall (S : setup RA), setup_ok S -> (0 < (dc (mesh_of_setup S) : R))%R -> 2 <= nx (mesh_of_setup S) -> 2 <= ny (mesh_of_setup S) ->
  forall (t s : sid) (time : R) (md : add_mode) (m m1 m0 : mem RA), s <> t -> ready S m ->
  exec (sdims S) (compute_tendency S t s time md) m (OK m1) ->
  exec (sdims S) (compute_tendency (set_eddy_diff4 S (IZR 0)) t s time md) m (OK m0) ->
  forall l k H, 0 <= l < ntracers (par_of S) -> 0 <= k < d_nlayers (sdims S) -> (0 <= H)%R -> (forall c, 0 <= c < d_ncells (sdims S) -> mr m (HCell s) [c; k] = H) ->
  let r c := (mr m (TrCell s) [l; c; k] / mr m (HCell s) [c; k])%R in
  let work := rsum (d_ncells (sdims S)) (fun c => (mr m AreaCell [c] : R) * r c * (mr m1 (TrCell t) [l; c; k] - mr m0 (TrCell t) [l; c; k]))%R in
  (work <= 0)%R /\
  ((0 < (eddy_diff4 (par_of S) : R))%R -> (0 < H)%R -> work = 0%R -> forall e, 0 <= e < d_nedges (sdims S) -> r (mi m CellsOnEdge [e; 0]) = r (mi m CellsOnEdge [e; 1])).
Proof.
  intros S Hok Hdc H1 H2 t s time md m m1 m0 Hs Hr X1 X0 l k H Hl Hk HH Hq r work.
  pose proof (hyp_work S Hok Hdc H1 H2 t s time md m m1 m0 Hs Hr l k Hl Hk X1 X0) as E. cbv zeta in E. fold r in E.
  rewrite (hyp_uniform S Hok Hdc H1 H2 m Hr _ r H Hq) in E. change (work = (Rmax 0 (eddy_diff4 (par_of S)) * - (H * rsum (nx (mesh_of_setup S) * ny (mesh_of_setup S)) (fun c => mr m AreaCell [c] * (lap m r c * lap m r c))))%R) in E.
  set (W := rsum (nx (mesh_of_setup S) * ny (mesh_of_setup S)) (fun c => mr m AreaCell [c] * (lap m r c * lap m r c))%R) in *.
  assert (PW : (0 <= W)%R).
  { apply rsum_nonneg. intros c Hc. apply Rmult_le_pos; [|apply Rle_0_sqr]. rewrite (hm_area _ _ _ (ready_hex S Hok m Hr)) by assumption. apply Rlt_le, (area_pos (mesh_of_setup S) Hdc). }
  rewrite E. split.
  - pose proof (Rmax_l 0 (eddy_diff4 (par_of S))) as M. pose proof (Rmult_le_pos _ _ HH PW) as Q. pose proof (Rmult_le_pos _ _ M Q). lra.
  - intros P4 PH Z0 e He. apply (lap_zero S Hok Hdc H1 H2 m Hr r); [|exact He]. fold W. rewrite Rmax_right in Z0 by (apply Rlt_le, P4).
    apply Rmult_integral in Z0. destruct Z0 as [Z0|Z0]; [rewrite Z0 in P4; lra|]. assert (Z1 : (H * W = 0)%R) by lra. apply Rmult_integral in Z1. destruct Z1; [lra|assumption].
Qed.

Lemma C97_hyperdiffusion_dissipates_refuted_proof :
forall (S : setup RA), setup_ok S -> (0 < (dc (mesh_of_setup S) : R))%R -> 4 <= nx (mesh_of_setup S) -> 2 <= ny (mesh_of_setup S) -> (0 < (eddy_diff4 (par_of S) : R))%R ->
  exists m, ready S m /\ (forall s c k, (1 <= mr m (HCell s) [c; k])%R) /\ (forall s l c k, (0 <= mr m (TrCell s) [l; c; k] <= 20 * mr m (HCell s) [c; k])%R) /\ (forall s e k, mr m (VnEdge s) [e; k] = 0%R) /\
  forall (t s : sid) (time : R) (md : add_mode) m1 m0, s <> t ->
  exec (sdims S) (compute_tendency S t s time md) m (OK m1) ->
  exec (sdims S) (compute_tendency (set_eddy_diff4 S (IZR 0)) t s time md) m (OK m0) ->
  forall l k, 0 <= l < ntracers (par_of S) -> 0 <= k < d_nlayers (sdims S) ->
  let r c := (mr m (TrCell s) [l; c; k] / mr m (HCell s) [c; k])%R in
  (0 < rsum (d_ncells (sdims S)) (fun c => (mr m AreaCell [c] : R) * r c * (mr m1 (TrCell t) [l; c; k] - mr m0 (TrCell t) [l; c; k])))%R.
Proof.
  intros S Hok Hdc H1 H2 P4. assert (H1' : 2 <= nx (mesh_of_setup S)) by lia.
  destruct (ready_any S Hok (fun _ _ => 0%R)) as (n & Rn & _).
  set (W := fun q : Z -> R => rsum (3 * (nx (mesh_of_setup S) * ny (mesh_of_setup S))) (fun e => mr n DcEdge [e] * mr n DvEdge [e] * (emean n q e * grad n rw e) * grad n (lap n rw) e)%R).
  set (X1 := W (fun _ => 1%R)). set (X0 := W d0).
  assert (P0 : (0 < X0)%R) by exact (rw_pos S Hok Hdc H1' H2 H1 n Rn).
  set (La := ((Rabs X1 + 1) / X0)%R).
  assert (PL : (0 < La)%R) by (apply Rdiv_lt_0_compat; [pose proof (Rabs_pos X1); lra|exact P0]).
  set (q := fun c => (1 + La * d0 c)%R).
  assert (Pq : forall c, (1 <= q c)%R) by (intros c; unfold q, d0; destruct (c =? 0); lra).
  assert (EW : W q = (X1 + La * X0)%R).
  { unfold X1, X0, W. rewrite <- rsum_scal, <- rsum_plus. apply rsum_ext. intros e He. unfold emean, q. cbn [F RA]. field. }
  pose (m := Mem (A:=RA) (mi n) (fun a ix => match a, ix with HCell _, [c; k] => q c | HCell _, _ => 1%R | TrCell _, [l; c; k] => (rw c * q c)%R | VnEdge _, _ => 0%R | a, ix => mr n a ix end)).
  assert (Hr : ready S m).
  { eapply ready_frame; [|exact Rn]. intros [a ix|a ix] Ha; [reflexivity|]. destruct a; try discriminate Ha; reflexivity. }
  exists m. split; [exact Hr|]. split; [intros s c k; apply Pq|]. split.
  { intros s l c k. cbn [m mr]. specialize (Pq c). assert (R0 : (0 <= rw c <= 20)%R) by (unfold rw; destruct (c =? 1); [lra|]; destruct (c =? 2); lra). split; [apply Rmult_le_pos; lra|apply Rmult_le_compat_r; lra]. }
  split; [reflexivity|]. intros t s time md m1 m2 Hst E1 E2 l k Hl Hk r.
  pose proof (hyp_work S Hok Hdc H1' H2 t s time md m m1 m2 Hst Hr l k Hl Hk E1 E2) as E. cbv zeta in E. fold r in E.
  assert (Er : r = rw \/ forall c, r c = rw c) by (right; intros c; unfold r; cbn [m mr]; specialize (Pq c); field; lra).
  change (d_ncells (sdims S)) with (nx (mesh_of_setup S) * ny (mesh_of_setup S)). rewrite E.
  assert (Eg : forall f g e, (forall c, f c = g c) -> grad m f e = grad m g e) by (intros f g e Q; unfold grad; now rewrite !Q).
  assert (Q : forall c, r c = rw c) by (destruct Er as [-> | Er]; [reflexivity|exact Er]).
  rewrite (rsum_ext _ _ (fun e => mr n DcEdge [e] * mr n DvEdge [e] * (emean n q e * grad n rw e) * grad n (lap n rw) e)%R).
  2:{ intros e He. rewrite (Eg r rw e Q). rewrite (grad_ext S Hok m Hr (lap m r) (lap m rw)) by (first [exact He|intros c Hc; unfold lap; apply (outflow_ext S Hok m Hr); [intros e' He'; now apply Eg|exact Hc]]). reflexivity. }
  fold (W q). rewrite EW, Rmax_right by (apply Rlt_le, P4). apply Rmult_lt_0_compat; [exact P4|].
  unfold La. replace ((Rabs X1 + 1) / X0 * X0)%R with (Rabs X1 + 1)%R by (field; lra). pose proof (Rle_abs (- X1)) as A0. rewrite Rabs_Ropp in A0. lra.
Qed.

