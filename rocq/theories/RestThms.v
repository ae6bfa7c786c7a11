(** Proofs about the states of rest (C106). *)
From Coq Require Import ZArith Reals List Bool Lia Lra Psatz.
From Verif Require Import Arith Arrays Prog Conc Launch Mesh AuxVars Tend Model Hex HexComb RSum Spec MeshProof MeshMem MeshR MeshCalc Over Formulas KernBase Terms KernAux KernTend TendFn StepFn Ready Rel RelRun Relate TendVal StepVal StepRun StepThms RealTend SumParts Diag FieldInv ConsBase ConsThms SteadyThms HypThms.
Import ListNotations.
Open Scope Z_scope.

(** A function with equal values in the two cells of every edge is constant, on every mesh. *)
Section Walk.
Context (X Y : Z) (Hx : 1 <= X) (Hy : 1 <= Y).
Local Notation NC := (X * Y).
Lemma const_edges (phi : Z -> R) : (forall e, 0 <= e < 3 * NC -> phi (hcoe X Y e 0) = phi (hcoe X Y e 1)) -> forall c, 0 <= c < NC -> phi c = phi 0.
Proof.
  intros E c Hc. assert (P0 : 0 <= c) by lia. revert Hc. pattern c. apply Zlt_0_ind; [|exact P0]. clear c P0. intros c IH P0 Hc.
  assert (Q : forall j, 0 <= j < 3 -> phi (inb_ X Y c (3 + j)) = phi c).
  { intros j Hj. pose proof (E (3 * c + j) ltac:(lia)) as G. unfold hcoe, Hex.ecell in G. cbn [Z.eqb] in G.
    assert (A1 : (3 * c + j) / 3 = c) by (symmetry; apply (Z.div_unique_pos _ _ _ j); lia). assert (A2 : (3 * c + j) mod 3 = j) by (symmetry; apply (Z.mod_unique_pos _ _ c); lia).
    now rewrite A1, A2 in G. }
  pose proof (colof_range X Hx c) as Ci. pose proof (rowof_range X Y Hx c Hc) as Ri.
  assert (Ec : c = rowof X c * X + colof X c) by (unfold rowof, colof; pose proof (Z.div_mod c X); lia).
  destruct (Z.eq_dec (colof X c) 0) as [C0|C0]; [destruct (Z.eq_dec (rowof X c) 0) as [R0|R0]|].
  - rewrite C0, R0 in Ec. now replace c with 0 by lia.
  - rewrite <- (Q 1 ltac:(lia)). pose proof (inb_range X Y Hx Hy c (3 + 1) Hc) as Hn. apply IH; [|exact Hn]. split; [lia|].
    assert (L : inb_ X Y c (3 + 1) < rowof X c * X).
    { unfold inb_. cbv zeta. change (3 + 1 =? 2) with false. change (3 + 1 =? 3) with false. change (3 + 1 =? 4) with true. cbv iota.
      unfold cix, myr, mxc. destruct (Z.eqb_spec (rowof X c) 0); [lia|]. destruct (Z.even _), (Z.eqb_spec (colof X c) 0); nia. }
    lia.
  - rewrite <- (Q 0 ltac:(lia)). assert (M : inb_ X Y c (3 + 0) = c - 1).
    { unfold inb_. cbv zeta. change (3 + 0 =? 2) with false. change (3 + 0 =? 3) with true. cbv iota. unfold cix, mxc. destruct (Z.eqb_spec (colof X c) 0); lia. }
    rewrite M. apply IH; lia.
Qed.
End Walk.

Section Rest.
Context (S : setup RA) (Hok : setup_ok S) (Hdc : (0 < (dc (mesh_of_setup S) : R))%R) (H1 : 2 <= nx (mesh_of_setup S)) (H2 : 2 <= ny (mesh_of_setup S)) (m : mem RA) (Hr : ready S m).
Local Notation X := (nx (mesh_of_setup S)).
Local Notation Y := (ny (mesh_of_setup S)).
Local Notation NC := (X * Y).

Lemma grad_zero_const phi : (forall e, 0 <= e < 3 * NC -> grad m phi e = 0%R) -> forall c, 0 <= c < NC -> phi c = phi 0.
Proof.
  intros G. apply const_edges; [lia|lia|]. intros e He. specialize (G e He). unfold grad in G.
  rewrite !(hm_coe _ _ _ (ready_hex S Hok m Hr)) in G by lia.
  pose proof (cb_dc S Hok Hdc m Hr e He) as D1. apply (Rmult_eq_compat_r (mr m DcEdge [e])) in G. unfold Rdiv in G. rewrite Rmult_assoc, Rinv_l in G by lra. lra.
Qed.

Lemma dirichlet_zero w r : (forall e, 0 <= e < 3 * NC -> (0 < w e)%R) ->
  rsum NC (fun c => mr m AreaCell [c] * r c * outflow m (fun e => w e * grad m r e) c)%R = 0%R -> forall c, 0 <= c < NC -> r c = r 0.
Proof.
  intros Pw Z0. rewrite (diff_work S Hok Hdc m Hr w r H1 H2) in Z0.
  set (f := fun e => (mr m DcEdge [e] * mr m DvEdge [e] * (w e * (grad m r e * grad m r e)))%R).
  assert (P0 : forall e, 0 <= e < 3 * NC -> (0 <= f e)%R).
  { intros e He. apply Rmult_le_pos; [apply Rlt_le; now apply (cb_dcdv S Hok Hdc m Hr)|]. apply Rmult_le_pos; [apply Rlt_le, Pw, He|apply Rle_0_sqr]. }
  assert (Zf : rsum (3 * NC) f = 0%R) by (change (- rsum (3 * NC) f = 0)%R in Z0; lra).
  apply grad_zero_const. intros e He. pose proof (rsum_zero_each _ f P0 Zf e He) as Ze. unfold f in Ze.
  pose proof (cb_dcdv S Hok Hdc m Hr e He) as D0. apply Rmult_integral in Ze. destruct Ze as [Ze|Ze]; [lra|].
  specialize (Pw e He). apply Rmult_integral in Ze. destruct Ze as [Ze|Ze]; [lra|]. apply Rmult_integral in Ze. now destruct Ze.
Qed.

(** The tracer tendency at rest vanishes only if the concentration is uniform. *)
Lemma mixed_uniform w r a2 a4 : (forall e, 0 <= e < 3 * NC -> (0 < w e)%R) -> (0 <= a2)%R -> (0 <= a4)%R -> (0 < a2 \/ 0 < a4)%R ->
  (forall c, 0 <= c < NC -> (a2 * outflow m (fun e => w e * grad m r e) c - a4 * outflow m (grad m (outflow m (fun e => w e * grad m r e))) c = 0)%R) ->
  forall c, 0 <= c < NC -> r c = r 0.
Proof.
  intros Pw P2 P4 P Z0. set (D := outflow m (fun e => w e * grad m r e)%R) in *.
  assert (PA : forall c, 0 <= c < NC -> (0 < mr m AreaCell [c])%R) by (intros; now apply (cb_area S Hok Hdc m Hr)).
  set (B := rsum NC (fun c => mr m AreaCell [c] * D c * outflow m (grad m D) c)%R).
  assert (EB : B = rsum NC (fun c => mr m AreaCell [c] * D c * outflow m (fun e => 1 * grad m D e) c)%R).
  { apply rsum_ext. intros c Hc. f_equal. apply (outflow_ext S Hok m Hr); [intros; cbn [F RA]; ring|exact Hc]. }
  assert (NB : (B <= 0)%R).
  { rewrite EB, (diff_work S Hok Hdc m Hr (fun _ => 1%R) D H1 H2).
    match goal with |- (- ?x <= 0)%R => assert (0 <= x)%R; [|lra] end.
    apply rsum_nonneg. intros e He. apply Rmult_le_pos; [apply Rlt_le; now apply (cb_dcdv S Hok Hdc m Hr)|]. apply Rmult_le_pos; [lra|apply Rle_0_sqr]. }
  set (Q := rsum NC (fun c => mr m AreaCell [c] * (D c * D c))%R).
  assert (PQ : forall c, 0 <= c < NC -> (0 <= mr m AreaCell [c] * (D c * D c))%R) by (intros c Hc; apply Rmult_le_pos; [apply Rlt_le, PA, Hc|apply Rle_0_sqr]).
  assert (NQ : (0 <= Q)%R) by (apply rsum_nonneg; exact PQ).
  assert (Tot : (a2 * Q - a4 * B = 0)%R).
  { unfold Q, B. rewrite <- !rsum_scal, <- rsum_minus. apply rsum_zero. intros c Hc. specialize (Z0 c Hc).
    transitivity (mr m AreaCell [c] * D c * (a2 * D c - a4 * outflow m (grad m D) c))%R; [cbn [F RA]; ring|]. rewrite Z0. ring. }
  assert (S2 : (0 <= a2 * Q)%R) by (apply Rmult_le_pos; lra). assert (S4 : (0 <= a4 * - B)%R) by (apply Rmult_le_pos; lra).
  assert (DZ : forall c, 0 <= c < NC -> D c = 0%R).
  { destruct P as [P|P].
    - assert (Q0 : Q = 0%R) by (assert (E : (a2 * Q = 0)%R) by lra; apply Rmult_integral in E; destruct E; [lra|assumption]).
      intros c Hc. pose proof (rsum_zero_each NC _ PQ Q0 c Hc) as Zc. cbv beta in Zc. specialize (PA c Hc). apply Rmult_integral in Zc. destruct Zc as [Zc|Zc]; [lra|]. apply Rmult_integral in Zc. now destruct Zc.
    - assert (B0 : B = 0%R) by (assert (E : (a4 * - B = 0)%R) by lra; apply Rmult_integral in E; destruct E; lra).
      rewrite EB in B0. pose proof (dirichlet_zero (fun _ => 1%R) D ltac:(intros; lra) B0) as C.
      pose proof (gauss _ _ (ntracers (par_of S)) (proj1 Hok) Hdc m (ready_hex S Hok m Hr) (fun _ => 1%R) (fun e => w e * grad m r e)%R H1 H2) as G. fold D in G.
      rewrite (rsum_ext (3 * NC) _ (fun _ => 0 * 0)%R) in G by (intros e He; unfold grad, Rdiv; cbn [F RA]; ring).
      rewrite (rsum_ext NC _ (fun c => D 0%Z * mr m AreaCell [c])%R) in G by (intros c Hc; rewrite (C c Hc); cbn [F RA]; ring).
      rewrite !rsum_scal in G.
      assert (PS : (0 < rsum NC (fun c => mr m AreaCell [c]))%R).
      { assert (N0 : 0 <= 0 < NC) by nia. assert (NN := rsum_nonneg NC (fun c => mr m AreaCell [c] : R) (fun c Hc => Rlt_le _ _ (PA c Hc))).
        destruct (Rle_lt_or_eq_dec _ _ NN) as [L|L]; [exact L|exfalso].
        pose proof (rsum_zero_each NC _ (fun c Hc => Rlt_le _ _ (PA c Hc)) (eq_sym L) 0 N0) as Z1. cbv beta in Z1. specialize (PA 0 N0). lra. }
      intros c Hc. rewrite (C c Hc). assert (G0 : (D 0%Z * rsum NC (fun c => mr m AreaCell [c]) = 0)%R) by lra.
      apply Rmult_integral in G0. destruct G0 as [G0|G0]; [exact G0|lra]. }
  apply (dirichlet_zero w r Pw). apply rsum_zero. intros c Hc. fold D. rewrite (DZ c Hc). cbn [F RA]. ring.
Qed.
End Rest.

Lemma C106_states_of_rest_proof :
  forall (S : setup RA), setup_ok S -> (0 < (dc (mesh_of_setup S) : R))%R ->
  2 <= nx (mesh_of_setup S) -> 2 <= ny (mesh_of_setup S) ->
  disable_h (par_of S) = false -> disable_vn (par_of S) = false -> hook S = None -> grav (par_of S) <> 0%R ->
  forall (t s : sid) (time : R) (m m1 : mem RA), s <> t -> ready S m ->
  (forall c k, 0 <= c < d_ncells (sdims S) -> 0 <= k < d_nlayers (sdims S) -> (0 < mr m (HCell s) [c; k])%R) ->
  (forall e k, 0 <= e < d_nedges (sdims S) -> 0 <= k < d_nlayers (sdims S) -> mr m (VnEdge s) [e; k] = 0%R) ->
  exec (sdims S) (compute_tendency S t s time Replace) m (OK m1) ->
  forall k, 0 <= k < d_nlayers (sdims S) ->
  ((forall c, 0 <= c < d_ncells (sdims S) -> mr m1 (HCell t) [c; k] = 0%R) /\
   (forall e, 0 <= e < d_nedges (sdims S) -> mr m1 (VnEdge t) [e; k] = 0%R) /\
   (forall l c, 0 <= l < ntracers (par_of S) -> 0 <= c < d_ncells (sdims S) -> mr m1 (TrCell t) [l; c; k] = 0%R) <->
   exists H : R, (forall c, 0 <= c < d_ncells (sdims S) -> mr m (HCell s) [c; k] = H) /\
   (((eddy_diff2 (par_of S) : R) <= 0)%R /\ ((eddy_diff4 (par_of S) : R) <= 0)%R \/
    forall l, 0 <= l < ntracers (par_of S) -> exists C : R, forall c, 0 <= c < d_ncells (sdims S) -> mr m (TrCell s) [l; c; k] = C)).
Proof.
  intros S Hok Hdc H1 H2 Hh Hv Hf Hg t s time m m1 Hs Hr Hp Hu X1 k Hk.
  apply (tendency_exec S Hok) in X1; auto. destruct X1 as [_ X1].
  set (q := fun c => mr m (HCell s) [c; k] : R). set (u := fun e => mr m (VnEdge s) [e; k] : R).
  set (NC := nx (mesh_of_setup S) * ny (mesh_of_setup S)).
  assert (U0 : forall e, 0 <= e < 3 * NC -> u e = 0%R) by (intros; now apply Hu).
  assert (Eh : forall c, 0 <= c < NC -> mr m1 (HCell t) [c; k] = 0%R).
  { intros c Hc. rewrite X1, (T_h S Hok m Hr) by assumption. unfold hk_h. rewrite Hh, Hf. unfold zr. cbn [is_replace fofZ RA].
    rewrite (outflow_zero S Hok m Hr); [lra|assumption|]. intros e He. change (mr m (VnEdge s) [e; k]) with (u e). rewrite U0 by exact He. ring. }
  assert (Kz : forall c, 0 <= c < NC -> kin m u c = 0%R).
  { intros c Hc. unfold kin. rewrite rsum_zero; [unfold Rdiv; ring|]. intros i Hi. cbv zeta.
    rewrite U0; [ring|]. rewrite (hm_noc _ _ _ (ready_hex S Hok _ Hr)) in Hi by assumption. now apply (wf_eoc _ _ (ready_wfm S Hok _ Hr)). }
  assert (Ev : forall e, 0 <= e < 3 * NC -> mr m1 (VnEdge t) [e; k] = (- (grav (par_of S) * grad m q e))%R).
  { intros e He. rewrite X1, (T_v S Hok Hdc m Hr) by assumption. unfold hk_v. rewrite Hv, Hf. unfold zr, vtend. cbn [is_replace fofZ RA]. fold q. fold u.
    assert (Hpv : pvflux m (f0 (par_of S)) q u e = 0%R).
    { unfold pvflux. apply rsum_zero. intros i Hi. cbv zeta. rewrite (U0 (mi m EdgesOnEdge [e; i])); [ring|]. apply (wf_eoe _ _ (ready_wfm S Hok _ Hr)); assumption. }
    set (u' := fun e => mr m (VnEdge s) [e; rv_layer (cfg_of S) k] : R).
    assert (Su : still S m u) by (apply zero_still; assumption).
    assert (Su' : still S m u') by (apply zero_still; [exact Hok|exact Hr|]; intros; apply Hu; [assumption|now apply (rv_range S (ok_wfd S Hok))]).
    assert (Vu : still S m (vlap m u)) by (apply zero_still; [exact Hok|exact Hr|]; intros; now apply (vlap_still S Hok m Hr)).
    assert (Vu' : still S m (vlap m u')) by (apply zero_still; [exact Hok|exact Hr|]; intros; now apply (vlap_still S Hok m Hr)).
    rewrite Hpv, (grad_flat S Hok m Hr (kin m u)), (vlap_still S Hok m Hr u), (vlap'_still S Hok m Hr (vlap m u) (vlap m u') e (proj1 Vu) (proj2 Vu')) by (try assumption; intros; now rewrite !Kz).
    destruct (vel_diff_enabled (par_of S)), (vel_hyperdiff_enabled (par_of S)); cbn [F RA]; ring. }
  assert (Et : forall l c, 0 <= l < ntracers (par_of S) -> 0 <= c < NC -> let r c := (mr m (TrCell s) [l; c; k] / q c)%R in let D := outflow m (fun e => emean m q e * grad m r e)%R in
    mr m1 (TrCell t) [l; c; k] = (Rmax 0 (eddy_diff2 (par_of S)) * D c - Rmax 0 (eddy_diff4 (par_of S)) * outflow m (grad m D) c)%R).
  { intros l c Hl Hc r D. rewrite X1, (T_tr S Hok m Hr) by assumption. unfold zr, ttend. cbn [is_replace fofZ RA]. cbv zeta. fold q. fold u.
    change (fun c => (mr m (TrCell s) [l; c; k] / mr m (HCell s) [c; k])%R) with r. fold D.
    rewrite (outflow_zero S Hok m Hr); [|assumption|]. 2:{ intros e He. change (mr m (VnEdge s) [e; k]) with (u e). rewrite (U0 e He). ring. }
    unfold tracer_diff_enabled, tracer_hyperdiff_enabled. cbn [flt RA fofZ].
    destruct (Rlt_dec 0 (eddy_diff2 (par_of S))) as [P2|P2]; [rewrite (Rmax_right 0 (eddy_diff2 (par_of S))) by (apply Rlt_le, P2)|rewrite (Rmax_left 0 (eddy_diff2 (par_of S))) by (apply Rnot_lt_le, P2)];
    (destruct (Rlt_dec 0 (eddy_diff4 (par_of S))) as [P4|P4]; [rewrite (Rmax_right 0 (eddy_diff4 (par_of S))) by (apply Rlt_le, P4)|rewrite (Rmax_left 0 (eddy_diff4 (par_of S))) by (apply Rnot_lt_le, P4)]); rring. }
  split.
  - intros (_ & Zv & Zt).
    assert (Qc : forall c, 0 <= c < NC -> q c = q 0).
    { apply (grad_zero_const S Hok Hdc H1 H2 m Hr). intros e He. specialize (Zv e He). rewrite (Ev e He) in Zv.
      assert (G : (grav (par_of S) * grad m q e = 0)%R) by (cbn [F RA] in *; lra). apply Rmult_integral in G. destruct G as [G|G]; [contradiction|exact G]. }
    exists (q 0). split; [exact Qc|].
    destruct (Rlt_dec 0 (eddy_diff2 (par_of S))) as [P2|P2]; [|destruct (Rlt_dec 0 (eddy_diff4 (par_of S))) as [P4|P4]; [|left; split; apply Rnot_lt_le; assumption]]; right; intros l Hl; exists (mr m (TrCell s) [l; 0; k]); intros c Hc.
    all: assert (Pq : forall c, 0 <= c < NC -> (0 < q c)%R) by (intros; now apply Hp).
    all: assert (Pe : forall e, 0 <= e < 3 * NC -> (0 < emean m q e)%R)
      by (intros e He; unfold emean; pose proof (Pq _ (wf_coe _ _ (ready_wfm S Hok m Hr) e 0 He ltac:(lia))); pose proof (Pq _ (wf_coe _ _ (ready_wfm S Hok m Hr) e 1 He ltac:(lia))); lra).
    all: set (r := fun c => (mr m (TrCell s) [l; c; k] / q c)%R).
    all: assert (Rc : r c = r 0) by (apply (mixed_uniform S Hok Hdc H1 H2 m Hr (emean m q) r (Rmax 0 (eddy_diff2 (par_of S))) (Rmax 0 (eddy_diff4 (par_of S)))); [exact Pe|apply Rmax_l|apply Rmax_l| |intros c' Hc'; exact (eq_trans (eq_sym (Et l c' Hl Hc')) (Zt l c' Hl Hc'))|exact Hc];
      rewrite ?(Rmax_right 0 _ (Rlt_le _ _ P2)); try (left; assumption); rewrite ?(Rmax_right 0 _ (Rlt_le _ _ P4)); right; assumption).
    all: unfold r in Rc; rewrite (Qc c Hc) in Rc; assert (N0 : 0 <= 0 < NC) by (unfold NC; nia); specialize (Pq 0 N0);
      apply (Rmult_eq_compat_r (q 0)) in Rc; unfold Rdiv in Rc; rewrite !Rmult_assoc, Rinv_l, !Rmult_1_r in Rc by lra; exact Rc.
  - intros (H & Qc & Ht). split; [exact Eh|]. split.
    + intros e He. rewrite (Ev e He), (grad_flat S Hok m Hr q); [cbn [F RA]; ring| |exact He]. intros c c' Hc Hc'. unfold q. now rewrite !Qc.
    + intros l c Hl Hc. rewrite X1, (T_tr S Hok m Hr) by assumption. rewrite (ttend_rest S Hok m Hr); [unfold zr; cbn [is_replace fofZ F RA]; ring|assumption|intros; now apply Hu|].
      destruct Ht as [Ht|Ht]; [now left|right]. intros c1 c2 A1 A2. destruct (Ht l Hl) as [C HC]. now rewrite !Qc, !HC.
Qed.

Lemma C106_only_mixed_tracers_rest_proof :
  forall (S : setup RA), setup_ok S -> (0 < (dc (mesh_of_setup S) : R))%R ->
  2 <= nx (mesh_of_setup S) -> 2 <= ny (mesh_of_setup S) ->
  (0 < (eddy_diff2 (par_of S) : R) \/ 0 < (eddy_diff4 (par_of S) : R))%R ->
  forall (t s : sid) (time : R) (m m1 : mem RA) (l k : Z), s <> t -> ready S m -> 0 <= l < ntracers (par_of S) -> 0 <= k < d_nlayers (sdims S) ->
  (forall c, 0 <= c < d_ncells (sdims S) -> (0 < mr m (HCell s) [c; k])%R) ->
  (forall e, 0 <= e < d_nedges (sdims S) -> mr m (VnEdge s) [e; k] = 0%R) ->
  exec (sdims S) (compute_tendency S t s time Replace) m (OK m1) ->
  ((forall c, 0 <= c < d_ncells (sdims S) -> mr m1 (TrCell t) [l; c; k] = 0%R) <->
   exists C : R, forall c, 0 <= c < d_ncells (sdims S) -> mr m (TrCell s) [l; c; k] = (C * mr m (HCell s) [c; k])%R).
Proof.
  intros S Hok Hdc H1 H2 Hd t s time m m1 l k Hs Hr Hl Hk Hp Hu X1.
  apply (tendency_exec S Hok) in X1; auto. destruct X1 as [_ X1].
  set (q := fun c => mr m (HCell s) [c; k] : R). set (u := fun e => mr m (VnEdge s) [e; k] : R).
  set (NC := nx (mesh_of_setup S) * ny (mesh_of_setup S)).
  assert (U0 : forall e, 0 <= e < 3 * NC -> u e = 0%R) by (intros; now apply Hu).
  assert (Pq : forall c, 0 <= c < NC -> (0 < q c)%R) by (intros; now apply Hp).
  set (r := fun c => (mr m (TrCell s) [l; c; k] / q c)%R). set (D := outflow m (fun e => emean m q e * grad m r e)%R).
  assert (Et : forall c, 0 <= c < NC -> mr m1 (TrCell t) [l; c; k] = (Rmax 0 (eddy_diff2 (par_of S)) * D c - Rmax 0 (eddy_diff4 (par_of S)) * outflow m (grad m D) c)%R).
  { intros c Hc. rewrite X1, (T_tr S Hok m Hr) by assumption. unfold zr, ttend. cbn [is_replace fofZ RA]. cbv zeta. fold q. fold u.
    change (fun c => (mr m (TrCell s) [l; c; k] / mr m (HCell s) [c; k])%R) with r. fold D.
    rewrite (outflow_zero S Hok m Hr); [|assumption|]. 2:{ intros e He. change (mr m (VnEdge s) [e; k]) with (u e). rewrite (U0 e He). ring. }
    unfold tracer_diff_enabled, tracer_hyperdiff_enabled. cbn [flt RA fofZ].
    destruct (Rlt_dec 0 (eddy_diff2 (par_of S))) as [P2|P2]; [rewrite (Rmax_right 0 (eddy_diff2 (par_of S))) by (apply Rlt_le, P2)|rewrite (Rmax_left 0 (eddy_diff2 (par_of S))) by (apply Rnot_lt_le, P2)];
    (destruct (Rlt_dec 0 (eddy_diff4 (par_of S))) as [P4|P4]; [rewrite (Rmax_right 0 (eddy_diff4 (par_of S))) by (apply Rlt_le, P4)|rewrite (Rmax_left 0 (eddy_diff4 (par_of S))) by (apply Rnot_lt_le, P4)]); rring. }
  split.
  - intros Zt. exists (r 0). intros c Hc.
    assert (Pe : forall e, 0 <= e < 3 * NC -> (0 < emean m q e)%R)
      by (intros e He; unfold emean; pose proof (Pq _ (wf_coe _ _ (ready_wfm S Hok m Hr) e 0 He ltac:(lia))); pose proof (Pq _ (wf_coe _ _ (ready_wfm S Hok m Hr) e 1 He ltac:(lia))); lra).
    assert (Rc : r c = r 0).
    { apply (mixed_uniform S Hok Hdc H1 H2 m Hr (emean m q) r (Rmax 0 (eddy_diff2 (par_of S))) (Rmax 0 (eddy_diff4 (par_of S)))); [exact Pe|apply Rmax_l|apply Rmax_l| |intros c' Hc'; exact (eq_trans (eq_sym (Et c' Hc')) (Zt c' Hc'))|exact Hc].
      destruct Hd as [P2|P4]; [left; now rewrite (Rmax_right 0 _ (Rlt_le _ _ P2))|right; now rewrite (Rmax_right 0 _ (Rlt_le _ _ P4))]. }
    rewrite <- Rc. unfold r. change (mr m (HCell s) [c; k]) with (q c). specialize (Pq c Hc). clear - Pq. set (x := mr m (TrCell s) [l; c; k]). set (y := q c) in *. assert (K : forall x y : R, (0 < y)%R -> x = (x / y * y)%R) by (intros a b Hb; field; lra). exact (K x y Pq).
  - intros [C HC] c Hc. rewrite X1, (T_tr S Hok m Hr) by assumption. rewrite (ttend_rest S Hok m Hr); [unfold zr; cbn [is_replace fofZ F RA]; ring|assumption|assumption|].
    right. intros c1 c2 A1 A2. rewrite !HC by assumption. change (mr m (HCell s) [c1; k]) with (q c1). change (mr m (HCell s) [c2; k]) with (q c2). pose proof (Pq c1 A1) as B1. pose proof (Pq c2 A2) as B2.
    assert (K : forall a b : R, (0 < a)%R -> (0 < b)%R -> (C * a / a = C * b / b)%R) by (intros a b Ha Hb; field; lra). exact (K _ _ B1 B2).
Qed.
