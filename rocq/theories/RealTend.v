(** What [compute_tendency] computes in exact arithmetic, in terms of outflow, circulation and gradients of
    the prognostic fields. *)
From Coq Require Import ZArith Reals List Bool Lia Lra.
From Verif Require Import Arith Arrays Prog Conc Launch Mesh AuxVars Tend Model Hex HexComb RSum Spec MeshProof MeshMem MeshR MeshCalc SumParts Over Formulas RealOps KernBase Terms KernAux KernTend TendFn StepFn Ready Rel RelRun Relate TendVal.
Import ListNotations.
Open Scope Z_scope.

Section RealTend.
Context (S : setup RA) (Hok : setup_ok S) (Hdc : (0 < (dc (mesh_of_setup S) : R))%R).
Local Notation cf := (cfg_of S).
Local Notation P := (par_of S).
Local Notation h := (mesh_of_setup S).
Local Notation D := (sdims S).
Local Notation NC := (nx h * ny h).
Local Notation NL := (d_nlayers D).
Local Notation aux := (aux_fn cf D).
Let Hm0 : mesh_ok cf h := proj1 Hok.
Let Hd : wfd cf D := ok_wfd S Hok.

Section Ext.
Context (m : mem RA) (Hr : ready S m).
Let Hh : hexmem h NL m := ready_hex S Hok m Hr.
Let Hw : wfm D m := ready_wfm S Hok m Hr.
Local Notation ri b ix := (mi m b ix%Z).
Local Notation rr b ix := (mr m b ix%Z : R).

Lemma outflow_ext g g' c : (forall e, 0 <= e < 3 * NC -> g e = g' e) -> 0 <= c < NC -> outflow m g c = outflow m g' c.
Proof.
  intros E Hc. unfold outflow. f_equal. rewrite (hm_noc _ _ _ Hh) by lia. apply rsum_ext. intros j Hj. cbv zeta. f_equal. apply E.
  now apply (wf_eoc _ _ Hw).
Qed.
Lemma circ_ext g g' v : (forall e, 0 <= e < 3 * NC -> g e = g' e) -> 0 <= v < 2 * NC -> circ m g v = circ m g' v.
Proof.
  intros E Hc. unfold circ. apply rsum_ext. intros j Hj. cbv zeta. f_equal. apply E. now apply (wf_eov _ _ Hw).
Qed.
Lemma vort_ext g g' v : (forall e, 0 <= e < 3 * NC -> g e = g' e) -> 0 <= v < 2 * NC -> vort m g v = vort m g' v.
Proof. intros E Hv. unfold vort. f_equal. now apply circ_ext. Qed.
Lemma grad_ext g g' e : (forall c, 0 <= c < NC -> g c = g' c) -> 0 <= e < 3 * NC -> grad m g e = grad m g' e.
Proof. intros E He. unfold grad. now rewrite !E by (apply (wf_coe _ _ Hw); lia || assumption). Qed.
Lemma rgrad_ext g g' e : (forall v, 0 <= v < 2 * NC -> g v = g' v) -> 0 <= e < 3 * NC -> rgrad m g e = rgrad m g' e.
Proof. intros E He. unfold rgrad. now rewrite !E by (apply (wf_voe _ _ Hw); lia || assumption). Qed.
Lemma emean_ext g g' e : (forall c, 0 <= c < NC -> g c = g' c) -> 0 <= e < 3 * NC -> emean m g e = emean m g' e.
Proof. intros E He. unfold emean. now rewrite !E by (apply (wf_coe _ _ Hw); lia || assumption). Qed.
Lemma kin_ext u u' c : (forall e, 0 <= e < 3 * NC -> u e = u' e) -> 0 <= c < NC -> kin m u c = kin m u' c.
Proof.
  intros E Hc. unfold kin. do 2 f_equal. rewrite (hm_noc _ _ _ Hh) by lia. apply rsum_ext. intros j Hj. cbv zeta.
  now rewrite !E by now apply (wf_eoc _ _ Hw).
Qed.
Lemma hvert_ext q q' v : (forall c, 0 <= c < NC -> q c = q' c) -> 0 <= v < 2 * NC -> hvert m q v = hvert m q' v.
Proof.
  intros E Hv. unfold hvert. f_equal. apply rsum_ext. intros j Hj. f_equal. apply E. now apply (wf_cov _ _ Hw).
Qed.
Lemma pvort_ext f q q' u u' v : (forall c, 0 <= c < NC -> q c = q' c) -> (forall e, 0 <= e < 3 * NC -> u e = u' e) ->
  0 <= v < 2 * NC -> pvort m f q u v = pvort m f q' u' v.
Proof. intros Eq Eu Hv. unfold pvort. rewrite (vort_ext u u'), (hvert_ext q q') by assumption. reflexivity. Qed.
Lemma pvedge_ext f q q' u u' e : (forall c, 0 <= c < NC -> q c = q' c) -> (forall e, 0 <= e < 3 * NC -> u e = u' e) ->
  0 <= e < 3 * NC -> pvedge m f q u e = pvedge m f q' u' e.
Proof. intros Eq Eu He. unfold pvedge. now rewrite !(pvort_ext f q q' u u') by (assumption || (apply (wf_voe _ _ Hw); lia || assumption)). Qed.
Lemma eoe_range e j : 0 <= e < 3 * NC -> 0 <= j < ri NedgesOnEdge [e] -> 0 <= ri EdgesOnEdge [e; j] < 3 * NC.
Proof. intros He Hj. now apply (wf_eoe _ _ Hw). Qed.
Lemma pvflux_ext f q q' u u' e : (forall c, 0 <= c < NC -> q c = q' c) -> (forall e, 0 <= e < 3 * NC -> u e = u' e) ->
  0 <= e < 3 * NC -> pvflux m f q u e = pvflux m f q' u' e.
Proof.
  intros Eq Eu He. unfold pvflux. apply rsum_ext. intros j Hj. cbv zeta.
  pose proof (eoe_range e j He Hj) as He'. rewrite !(pvedge_ext f q q' u u'), (emean_ext q q'), Eu by assumption. reflexivity.
Qed.
Lemma vlap_ext u u' e : (forall e, 0 <= e < 3 * NC -> u e = u' e) -> 0 <= e < 3 * NC -> vlap m u e = vlap m u' e.
Proof.
  intros E He. unfold vlap. rewrite (grad_ext (outflow m u) (outflow m u')), (rgrad_ext (vort m u) (vort m u')); auto.
  - intros v Hv. now apply vort_ext.
  - intros v Hv. now apply outflow_ext.
Qed.

Lemma clamp_inert e : 0 <= e < 3 * NC -> fmax (rr DvEdge [e] : F RA) (fquarter * (rr DcEdge [e] : F RA))%fp = rr DvEdge [e].
Proof.
  intros He. rewrite (hm_dve _ _ _ Hh), (hm_dce _ _ _ Hh) by lia. unfold fmax. cbn [flt RA].
  destruct (Rlt_dec _ _) as [H|]; [|reflexivity]. exfalso. revert H. unfold fquarter. cbn [fmul fdiv fofZ RA F].
  rewrite hdve_R. assert (1 < sqrt 3)%R by (rewrite <- sqrt_1; apply sqrt_lt_1; lra). nra.
Qed.

Context (s : sid) (k : Z) (Hk : 0 <= k < NL).
Local Notation q := (fun c => rr (HCell s) [c; k]).
Local Notation u := (fun e => rr (VnEdge s) [e; k]).
Local Notation u' := (fun e => rr (VnEdge s) [e; rv_layer cf k]).
Local Notation a := (aux s m).

Lemma a_flux e : 0 <= e < 3 * NC -> mr a FluxHEdge [e; k] = emean m q e.
Proof. intros He. rewrite (av_flux S Hd s m k Hk e He). apply R_mean. Qed.
Lemma a_mean e : 0 <= e < 3 * NC -> mr a MeanHEdge [e; k] = emean m q e.
Proof. intros He. rewrite (av_mean S Hd s m k Hk e He). apply R_mean. Qed.
Lemma a_ke c : 0 <= c < NC -> mr a KeCell [c; k] = kin m u c.
Proof. intros He. rewrite (av_ke S Hd s m k Hk c He). apply R_ke. Qed.
Lemma a_div c : 0 <= c < NC -> mr a VelDivCell [c; k] = outflow m u c.
Proof. intros He. rewrite (av_div S Hd s m k Hk c He). apply R_div. Qed.
Lemma a_rvort v : 0 <= v < 2 * NC -> mr a RvortVertex [v; k] = vort m u v.
Proof. intros He. rewrite (av_rvort S Hd s m k Hk v He). apply R_rvort. Qed.
Lemma a_ntr l c : 0 <= l < ntracers P -> 0 <= c < NC -> mr a NormTrCell [l; c; k] = (rr (TrCell s) [l; c; k] / rr (HCell s) [c; k])%R.
Proof. intros Hl He. rewrite (av_ntr S Hd s m k Hk l c Hl He). apply R_ntr. Qed.
Lemma a_pv e : 0 <= e < 3 * NC -> (mr a NormRvortEdge [e; k] + mr a NormPvortEdge [e; k])%R = pvedge m (f0 P) q u e.
Proof.
  intros He. assert (H0 : 0 <= ri VerticesOnEdge [e; 0] < 2 * NC) by (apply (wf_voe _ _ Hw); lia || assumption).
  assert (H1 : 0 <= ri VerticesOnEdge [e; 1] < 2 * NC) by (apply (wf_voe _ _ Hw); lia || assumption).
  rewrite (av_nre S Hd s m k Hk e He H0 H1), (av_npe S Hd s m k Hk e He H0 H1).
  rewrite !R_nrv, !R_npv, !R_rvort, !R_hvert, !(ready_fv S Hok) by assumption.
  unfold pvedge, pvort, hvert, vort, fhalf. cbn [fadd fmul fdiv fofZ RA F]. unfold Rdiv. ring.
Qed.

(** Thickness. *)
Lemma T_h t time md c : 0 <= c < NC ->
  mr (tendency_fn S t s time md m) (HCell t) [c; k] =
  hk_h S time m c k (if disable_h P then mr m (HCell t) [c; k]
    else (zr md (mr m (HCell t) [c; k]) - outflow m (fun e => emean m q e * u e) c)%R).
Proof.
  intros Hc. rewrite (val_h S) by assumption. f_equal. destruct (disable_h P); [reflexivity|].
  rewrite R_hadv. apply (f_equal2 Rminus); [reflexivity|].
  apply (outflow_ext (fun e => mr a FluxHEdge [e; k] * mr a (VnEdge s) [e; k])%R); [|assumption].
  intros e He. rewrite a_flux by assumption. reflexivity.
Qed.

(** Velocity. *)
Lemma hyp_mesh e b ix : is_aux b = false -> b <> VelDel2Edge -> b <> VelDel2RvortVertex -> b <> VelDel2DivCell ->
  0 <= e -> mr (hyp_fn S a) b ix = mr m b ix.
Proof. intros. rewrite hyp_other by assumption. now apply aux_other. Qed.
Lemma hyp_aux b ix : b <> VelDel2Edge -> b <> VelDel2RvortVertex -> b <> VelDel2DivCell -> mr (hyp_fn S a) b ix = mr a b ix.
Proof. intros. now apply hyp_other. Qed.
Lemma hyp_mi b ix : mi (hyp_fn S a) b ix = mi m b ix.
Proof. unfold hyp_fn. destruct (vel_hyperdiff_enabled P); reflexivity. Qed.

Lemma a_del2 e k' : 0 <= k' < NL -> 0 <= e < 3 * NC ->
  f_del2 a e k' = vlap m (fun e => rr (VnEdge s) [e; k']) e.
Proof.
  intros Hk' He. rewrite R_del2 by (exact (clamp_inert e He)). unfold vlap. apply (f_equal2 Rminus).
  - apply (grad_ext (fun c => mr a VelDivCell [c; k'])); [|assumption]. intros c Hc.
    rewrite (av_div S Hd s m k' Hk' c Hc). apply R_div.
  - apply (rgrad_ext (fun v => mr a RvortVertex [v; k'])); [|assumption]. intros v Hv.
    rewrite (av_rvort S Hd s m k' Hk' v Hv). apply R_rvort.
Qed.
Lemma g_del2 e k' : vel_hyperdiff_enabled P = true -> 0 <= k' < NL -> 0 <= e < 3 * NC ->
  mr (del2_fn S a) VelDel2Edge [e; k'] = vlap m (fun e => rr (VnEdge s) [e; k']) e.
Proof.
  intros Hy Hk' He. unfold del2_fn. rewrite upd_same by (cbn [rext]; apply inb2; auto). cbn [on2]. now apply a_del2.
Qed.
Lemma g_del2d c : vel_hyperdiff_enabled P = true -> 0 <= c < NC ->
  mr (hyp_fn S a) VelDel2DivCell [c; k] = outflow m (vlap m u) c.
Proof.
  intros Hy Hc. unfold hyp_fn. rewrite Hy. unfold del2d_fn. rewrite upd_same by (cbn [rext]; apply inb2; auto). cbn [on2].
  rewrite R_del2d. apply (outflow_ext (fun e => mr (del2r_fn S (del2_fn S a)) VelDel2Edge [e; k])); [|assumption].
  intros e He. unfold del2r_fn. rewrite upd_other by discriminate. now apply g_del2.
Qed.
Lemma g_del2r v : vel_hyperdiff_enabled P = true -> 0 <= v < 2 * NC ->
  mr (hyp_fn S a) VelDel2RvortVertex [v; k] = vort m (vlap m u') v.
Proof.
  intros Hy Hv. unfold hyp_fn. rewrite Hy. unfold del2d_fn. rewrite upd_other by discriminate.
  unfold del2r_fn. rewrite upd_same by (cbn [rext]; apply inb2; auto). cbn [on2].
  rewrite R_del2r. unfold vort at 1. apply (f_equal2 Rdiv); [|reflexivity].
  apply (circ_ext (fun e => mr (del2_fn S a) VelDel2Edge [e; rv_layer cf k])); [|assumption].
  intros e He. apply g_del2; [assumption| |assumption]. now apply (rv_range S Hd).
Qed.

(** The velocity tendency without the hook. *)
Definition vtend (e : Z) : R :=
  (pvflux m (f0 P) q u e - grad m (kin m u) e - grav P * grad m q e
   + (if vel_diff_enabled P then visc_del2 P * vlap m u e else 0)
   - (if vel_hyperdiff_enabled P then visc_del4 P * vlap' m (vlap m u) (vlap m u') e else 0))%R.

Lemma T_v t time md e : s <> t -> 0 <= e < 3 * NC ->
  mr (tendency_fn S t s time md m) (VnEdge t) [e; k] =
  hk_v S time m e k (if disable_vn P then mr m (VnEdge t) [e; k] else (zr md (mr m (VnEdge t) [e; k]) + vtend e)%R).
Proof.
  intros Hts He. rewrite (val_v S Hd) by assumption. f_equal. destruct (disable_vn P); [reflexivity|].
  set (b := hyp_fn S a).
  assert (B : forall x ix, x <> VelDel2Edge -> x <> VelDel2RvortVertex -> x <> VelDel2DivCell -> mr b x ix = mr a x ix) by (intros; now apply hyp_aux).
  assert (Bm : forall x ix, is_aux x = false -> x <> VelDel2Edge -> x <> VelDel2RvortVertex -> x <> VelDel2DivCell -> mr b x ix = mr m x ix).
  { intros. rewrite B by assumption. now apply aux_other. }
  assert (Bi : forall x ix, mi b x ix = mi m x ix) by (intros; apply hyp_mi).
  assert (Gr : forall f, grad b f e = grad m f e) by (intros; unfold grad; now rewrite !Bi, Bm by (reflexivity || discriminate)).
  assert (Rg : forall f, rgrad b f e = rgrad m f e) by (intros; unfold rgrad; now rewrite !Bi, Bm by (reflexivity || discriminate)).
  unfold g_vn. cbv zeta. set (x := zr md (mr m (VnEdge t) [e; k])).
  assert (E1 : t_pv b (ksimd cf) s e k x = (x + pvflux m (f0 P) q u e)%R).
  { rewrite R_pv. apply (f_equal2 Rplus); [reflexivity|]. unfold pvflux. rewrite Bi. apply rsum_ext. intros j Hj. cbv zeta.
    rewrite Bi. pose proof (eoe_range e j He Hj) as He'. set (e' := ri EdgesOnEdge [e; j]) in *.
    rewrite !B by discriminate. rewrite !a_pv by assumption. rewrite a_flux by assumption. reflexivity. }
  rewrite E1, R_kegrad, R_sshgrad, !Gr.
  rewrite (grad_ext (fun c => mr b KeCell [c; k]) (kin m u)); [|intros c Hc; rewrite B by discriminate; now apply a_ke|assumption].
  rewrite (grad_ext (fun c => mr b (HCell s) [c; k]) q); [|intros c Hc; now rewrite Bm by (reflexivity || discriminate)|assumption].
  assert (E2 : forall y, (if vel_diff_enabled P then t_vdiff b (ksimd cf) (visc_del2 P) e k y else y) =
    (y + (if vel_diff_enabled P then visc_del2 P * vlap m u e else 0))%R).
  { intros y. destruct (vel_diff_enabled P); [|lra]. rewrite R_vdiff, Gr, Rg, !Bm by (reflexivity || discriminate).
    rewrite (hm_mask _ _ _ Hh), (hm_sc2 _ _ _ Hh) by assumption. unfold vlap.
    rewrite (grad_ext (fun c => mr b VelDivCell [c; k]) (outflow m u)); [|intros c Hc; rewrite B by discriminate; now apply a_div|assumption].
    rewrite (rgrad_ext (fun c => mr b RvortVertex [c; k]) (vort m u)); [|intros c Hc; rewrite B by discriminate; now apply a_rvort|assumption].
    cbn [fofZ RA]. apply Rminus_diag_uniq; ring. }
  rewrite E2.
  assert (E3 : forall y, (if vel_hyperdiff_enabled P then t_vhyp b (visc_del4 P) e k y else y) =
    (y - (if vel_hyperdiff_enabled P then visc_del4 P * vlap' m (vlap m u) (vlap m u') e else 0))%R).
  { intros y. destruct (vel_hyperdiff_enabled P) eqn:Hy; [|lra]. rewrite R_vhyp, Gr, Rg, !Bm by (reflexivity || discriminate).
    rewrite (hm_mask _ _ _ Hh), (hm_sc4 _ _ _ Hh) by assumption. unfold vlap' at 1.
    rewrite (grad_ext (fun c => mr b VelDel2DivCell [c; k]) (outflow m (vlap m u))); [|intros c Hc; now apply g_del2d|assumption].
    rewrite (rgrad_ext (fun c => mr b VelDel2RvortVertex [c; k]) (vort m (vlap m u'))); [|intros c Hc; now apply g_del2r|assumption].
    cbn [fofZ RA]. apply Rminus_diag_uniq; ring. }
  rewrite E3. unfold vtend. apply Rminus_diag_uniq. ring.
Qed.

(** Tracers. *)
Definition ttend (l c : Z) : R :=
  let r c := (rr (TrCell s) [l; c; k] / rr (HCell s) [c; k])%R in
  (- outflow m (fun e => emean m q e * u e * emean m r e) c
   + (if tracer_diff_enabled P then eddy_diff2 P * outflow m (fun e => emean m q e * grad m r e) c else 0)
   - (if tracer_hyperdiff_enabled P then eddy_diff4 P * outflow m (grad m (outflow m (fun e => emean m q e * grad m r e))) c else 0))%R.

Lemma T_tr t time md l c : s <> t -> 0 <= l < ntracers P -> 0 <= c < NC ->
  mr (tendency_fn S t s time md m) (TrCell t) [l; c; k] = (zr md (mr m (TrCell t) [l; c; k]) + ttend l c)%R.
Proof.
  intros Hts Hl Hc. rewrite (val_tr S Hd) by assumption.
  set (b := trdel2_fn S a).
  assert (B : forall x ix, x <> TracerDel2Cell -> mr b x ix = mr a x ix) by (intros; now apply trdel2_other).
  assert (Bm : forall x ix, is_aux x = false -> x <> TracerDel2Cell -> mr b x ix = mr m x ix).
  { intros. rewrite B by assumption. now apply aux_other. }
  assert (Bi : forall x ix, mi b x ix = mi m x ix) by (intros; unfold b, trdel2_fn; destruct (tracer_hyperdiff_enabled P); reflexivity).
  assert (Gr : forall f e, grad b f e = grad m f e) by (intros; unfold grad; now rewrite !Bi, Bm by (reflexivity || discriminate)).
  assert (Of : forall f, outflow b f c = outflow m f c).
  { intros. unfold outflow. rewrite Bi, Bm by (reflexivity || discriminate). f_equal. apply rsum_ext. intros j Hj. cbv zeta.
    now rewrite Bi, !Bm by (reflexivity || discriminate). }
  set (r := fun c => (rr (TrCell s) [l; c; k] / rr (HCell s) [c; k])%R).
  assert (Er : forall c, 0 <= c < NC -> mr b NormTrCell [l; c; k] = r c).
  { intros c' Hc'. rewrite B by discriminate. now apply a_ntr. }
  unfold g_tr. cbv zeta. set (x := zr md (mr m (TrCell t) [l; c; k])). unfold ttend. cbv zeta. fold r.
  rewrite R_trhadv, Of.
  rewrite (outflow_ext _ (fun e => emean m q e * u e * emean m r e)%R); [| |assumption].
  2:{ intros e He. cbv beta. rewrite !Bi, !Er by (apply (wf_coe _ _ Hw); lia || assumption).
      rewrite (B MeanHEdge), Bm by (reflexivity || discriminate). rewrite a_mean by assumption. reflexivity. }
  set (X := outflow m (fun e => emean m q e * u e * emean m r e)%R c).
  assert (E2 : forall y, (if tracer_diff_enabled P then t_trdiff b (ksimd cf) (eddy_diff2 P) FluxHEdge l c k y else y) =
    (y + (if tracer_diff_enabled P then eddy_diff2 P * outflow m (fun e => emean m q e * grad m r e) c else 0))%R).
  { intros y. destruct (tracer_diff_enabled P); [|lra]. rewrite R_trdiff, Of.
    rewrite (outflow_ext _ (fun e => emean m q e * grad m r e)%R); [reflexivity| |assumption].
    intros e He. cbv beta. rewrite Gr, (grad_ext (fun c => mr b NormTrCell [l; c; k]) r) by assumption.
    rewrite (B FluxHEdge), Bm by (reflexivity || discriminate). rewrite a_flux, (hm_sc2 _ _ _ Hh) by assumption. cbn [fofZ RA]. apply Rminus_diag_uniq; ring. }
  assert (E3 : forall y, (if tracer_hyperdiff_enabled P then t_trhyp b (eddy_diff4 P) l c k y else y) =
    (y - (if tracer_hyperdiff_enabled P then eddy_diff4 P * outflow m (grad m (outflow m (fun e => emean m q e * grad m r e))) c else 0))%R).
  { intros y. destruct (tracer_hyperdiff_enabled P) eqn:Hy; [|lra]. rewrite R_trhyp, Of.
    rewrite (outflow_ext _ (grad m (outflow m (fun e => emean m q e * grad m r e)))%R); [reflexivity| |assumption].
    intros e He. cbv beta. rewrite Gr, Bm by (reflexivity || discriminate). rewrite (hm_sc4 _ _ _ Hh) by assumption.
    rewrite (grad_ext (fun c => mr b TracerDel2Cell [l; c; k]) (outflow m (fun e => emean m q e * grad m r e)%R)); [cbn [fofZ RA]; apply Rminus_diag_uniq; ring| |assumption].
    intros c' Hc'. unfold b, trdel2_fn. rewrite Hy. rewrite upd_same by (cbn [rext]; apply inb3; rewrite ?d_ntr; auto). cbn [on3].
    rewrite R_trdel2. apply (outflow_ext (fun e => mr a FluxHEdge [e; k] * grad a (fun c => mr a NormTrCell [l; c; k]) e)%R); [|assumption].
    intros e' He'. rewrite a_flux by assumption. f_equal.
    apply (grad_ext (fun c => mr a NormTrCell [l; c; k])); [|assumption]. intros c'' Hc''. now apply a_ntr. }
  rewrite E2, E3. apply Rminus_diag_uniq. ring.
Qed.
End Ext.
End RealTend.
