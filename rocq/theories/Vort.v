(** The vorticity of the velocity tendency: the gradients drop out, and where the potential vorticity is
    uniform the potential vorticity flux is a reconstruction whose curl is the mean of the divergence. *)
From Coq Require Import ZArith Reals List Bool Lia Lra.
From Verif Require Import Arith Arrays Prog Conc Launch Mesh AuxVars Tend Model Hex RSum Spec MeshProof MeshMem MeshR MeshCalc Over Formulas KernBase Terms KernAux KernTend TendFn StepFn Ready Rel RelRun Relate TendVal StepVal StepRun StepThms RealTend FieldInv ConsBase ConsThms SteadyThms SimdThms.
Import ListNotations.
Open Scope Z_scope.

Lemma circ_lin (m : mem RA) a b f g v : circ m (fun e => a * f e + b * g e)%R v = (a * circ m f v + b * circ m g v)%R.
Proof. unfold circ. rewrite !rsum_small3. cbv zeta. ring. Qed.
Lemma vort_lin (m : mem RA) a b f g v : vort m (fun e => a * f e + b * g e)%R v = (a * vort m f v + b * vort m g v)%R.
Proof. unfold vort. rewrite circ_lin. unfold Rdiv. ring. Qed.
Lemma hvert_lin (m : mem RA) a b f g v : hvert m (fun c => a * f c + b * g c)%R v = (a * hvert m f v + b * hvert m g v)%R.
Proof. unfold hvert. rewrite !rsum_small3. unfold Rdiv. ring. Qed.

Section Vort.
Context (S : setup RA) (Hok : setup_ok S) (Hdc : (0 < (dc (mesh_of_setup S) : R))%R) (m : mem RA) (Hr : ready S m).
Context (N1 : 2 <= nx (mesh_of_setup S)) (N2 : 2 <= ny (mesh_of_setup S)) (Ev : Z.even (ny (mesh_of_setup S)) = true).
Local Notation P := (par_of S).
Local Notation NC := (nx (mesh_of_setup S) * ny (mesh_of_setup S)).
Local Notation NL := (d_nlayers (sdims S)).
Let Hw : wfm (sdims S) m := ready_wfm S Hok m Hr.
Let Hh : hexmem (mesh_of_setup S) (d_nlayers (dims_of (cfg_of S) (mesh_of_setup S) (ntracers P))) m := ready_hex S Hok m Hr.

Lemma hvert_ext f g v : (forall c, 0 <= c < NC -> f c = g c) -> 0 <= v < 2 * NC -> hvert m f v = hvert m g v.
Proof.
  intros E Hv. unfold hvert. apply (f_equal2 Rdiv); [|reflexivity]. apply rsum_ext. intros j Hj. rewrite E; [reflexivity|].
  apply (wf_cov _ _ Hw); assumption.
Qed.
Lemma vort_grad phi v : 0 <= v < 2 * NC -> vort m (grad m phi) v = 0%R.
Proof. intros Hv. unfold vort. rewrite (SimdThms.curl_grad S Hok Hdc m Hr N1 Ev) by exact Hv. unfold Rdiv. ring. Qed.
Lemma vort_vlap' u u' v : (forall w w', 0 <= w < 2 * NC -> 0 <= w' < 2 * NC -> vort m u' w = vort m u' w') -> 0 <= v < 2 * NC ->
  vort m (vlap' m u u') v = 0%R.
Proof.
  intros E Hv. rewrite (vort_ext S Hok m Hr _ (grad m (outflow m u)) v); [now apply vort_grad| |exact Hv].
  intros e He. unfold vlap'. rewrite (rgrad_flat S Hok m Hr _ e E He). ring.
Qed.
(** What is left of the vorticity of the velocity tendency. *)
Lemma vort_vtend s j v (u := fun e => mr m (VnEdge s) [e; j] : R) (q := fun c => mr m (HCell s) [c; j] : R) (u' := fun e => mr m (VnEdge s) [e; rv_layer (cfg_of S) j] : R) :
  0 <= v < 2 * NC ->
  vort m (vtend S m s j) v = (vort m (pvflux m (f0 P) q u) v
    + (if vel_diff_enabled P then visc_del2 P * vort m (vlap m u) v else 0)
    - (if vel_hyperdiff_enabled P then visc_del4 P * vort m (vlap' m (vlap m u) (vlap m u')) v else 0))%R.
Proof.
  intros Hv.
  transitivity (vort m (fun e => 1 * (1 * (1 * (1 * pvflux m (f0 P) q u e + (-1) * grad m (kin m u) e) + - grav P * grad m q e) +
    (if vel_diff_enabled P then visc_del2 P : R else 0) * vlap m u e) + - (if vel_hyperdiff_enabled P then visc_del4 P : R else 0) * vlap' m (vlap m u) (vlap m u') e)%R v).
  - apply (vort_ext S Hok m Hr); [|exact Hv]. intros e He. unfold vtend. fold u q u'.
    destruct (vel_diff_enabled P), (vel_hyperdiff_enabled P); rring.
  - rewrite 4!(vort_lin m 1). rewrite !vort_grad by exact Hv. destruct (vel_diff_enabled P), (vel_hyperdiff_enabled P); rring.
Qed.
Lemma pv_uniform Q f q u e : (forall v, 0 <= v < 2 * NC -> pvort m f q u v = Q) -> 0 <= e < 3 * NC ->
  pvflux m f q u e = (Q * recon m (fun e => emean m q e * u e) e)%R.
Proof.
  intros E He. unfold pvflux, recon. rewrite <- rsum_scal. apply rsum_ext. intros k Hk. cbv zeta.
  assert (PE : forall e, 0 <= e < 3 * NC -> pvedge m f q u e = Q).
  { intros e' He'. unfold pvedge. rewrite !E by (apply (wf_voe _ _ Hw); [exact He'|lia]). lra. }
  rewrite !PE; [unfold Rdiv; lra| |exact He]. apply (wf_eoe _ _ Hw); [exact He|]. exact Hk.
Qed.
Lemma vort_recon F v : 0 <= v < 2 * NC -> vort m (recon m F) v = hvert m (fun c => - outflow m F c)%R v.
Proof.
  intros Hv. unfold vort, hvert. rewrite (m_trisk (cfg_of S) (mesh_of_setup S) (ntracers P) (proj1 Hok) Hdc m Hh F v N1 N2 Ev Hv).
  apply (f_equal2 Rdiv); [|reflexivity]. rewrite <- rsum_opp. apply rsum_ext. intros. ring.
Qed.
Lemma vort_pv Q f q u v : (forall v, 0 <= v < 2 * NC -> pvort m f q u v = Q) -> 0 <= v < 2 * NC ->
  vort m (pvflux m f q u) v = (Q * hvert m (fun c => - outflow m (fun e => emean m q e * u e) c) v)%R.
Proof.
  intros E Hv. rewrite (vort_ext S Hok m Hr _ (fun e => Q * recon m (fun e => emean m q e * u e)%R e)%R v).
  - rewrite vort_scal, vort_recon by exact Hv. reflexivity.
  - intros e He. now apply pv_uniform.
  - exact Hv.
Qed.
Lemma hvert_flat f H v : (forall c, 0 <= c < NC -> f c = H) -> 0 <= v < 2 * NC -> hvert m f v = H.
Proof.
  intros E Hv. unfold hvert. rewrite (rsum_ext _ _ (fun _ => hkite (mesh_of_setup S) * H)%R).
  2:{ intros i Hi. rewrite (hm_kite _ _ _ Hh) by assumption. f_equal. apply E. now apply (wf_cov _ _ Hw). }
  rewrite (hm_atri _ _ _ Hh), rsum_small3, hkite_R, hatri_R by assumption.
  pose proof sqrt3_pos. cbn [F RA] in *. field. split; lra.
Qed.
End Vort.
