(** The tracer operator of a given flow, and runs in flows whose thickness and velocity do not change. *)
From Coq Require Import ZArith Reals List Bool Lia Lra.
From Verif Require Import Arith Arrays Prog Conc Launch Mesh AuxVars Tend Model Hex HexComb RSum Spec MeshProof MeshMem MeshFacts MeshR MeshCalc Over Formulas KernBase Terms KernAux KernTend TendFn StepFn Ready Rel RelRun Relate TendVal StepVal StepRun Tableau StepThms RealTend SumParts Diag FieldInv ConsBase ConsThms SteadyThms SuperThms Diffuse DiffuseThms Deriv Stencil Taylor Sample Waves Modes DecayNum Driver DriverFn DriverThms WaveRun Frozen.
Import ListNotations.
Open Scope Z_scope.

Section Transport.
Context (S : setup RA) (Hok : setup_ok S) (Hdc : (0 < (dc (mesh_of_setup S) : R))%R) (m : mem RA) (Hr : ready S m).
Local Notation P := (par_of S).
Local Notation NC := (nx (mesh_of_setup S) * ny (mesh_of_setup S)).
Local Notation NL := (d_nlayers (sdims S)).
Let Hw : wfm (sdims S) m := ready_wfm S Hok m Hr.

(** The tendency of a tracer [phi] in a flow with thickness [q] and normal velocity [u]. *)
Definition topl (q u phi : Z -> R) (c : Z) : R :=
  let r c := (phi c / q c)%R in
  (- outflow m (fun e => emean m q e * u e * emean m r e) c
   + (if tracer_diff_enabled P then eddy_diff2 P * outflow m (fun e => emean m q e * grad m r e) c else 0)
   - (if tracer_hyperdiff_enabled P then eddy_diff4 P * outflow m (grad m (outflow m (fun e => emean m q e * grad m r e))) c else 0))%R.
Lemma topl_lin q u a b f g phi c : 0 <= c < NC -> (forall c, 0 <= c < NC -> phi c = (a * f c + b * g c)%R) ->
  topl q u phi c = (a * topl q u f c + b * topl q u g c)%R.
Proof.
  intros Hc E. unfold topl. cbv zeta.
  set (r := fun (f : Z -> R) c => (f c / q c)%R).
  assert (Er : forall c, 0 <= c < NC -> r phi c = (a * r f c + b * r g c)%R) by (intros c' Hc'; unfold r; rewrite E by exact Hc'; unfold Rdiv; rring).
  assert (Em : forall e, 0 <= e < 3 * NC -> emean m (r phi) e = (a * emean m (r f) e + b * emean m (r g) e)%R).
  { intros e He. unfold emean. rewrite !Er by (apply (wf_coe _ _ Hw); [exact He|lia]). unfold Rdiv. ring. }
  assert (Eg : forall e, 0 <= e < 3 * NC -> grad m (r phi) e = (a * grad m (r f) e + b * grad m (r g) e)%R).
  { intros e He. unfold grad. rewrite !Er by (apply (wf_coe _ _ Hw); [exact He|lia]). unfold Rdiv. ring. }
  assert (E1 : outflow m (fun e => emean m q e * u e * emean m (r phi) e)%R c = (a * outflow m (fun e => emean m q e * u e * emean m (r f) e) c + b * outflow m (fun e => emean m q e * u e * emean m (r g) e) c)%R).
  { rewrite <- outflow_lin. apply (outflow_ext S Hok m Hr); [|exact Hc]. intros e He. rewrite Em by exact He. ring. }
  assert (E2 : forall c, 0 <= c < NC -> outflow m (fun e => emean m q e * grad m (r phi) e)%R c = (a * outflow m (fun e => emean m q e * grad m (r f) e) c + b * outflow m (fun e => emean m q e * grad m (r g) e) c)%R).
  { intros c' Hc'. rewrite <- outflow_lin. apply (outflow_ext S Hok m Hr); [|exact Hc']. intros e He. rewrite Eg by exact He. ring. }
  assert (E3 : outflow m (grad m (outflow m (fun e => emean m q e * grad m (r phi) e)%R)) c = (a * outflow m (grad m (outflow m (fun e => emean m q e * grad m (r f) e)%R)) c + b * outflow m (grad m (outflow m (fun e => emean m q e * grad m (r g) e)%R)) c)%R).
  { rewrite <- outflow_lin. apply (outflow_ext S Hok m Hr); [|exact Hc]. intros e He. unfold grad at 1 3 5.
    rewrite !E2 by (apply (wf_coe _ _ Hw); [exact He|lia]). unfold Rdiv. ring. }
  pose (W := fun f => (- outflow m (fun e => emean m q e * u e * emean m (r f) e) c
   + (if tracer_diff_enabled P then eddy_diff2 P * outflow m (fun e => emean m q e * grad m (r f) e) c else 0)
   - (if tracer_hyperdiff_enabled P then eddy_diff4 P * outflow m (grad m (outflow m (fun e => emean m q e * grad m (r f) e))) c else 0))%R).
  change (W phi = (a * W f + b * W g)%R). unfold W. rewrite E1, E3, E2 by exact Hc.
  destruct (tracer_diff_enabled P), (tracer_hyperdiff_enabled P); rring.
Qed.
Lemma topl_ext q u f g c : (forall c, 0 <= c < NC -> f c = g c) -> 0 <= c < NC -> topl q u f c = topl q u g c.
Proof. intros E Hc. rewrite (topl_lin q u 1 0 g g f c Hc); [ring|]. intros c' Hc'. rewrite E by exact Hc'. ring. Qed.
(** The same with other names of the flow. *)
Lemma topl_flow q q' u u' f c : (forall c, 0 <= c < NC -> q c = q' c) -> (forall e, 0 <= e < 3 * NC -> u e = u' e) -> 0 <= c < NC ->
  topl q u f c = topl q' u' f c.
Proof.
  intros Eq Eu Hc. unfold topl. cbv zeta.
  assert (Er : forall c, 0 <= c < NC -> (f c / q c = f c / q' c)%R) by (intros; now rewrite Eq).
  assert (E1 : outflow m (fun e => emean m q e * u e * emean m (fun c => f c / q c) e)%R c = outflow m (fun e => emean m q' e * u' e * emean m (fun c => f c / q' c) e)%R c).
  { apply (outflow_ext S Hok m Hr); [|exact Hc]. intros e He. rewrite (Eu e He), (emean_ext S Hok m Hr q q' e Eq He), (emean_ext S Hok m Hr _ _ e Er He). reflexivity. }
  assert (E2 : forall c, 0 <= c < NC -> outflow m (fun e => emean m q e * grad m (fun c => f c / q c) e)%R c = outflow m (fun e => emean m q' e * grad m (fun c => f c / q' c) e)%R c).
  { intros c' Hc'. apply (outflow_ext S Hok m Hr); [|exact Hc']. intros e He. rewrite (emean_ext S Hok m Hr q q' e Eq He), (grad_ext S Hok m Hr _ _ e Er He). reflexivity. }
  rewrite E1, E2 by exact Hc. do 2 f_equal. destruct (tracer_hyperdiff_enabled P); [|reflexivity]. f_equal.
  apply (outflow_ext S Hok m Hr); [|exact Hc]. intros e He. now apply (grad_ext S Hok m Hr).
Qed.

Context (Hf : hook S = None).
(** The flow of [m] in layer [j]. *)
Definition qm (c j : Z) : R := mr m (HCell St) [c; j].
Definition um (e j : Z) : R := mr m (VnEdge St) [e; j].
Definition top (j : Z) : (Z -> R) -> Z -> R := topl (fun c => qm c j) (fun e => um e j).

(** The velocity tendency depends on thickness and velocity only. *)
Lemma vtend_ymem (y y' : fields RA) j e : 0 <= j < NL -> z_rest S (fh y') (fv y') y -> 0 <= e < 3 * NC -> vtend S (ymem m y) St j e = vtend S (ymem m y') St j e.
Proof.
  intros Hj Hy He.
  assert (Eq : forall c, 0 <= c < NC -> fh y c j = fh y' c j) by now apply Hy.
  assert (Eu : forall e, 0 <= e < 3 * NC -> fv y e j = fv y' e j) by now apply Hy.
  assert (Eu' : forall e, 0 <= e < 3 * NC -> fv y e (rv_layer (cfg_of S) j) = fv y' e (rv_layer (cfg_of S) j)).
  { apply Hy. now apply (rv_range S (ok_wfd S Hok)). }
  pose (W := fun q u u' : Z -> R => (pvflux m (f0 P) q u e - grad m (kin m u) e - grav P * grad m q e
   + (if vel_diff_enabled P then visc_del2 P * vlap m u e else 0)
   - (if vel_hyperdiff_enabled P then visc_del4 P * vlap' m (vlap m u) (vlap m u') e else 0))%R).
  change (W (fun c => fh y c j) (fun e => fv y e j) (fun e => fv y e (rv_layer (cfg_of S) j)) = W (fun c => fh y' c j) (fun e => fv y' e j) (fun e => fv y' e (rv_layer (cfg_of S) j))).
  unfold W. rewrite (pvflux_ext S Hok m Hr _ _ _ _ _ e Eq Eu He).
  rewrite (grad_ext S Hok m Hr (kin m _) (kin m (fun e => fv y' e j)) e); [|intros c Hc; now apply (kin_ext S Hok m Hr)|exact He].
  rewrite (grad_ext S Hok m Hr _ (fun c => fh y' c j) e Eq He).
  rewrite (vlap_ext S Hok m Hr (fun e => fv y e j) _ e Eu He).
  assert (E : vlap' m (vlap m (fun e => fv y e j)) (vlap m (fun e => fv y e (rv_layer (cfg_of S) j))) e = vlap' m (vlap m (fun e => fv y' e j)) (vlap m (fun e => fv y' e (rv_layer (cfg_of S) j))) e).
  { unfold vlap'. f_equal.
    - apply (grad_ext S Hok m Hr); [|exact He]. intros c Hc. apply (outflow_ext S Hok m Hr); [|exact Hc]. intros e' He'. now apply (vlap_ext S Hok m Hr).
    - apply (rgrad_ext S Hok m Hr); [|exact He]. intros v Hv. apply (vort_ext S Hok m Hr); [|exact Hv]. intros e' He'. now apply (vlap_ext S Hok m Hr). }
  rewrite E. reflexivity.
Qed.

(** Thickness and velocity of [m] have no tendency. *)
Definition steady : Prop := forall time : R, exists M, tendency_fn S Tend St time Replace m = M /\ forall j, 0 <= j < NL ->
  (forall c, 0 <= c < NC -> mr M (HCell Tend) [c; j] = 0%R) /\ (forall e, 0 <= e < 3 * NC -> mr M (VnEdge Tend) [e; j] = 0%R).
Lemma frozen_tend (time : R) (y k : fields RA) : disabled_zero S Tend m -> steady -> z_rest S qm um y -> tendency_of S time y k -> z_rtend S top y k.
Proof.
  intros Hz Hst Hy T j Hj. destruct (tend_of S Hok Hdc m Hr time y k T j Hj) as (A1 & A2 & A3).
  destruct (Hst time) as (M & EM & HM). destruct (HM j Hj) as (B1 & B2). destruct (Hy j Hj) as (Y1 & Y2).
  destruct (tendency_ex S Hok time (fld St m)) as [k0 T0]. destruct (tend_of S Hok Hdc m Hr time _ k0 T0 j Hj) as (C1 & C2 & _).
  assert (H0 : holds S Tend M k0).
  { rewrite <- EM. apply tend_holds with (y := fld St m); auto using holds_fld. discriminate. }
  destruct (H0 j Hj) as (D1 & D2 & _).
  repeat split.
  - intros c Hc. rewrite A1 by exact Hc. rewrite <- (B1 c Hc), D1, C1 by exact Hc. unfold hk_h. rewrite Hf. destruct (disable_h P); [reflexivity|].
    f_equal. apply (outflow_ext S Hok m Hr); [|exact Hc]. intros e He. rewrite Y2 by exact He. f_equal. now apply (emean_ext S Hok m Hr).
  - intros e He. rewrite A2 by exact He. rewrite <- (B2 e He), D2, C2 by exact He. unfold hk_v. rewrite Hf. destruct (disable_vn P); [reflexivity|].
    apply (vtend_ymem y (fld St m) j e Hj); [|exact He]. exact Hy.
  - intros l c Hl Hc. unfold slice at 1. rewrite A3 by assumption.
    change (topl (fun c => fh y c j) (fun e => fv y e j) (slice y l j) c = top j (slice y l j) c). unfold top. now apply topl_flow.
Qed.

Lemma frozen_run st steps : disabled_zero S Tend m -> steady ->
  always (sdims S) (stepper_run S st steps) m (fun m' => cst m m' /\ forall k, 0 <= k < NL ->
    (forall c, 0 <= c < NC -> mr m' (HCell St) [c; k] = mr m (HCell St) [c; k]) /\
    (forall e, 0 <= e < 3 * NC -> mr m' (VnEdge St) [e; k] = mr m (VnEdge St) [e; k]) /\
    forall l c, 0 <= l < ntracers P -> 0 <= c < NC ->
      mr m' (TrCell St) [l; c; k] = zprun (top k) (gst st) steps (fun c => mr m (TrCell St) [l; c; k]) c).
Proof.
  intros Hz Hst. apply always_and.
  { eapply always_fn with (f := run_fn S st steps); [apply hs_stepper_run; [exact Hok|exact Hw]|].
    intros M EM. eapply cst_meq; [exact EM|]. destruct st; [apply cst_rk4_run|apply cst_lsrk_run]. }
  assert (Lx : forall j f g c, 0 <= j < NL -> (forall c, 0 <= c < NC -> f c = g c) -> 0 <= c < NC -> top j f c = top j g c)
    by (intros j f g c _ E Hc; now apply topl_ext).
  assert (Ll : forall j a b f g c, 0 <= j < NL -> 0 <= c < NC -> top j (fun c => a * f c + b * g c)%R c = (a * top j f c + b * top j g c)%R)
    by (intros j a b f g c _ Hc; now apply topl_lin).
  assert (Rt : forall (time : R) y k, z_rest S qm um y -> tendency_of S time y k -> z_rtend S top y k) by (intros; eapply frozen_tend; eassumption).
  assert (Ry : z_rest S qm um (fld St m)) by (intros j Hj; split; reflexivity).
  assert (G : forall g y' M N, z_ran S top qm um g steps (fld St m) y' -> holds S St N y' -> meq M N -> forall k, 0 <= k < NL ->
    (forall c, 0 <= c < NC -> mr M (HCell St) [c; k] = mr m (HCell St) [c; k]) /\
    (forall e, 0 <= e < 3 * NC -> mr M (VnEdge St) [e; k] = mr m (VnEdge St) [e; k]) /\
    forall l c, 0 <= l < ntracers P -> 0 <= c < NC ->
      mr M (TrCell St) [l; c; k] = zprun (top k) g steps (fun c => mr m (TrCell St) [l; c; k]) c).
  { intros g y' M N [R1 E] Hy [_ EM] k Hk. destruct (Hy k Hk) as (E1 & E2 & E3). destruct (R1 k Hk) as (F1 & F2). repeat split.
    - intros c Hc. rewrite EM, E1 by exact Hc. now apply F1.
    - intros e He. rewrite EM, E2 by exact He. now apply F2.
    - intros l c Hl Hc. rewrite EM, E3 by assumption. now apply (E l k c). }
  destruct st as [|n].
  - eapply always_fn; [apply rd_rk4_run; auto|]. intros M E.
    destruct (z_rk4_ran S Hok Hf top Lx Ll qm um Rt steps m (fld St m) Hr Hz (holds_fld S St m) Ry) as (y' & A & B).
    eapply G; [exact B|exact A|exact E].
  - assert (C : (n = 1 \/ n = 5) \/ (n <> 1 /\ n <> 5)) by lia. destruct C as [C|[C1 C5]].
    + eapply always_fn; [apply rd_lsrk_run; auto|]. intros M E.
      destruct (z_lsrk_ran S Hok top Lx Ll qm um Rt n steps m (fld St m) C Hr (holds_fld S St m) Ry) as (y' & A & B).
      assert (EG : gst (LSRK n) = g_lsrk n) by (destruct C as [-> | ->]; reflexivity). rewrite EG. eapply G; [exact B|exact A|exact E].
    + destruct (C43_unsupported_stage_count_does_nothing_proof S Hok n steps m C1 C5 Hr) as [A B]. split; [|exact B].
      intros o Ho. destruct (A o Ho) as (M & EM & Q). exists M. split; [exact EM|]. intros k Hk. destruct (Q k Hk) as (Q1 & Q2 & Q3). repeat split.
      * intros c Hc. symmetry. now apply Q1.
      * intros e He. symmetry. now apply Q2.
      * intros l c Hl Hc. rewrite <- Q3 by assumption.
        assert (EG : gst (LSRK n) = g_none) by (cbn [gst]; destruct (Z.eqb_spec n 5); [lia|]; destruct (Z.eqb_spec n 1); [lia|]; reflexivity). rewrite EG.
        clear - Hc. set (f := fun c => mr m (TrCell St) [l; c; k] : R). change (mr m (TrCell St) [l; c; k]) with (f c).
        assert (Z0 : forall f', (forall c, f' c = f c) -> zprun (top k) g_none steps f' c = f c).
        { induction steps as [|p s IH]; intros f' Ef; [apply Ef|]. cbn [zprun fold_left]. apply IH. intros c'. unfold zpol, g_none. rewrite Ef. ring. }
        symmetry. apply Z0. reflexivity.
Qed.
End Transport.
