(** Proofs of the properties of [PropsSimd.v]. *)
From Coq Require Import ZArith Reals List Bool Lia Lra.
From Verif Require Import Arith Arrays Prog Conc Launch Mesh AuxVars Tend Model Hex HexComb RSum Spec MeshProof MeshMem MeshR MeshCalc Over Formulas KernBase Terms KernAux KernTend TendFn StepFn Ready Rel RelRun Relate RunThms TendVal StepVal StepRun StepThms RealTend SumParts Diag FieldInv ConsBase ConsThms SteadyThms.
Import ListNotations.
Open Scope Z_scope.

(** A velocity with a single nonzero value: the vorticity of its Laplacian. *)
Section Wit.
Context (S : setup RA) (Hok : setup_ok S) (Hdc : (0 < (dc (mesh_of_setup S) : R))%R) (m : mem RA) (Hr : ready S m).
Local Notation h := (mesh_of_setup S).
Local Notation NC := (nx h * ny h).
Context (N1 : 2 <= nx h) (N2 : 2 <= ny h) (Ev : Z.even (ny h) = true).
Let Hm0 : mesh_ok (cfg_of S) h := proj1 Hok.
Let Hh : hexmem h (d_nlayers (dims_of (cfg_of S) h (ntracers (par_of S)))) m := ready_hex S Hok m Hr.
Local Notation rr b ix := (mr m b ix%Z : R).
Local Notation stokes := (stokes (cfg_of S) h (ntracers (par_of S)) Hm0 Hdc m Hh).

Lemma curl_grad phi v : 0 <= v < 2 * NC -> circ m (grad m phi) v = 0%R.
Proof. intros Hv. apply (m_curl_grad_iff (cfg_of S) h (ntracers (par_of S)) Hm0 Hdc m Hh N1); assumption. Qed.

Lemma circ_minus f g v : circ m (fun e => f e - g e)%R v = (circ m f v - circ m g v)%R.
Proof. unfold circ. rewrite <- rsum_minus. apply rsum_ext. intros. cbv zeta. ring. Qed.

Lemma vort_work u : rsum (2 * NC) (fun v => rr AreaTriangle [v] * vort m u v * vort m (vlap m u) v)%R =
  (- rsum (3 * NC) (fun e => rr DcEdge [e] * rr DvEdge [e] * (rgrad m (vort m u) e * rgrad m (vort m u) e)))%R.
Proof.
  rewrite (rsum_ext _ _ (fun v => - (vort m u v * circ m (rgrad m (vort m u)) v))%R).
  - rewrite rsum_opp, stokes. f_equal. apply rsum_ext. intros. ring.
  - intros v Hv. unfold vort at 2. unfold vlap. rewrite circ_minus, curl_grad by assumption.
    pose proof (cb_atri S Hok Hdc m Hr v Hv). field. lra.
Qed.

Definition hot (e : Z) : R := if e =? 0 then 1%R else 0%R.
Lemma rsum_hot_aux f : forall n, 0 <= n -> rsum (1 + n) (fun e => hot e * f e)%R = f 0.
Proof.
  apply natlike_ind.
  - change (1 + 0) with (0 + 1). rewrite rsum_succ by lia. change (rsum 0 _) with 0%R. unfold hot. cbn. ring.
  - intros n Hn IH. replace (1 + Z.succ n) with ((1 + n) + 1) by lia. rewrite rsum_succ by lia. rewrite IH.
    unfold hot. destruct (1 + n =? 0) eqn:E; [lia|]. ring.
Qed.
Lemma rsum_hot n f : 0 < n -> rsum n (fun e => hot e * f e)%R = f 0.
Proof. intros Hn. replace n with (1 + (n - 1)) by lia. apply rsum_hot_aux. lia. Qed.
Lemma stokes_hot psi : rsum (2 * NC) (fun v => psi v * circ m hot v)%R = (rr DcEdge [0] * rr DvEdge [0] * rgrad m psi 0)%R.
Proof.
  rewrite stokes. rewrite (rsum_ext _ _ (fun e => hot e * (rr DcEdge [e] * rr DvEdge [e] * rgrad m psi e))%R) by (intros; ring).
  apply rsum_hot. nia.
Qed.
Lemma NCpos : 0 <= 0 < 3 * NC. Proof. nia. Qed.

Lemma rgrad_hot : rgrad m (vort m hot) 0 <> 0%R.
Proof.
  intros E. pose proof (stokes_hot (vort m hot)) as Q. rewrite E, Rmult_0_r in Q.
  pose proof NCpos as H0.
  assert (Z : forall v, 0 <= v < 2 * NC -> circ m hot v = 0%R).
  { intros v Hv.
    assert (P0 : forall v, 0 <= v < 2 * NC -> (0 <= vort m hot v * circ m hot v)%R).
    { intros w Hw'. unfold vort. pose proof (cb_atri S Hok Hdc m Hr w Hw').
      replace (circ m hot w / rr AreaTriangle [w] * circ m hot w)%R with (circ m hot w * circ m hot w * / rr AreaTriangle [w])%R by (field; lra).
      apply Rmult_le_pos; [apply Rle_0_sqr|]. apply Rlt_le. now apply Rinv_0_lt_compat. }
    pose proof (rsum_zero_each _ _ P0 Q v Hv) as Ev0. cbv beta in Ev0. unfold vort in Ev0.
    pose proof (cb_atri S Hok Hdc m Hr v Hv) as Ha.
    apply (Rmult_eq_compat_r (rr AreaTriangle [v])) in Ev0.
    replace (circ m hot v / rr AreaTriangle [v] * circ m hot v * rr AreaTriangle [v])%R with (circ m hot v * circ m hot v)%R in Ev0 by (field; lra).
    rewrite Rmult_0_l in Ev0. apply Rmult_integral in Ev0. destruct Ev0; assumption. }
  pose proof (stokes_hot (fun v => if v =? mi m VerticesOnEdge [0; 1] then 1%R else 0%R)) as Q'.
  rewrite rsum_zero in Q' by (intros v Hv; rewrite Z by assumption; ring).
  unfold rgrad in Q'. rewrite Z.eqb_refl in Q'.
  assert (Ne : mi m VerticesOnEdge [0; 0] <> mi m VerticesOnEdge [0; 1]).
  { rewrite !(hm_voe _ _ _ Hh) by lia. apply hvoe_ne; exact H0. }
  rewrite (proj2 (Z.eqb_neq _ _) Ne) in Q'.
  pose proof (cb_dc S Hok Hdc m Hr 0 H0) as D1. pose proof (cb_dv S Hok Hdc m Hr 0 H0) as D2.
  clear - Q' D1 D2. revert Q' D1 D2. generalize (mr m DcEdge [0]) (mr m DvEdge [0]). cbn [F RA]. intros x y Q' D1 D2.
  assert (Q2 : (x * y * ((1 - 0) / y))%R = x) by (field; lra). lra.
Qed.
Lemma vort_hot_pos : (rsum (2 * NC) (fun v => rr AreaTriangle [v] * vort m hot v * vort m (vlap m hot) v) < 0)%R.
Proof.
  rewrite vort_work.
  assert (P0 : forall e, 0 <= e < 3 * NC -> (0 <= rr DcEdge [e] * rr DvEdge [e] * (rgrad m (vort m hot) e * rgrad m (vort m hot) e))%R).
  { intros e He. apply Rmult_le_pos; [apply Rlt_le; now apply (cb_dcdv S Hok Hdc m Hr)|apply Rle_0_sqr]. }
  destruct (rsum_nonneg _ _ P0) as [L|L]; [lra|]. exfalso. symmetry in L.
  pose proof (rsum_zero_each _ _ P0 L 0 NCpos) as Z. cbv beta in Z.
  pose proof (cb_dcdv S Hok Hdc m Hr 0 NCpos). apply Rmult_integral in Z. destruct Z as [Z|Z]; [lra|].
  apply Rmult_integral in Z. apply rgrad_hot. destruct Z; assumption.
Qed.
Lemma rgrad_vlap_hot : rgrad m (vort m (vlap m hot)) 0 <> 0%R.
Proof.
  intros E. pose proof (stokes_hot (vort m (vlap m hot))) as Q. rewrite E, Rmult_0_r in Q.
  pose proof vort_hot_pos as L. rewrite (rsum_ext _ _ (fun v => vort m (vlap m hot) v * circ m hot v)%R) in L; [lra|].
  intros v Hv. unfold vort at 1. pose proof (cb_atri S Hok Hdc m Hr v Hv). field. lra.
Qed.
End Wit.

Lemma circ_scal (m : mem RA) a g v : circ m (fun e => a * g e)%R v = (a * circ m g v)%R.
Proof. unfold circ. rewrite <- rsum_scal. apply rsum_ext. intros. cbv zeta. ring. Qed.
Lemma vort_scal m a g v : vort m (fun e => a * g e)%R v = (a * vort m g v)%R.
Proof. unfold vort. rewrite circ_scal. unfold Rdiv. ring. Qed.

Lemma vlap_scal (S : setup RA) (Hok : setup_ok S) m (Hr : ready S m) a g e : 0 <= e < 3 * (nx (mesh_of_setup S) * ny (mesh_of_setup S)) ->
  vlap m (fun e => a * g e)%R e = (a * vlap m g e)%R.
Proof.
  intros He. unfold vlap.
  rewrite (grad_ext S Hok m Hr _ (fun c => a * outflow m g c)%R), (rgrad_ext S Hok m Hr _ (fun c => a * vort m g c)%R)
    by (try assumption; intros; (apply vort_scal || apply outflow_scal)).
  unfold grad, rgrad, Rdiv. ring.
Qed.

Lemma C19_simd_agrees_with_scalar_proof :
  forall (cf1 cf2 : config) (h1 h2 : hexargs RA) (P : params RA) (hk : option (forcing RA)) (k : Z),
  let S1 := mkSetup cf1 h1 P hk in let S2 := mkSetup cf2 h2 P hk in
  setup_ok S1 -> setup_ok S2 -> same_mesh h1 h2 ->
  0 <= k < d_nlayers (sdims S1) -> 0 <= k < d_nlayers (sdims S2) ->
  let plain cf := ksimd cf = false \/ vector_length cf = 1 in
  ((visc_del4 P : R) <= 0)%R \/ disable_vn P = true \/ (plain cf1 /\ plain cf2) ->
  same_results S1 S2 (eq k).
Proof.
  intros cf1 cf2 h1 h2 P hk k S1 S2 O1 O2 Hm K1 K2 plain Hp. apply rel_same_results; auto.
  apply rel_build; auto.
  - intros ? <-. auto.
  - right. apply mul_AC_R.
  - destruct Hp as [Hp|[Hp|[Hp1 Hp2]]]; [right; left; now apply disabled_le|now left|].
    right. right. intros ? <-. rewrite !rv_self by assumption. auto.
Qed.

Lemma C19_simd_hyperviscosity_differs_proof :
  forall (ns ni : bool) (ln : Z) (h : hexargs RA) (P : params RA) (hk : option (forcing RA)),
  let S1 := mkSetup (mkConfig ns false ni ln) h P hk in let S2 := mkSetup (mkConfig ns true ni ln) h P hk in
  setup_ok S1 -> setup_ok S2 -> 1 < vector_length (cfg_of S2) -> 1 <= nlayers h ->
  2 <= nx h -> 2 <= ny h -> Z.even (ny h) = true -> (0 < (dc h : R))%R ->
  disable_vn P = false -> (0 < (visc_del4 P : R))%R ->
  exists m, ready S1 m /\ ready S2 m /\ forall time m1 m2,
    exec (sdims S1) (compute_tendency S1 Tend St time Replace) m (OK m1) ->
    exec (sdims S2) (compute_tendency S2 Tend St time Replace) m (OK m2) ->
    mr m1 (VnEdge Tend) [0; 1] <> mr m2 (VnEdge Tend) [0; 1].
Proof.
  intros ns ni ln h P hk S1 S2 O1 O2 HV Hn N1 N2 Ev Hdc Hd V4.
  destruct (ready_any S1 O1 (fun a ix => match a, ix with HCell _, _ => 1%R | VnEdge St, [e; k] => if k =? 0 then hot e else 0%R | _, _ => 0%R end)) as (m & Hr & Em).
  exists m. split; [exact Hr|]. assert (Hr2 : ready S2 m) by exact Hr. split; [exact Hr2|]. intros time m1 m2 X1 X2.
  apply (tendency_exec S1 O1) in X1; auto; [|discriminate]. apply (tendency_exec S2 O2) in X2; auto; [|discriminate].
  destruct X1 as [_ X1], X2 as [_ X2]. rewrite X1, X2.
  pose proof (NCpos S1 N1 N2 Ev) as H0. 
  assert (HNL : 0 <= 1 < d_nlayers (sdims S1)).
  { cbn [sdims d_nlayers dims_of S1 cfg_of mesh_of_setup par_of]. unfold S2 in HV. cbn [cfg_of] in HV.
    change (vector_length (mkConfig ns false ni ln)) with (vector_length (mkConfig ns true ni ln)).
    set (v := vector_length _) in *. unfold zceil.
    assert (- nlayers h / v < 0) by (apply Z.div_lt_upper_bound; lia). nia. }
  assert (Sn : St <> Tend) by discriminate.
  rewrite (T_v S1 O1 Hdc m Hr St 1 HNL), (T_v S2 O2 Hdc m Hr2 St 1 HNL) by assumption.
  unfold hk_v, hook_v. cbn [hook S1 S2 par_of]. rewrite Hd. unfold zr. cbn [is_replace].
  assert (Hy : vel_hyperdiff_enabled P = true).
  { unfold vel_hyperdiff_enabled. cbn [flt RA fofZ]. destruct (Rlt_dec _ _); [reflexivity|contradiction]. }
  assert (Q : vtend S1 m St 1 0 <> vtend S2 m St 1 0).
  { unfold vtend. cbn [S1 S2 par_of cfg_of]. rewrite Hy.
    assert (R1 : rv_layer (mkConfig ns false ni ln) 1 = 1) by reflexivity.
    assert (R2 : rv_layer (mkConfig ns true ni ln) 1 = 0).
    { unfold rv_layer. cbn [ksimd]. unfold S2 in HV. cbn [cfg_of] in HV. rewrite Z.div_small by lia. reflexivity. }
    rewrite R1, R2. intros E.
    match type of E with (?a - _ * ?b)%R = (?a' - _ * ?b')%R => assert (Ed : b = b') end.
    { change (visc_del4 P : R) with (visc_del4 (par_of S1) : R) in *. nra. }
    unfold vlap' in Ed.
    assert (Z0 : rgrad m (vort m (vlap m (fun e => mr m (VnEdge St) [e; 1] : R))) 0 = 0%R).
    { apply (rgrad_flat S1 O1 m Hr); [|exact H0]. intros v v' Hv Hv'.
      assert (Zu : still S1 m (fun e => mr m (VnEdge St) [e; 1] : R)).
      { apply (zero_still S1 O1 m Hr). intros e He. rewrite Em by reflexivity. reflexivity. }
      assert (Zl : still S1 m (vlap m (fun e => mr m (VnEdge St) [e; 1] : R))).
      { apply (zero_still S1 O1 m Hr). intros e He. now apply (vlap_still S1 O1 m Hr). }
      unfold vort. rewrite !(proj2 Zl) by assumption. unfold Rdiv. ring. }
    rewrite Z0 in Ed.
    assert (Z1 : rgrad m (vort m (vlap m (fun e => mr m (VnEdge St) [e; 0] : R))) 0 = rgrad m (vort m (vlap m hot)) 0).
    { apply (rgrad_ext S1 O1 m Hr); [|exact H0]. intros v Hv. apply (vort_ext S1 O1 m Hr); [|exact Hv]. intros e He.
      apply (vlap_ext S1 O1 m Hr); [|exact He]. intros e' He'. rewrite Em by reflexivity. reflexivity. }
    rewrite Z1 in Ed. apply (rgrad_vlap_hot S1 O1 Hdc m Hr N1 N2 Ev). lra. }
  intros E. apply Q. destruct hk; [|cbn [fofZ RA] in E; lra]. cbn [fadd fmul fofZ RA] in E. lra.
Qed.

Lemma C34_simd_hyperviscosity_dissipates_refuted_proof :
  forall (S : setup RA), setup_ok S -> (0 < (dc (mesh_of_setup S) : R))%R ->
  2 <= nx (mesh_of_setup S) -> 2 <= ny (mesh_of_setup S) -> Z.even (ny (mesh_of_setup S)) = true -> 1 <= nlayers (mesh_of_setup S) ->
  ksimd (cfg_of S) = true -> 1 < vector_length (cfg_of S) ->
  disable_vn (par_of S) = false -> (0 < (visc_del4 (par_of S) : R))%R ->
  exists m, ready S m /\ forall t s time md m1 m0, s <> t ->
  exec (sdims S) (compute_tendency S t s time md) m (OK m1) ->
  exec (sdims S) (compute_tendency (set_visc_del4 S (IZR 0)) t s time md) m (OK m0) ->
  (0 < rsum (d_nedges (sdims S)) (fun e => (mr m DcEdge [e] : R) * mr m DvEdge [e] * mr m (VnEdge s) [e; 1%Z] * (mr m1 (VnEdge t) [e; 1%Z] - mr m0 (VnEdge t) [e; 1%Z])))%R.
Proof.
  intros S Hok Hdc N1 N2 Ev Hn Hs HV Hd V4.
  destruct (ready_any S Hok (fun _ _ => 0%R)) as (m0 & R0 & _).
  set (NC := nx (mesh_of_setup S) * ny (mesh_of_setup S)).
  set (E := (- rsum (2 * NC) (fun v => (mr m0 AreaTriangle [v] : R) * vort m0 hot v * vort m0 (vlap m0 hot) v))%R).
  set (B := rsum NC (fun c => (mr m0 AreaCell [c] : R) * outflow m0 hot c * outflow m0 (vlap m0 hot) c)%R).
  assert (Ep : (0 < E)%R) by (pose proof (vort_hot_pos S Hok Hdc m0 R0 N1 N2 Ev); unfold E; fold NC in H; lra).
  set (lam := ((Rabs B + 1) / E)%R).
  pose (m := Mem (A:=RA) (mi m0) (fun a ix => match a, ix with VnEdge _, [e; k] => if k =? 0 then (- lam * hot e)%R else hot e | a, ix => mr m0 a ix end)).
  assert (Hr : ready S m).
  { eapply ready_frame; [|exact R0]. intros [a ix|a ix] Ha; [reflexivity|]. destruct a; try discriminate Ha; reflexivity. }
  exists m. split; [exact Hr|]. intros t s time md m1 m2 Hne X1 X2.
  assert (HNL : 0 <= 1 < d_nlayers (sdims S)).
  { cbn [sdims d_nlayers dims_of]. set (v := vector_length _) in *. unfold zceil.
    assert (- nlayers (mesh_of_setup S) / v < 0) by (apply Z.div_lt_upper_bound; lia). change (d_nlayers (sdims S)) with (- (- nlayers (mesh_of_setup S) / v) * v). nia. }
  rewrite (hyper_diff S Hok Hdc t s time md m m1 m2 Hne Hr X1 X2 1 HNL). rewrite Hd.
  assert (Hy : vel_hyperdiff_enabled (par_of S) = true).
  { unfold vel_hyperdiff_enabled. cbn [flt RA fofZ]. destruct (Rlt_dec _ _); [reflexivity|contradiction]. }
  rewrite Hy.
  assert (R2 : rv_layer (cfg_of S) 1 = 0) by (unfold rv_layer; rewrite Hs, Z.div_small by lia; reflexivity).
  rewrite R2.
  change (fun e => mr m (VnEdge s) [e; 1] : R) with hot. change (fun e => mr m (VnEdge s) [e; 0] : R) with (fun e => - lam * hot e)%R.
  cbv beta. 
  match goal with |- context [rsum ?n (fun e => _ * mr m (VnEdge s) [e; 1%Z] * vlap' m ?w ?w' e)%R] =>
    change (fun e => mr m DcEdge [e] * mr m DvEdge [e] * mr m (VnEdge s) [e; 1%Z] * vlap' m w w' e)%R with
           (fun e => mr m DcEdge [e] * mr m DvEdge [e] * hot e * vlap' m w w' e)%R end.
  rewrite (vlap'_work S Hok Hdc m Hr hot _ _ N1 N2). fold NC.
  rewrite (rsum_ext (2 * NC) _ (fun v => - lam * ((mr m0 AreaTriangle [v] : R) * vort m0 hot v * vort m0 (vlap m0 hot) v))%R).
  2:{ intros v Hv.
      rewrite (vort_ext S Hok m Hr (vlap m (fun e => - lam * hot e)%R) (fun e => - lam * vlap m hot e)%R) by (try assumption; intros; now apply (vlap_scal S Hok m Hr)).
      rewrite vort_scal. change (vort m (vlap m hot) v) with (vort m0 (vlap m0 hot) v). change (vort m hot v) with (vort m0 hot v).
      change (mr m AreaTriangle [v]) with (mr m0 AreaTriangle [v]). ring. }
  rewrite rsum_scal. change (rsum NC (fun c => mr m AreaCell [c] * outflow m hot c * outflow m (vlap m hot) c)%R) with B.
  replace (rsum (2 * NC) (fun v => (mr m0 AreaTriangle [v] : R) * vort m0 hot v * vort m0 (vlap m0 hot) v))%R with (- E)%R by (unfold E; ring).
  replace (- visc_del4 (par_of S) * (- B - - lam * - E))%R with (visc_del4 (par_of S) * (B + lam * E))%R by (cbn [F RA]; ring).
  apply Rmult_lt_0_compat; [exact V4|]. unfold lam. replace ((Rabs B + 1) / E * E)%R with (Rabs B + 1)%R by (field; lra).
  pose proof (Rle_abs (- B)) as A0. rewrite Rabs_Ropp in A0. lra.
Qed.

