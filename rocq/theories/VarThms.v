(** Proofs about the variance of tracers. *)
From Coq Require Import ZArith Reals List Bool Lia Lra.
From Verif Require Import Arith Arrays Prog Conc Launch Mesh AuxVars Tend Model Hex RSum Spec MeshProof MeshMem MeshR Over Formulas KernBase TendFn StepFn Ready TendVal StepVal StepRun StepThms RealTend SumParts Diag FieldInv ConsBase ConsThms SteadyThms TracerThms Vort Sim SimThms Driver DriverFn Lip Diff TimeStep TimeConv TimeThms Order4 Smooth Order4Thms Picard ExistThms EnergyThms RevThms.
Import ListNotations.
Open Scope Z_scope.

(** The content of the square of the concentration of tracer [l] in layer [k]: the integral over the layer of (q/h)^2 h, where q is the stored tracer content and h the thickness. *)
Definition tracer_variance (S : setup RA) (m : mem RA) (l k : Z) : R :=
  rsum (d_ncells (sdims S)) (fun c => mr m AreaCell [c] * (mr m (TrCell St) [l; c; k] * mr m (TrCell St) [l; c; k] / mr m (HCell St) [c; k]))%R.

Section Var.
Context (S : setup RA) (Hok : setup_ok S) (Hdc : (0 < (dc (mesh_of_setup S) : R))%R) (H1 : 2 <= nx (mesh_of_setup S)) (H2 : 2 <= ny (mesh_of_setup S)).
Local Notation NC := (nx (mesh_of_setup S) * ny (mesh_of_setup S)).
Local Notation NL := (d_nlayers (sdims S)).
Lemma var_rate m (Hr : ready S m) kap q u r kh kq :
  (forall c, 0 <= c < NC -> kh c = (- outflow m (fun e => emean m q e * u e) c)%R) ->
  (forall c, 0 <= c < NC -> kq c = (- outflow m (fun e => emean m q e * u e * emean m r e) c + kap * outflow m (fun e => emean m q e * grad m r e) c)%R) ->
  rsum NC (fun c => mr m AreaCell [c] * (2 * r c * kq c - r c * r c * kh c))%R = (- (2 * kap * rsum (3 * NC) (fun e => mr m DcEdge [e] * mr m DvEdge [e] * (emean m q e * (grad m r e * grad m r e)))))%R.
Proof.
  intros Eh Eq.
  rewrite (rsum_ext _ _ (fun c => (- 2) * (mr m AreaCell [c] * r c * outflow m (fun e => emean m q e * u e * emean m r e) c) + (mr m AreaCell [c] * (r c * r c) * outflow m (fun e => emean m q e * u e) c)
     + 2 * kap * (mr m AreaCell [c] * r c * outflow m (fun e => emean m q e * grad m r e) c)))%R.
  2:{ intros c Hc. rewrite Eh, Eq by exact Hc. cbn [F RA]. ring. }
  rewrite !rsum_plus, !rsum_scal. rewrite (diff_work S Hok Hdc m Hr (emean m q) r H1 H2).
  rewrite (gauss _ _ (ntracers (par_of S)) (proj1 Hok) Hdc m (ready_hex S Hok m Hr) r (fun e => emean m q e * u e * emean m r e)%R H1 H2), (gauss _ _ (ntracers (par_of S)) (proj1 Hok) Hdc m (ready_hex S Hok m Hr) (fun c => r c * r c)%R (fun e => emean m q e * u e)%R H1 H2).
  assert (E : rsum (3 * NC) (fun e => mr m DcEdge [e] * mr m DvEdge [e] * (emean m q e * u e) * grad m (fun c => r c * r c) e)%R = (2 * rsum (3 * NC) (fun e => mr m DcEdge [e] * mr m DvEdge [e] * (emean m q e * u e * emean m r e) * grad m r e))%R).
  { rewrite <- rsum_scal. apply rsum_ext. intros e He. pose proof (cb_dc S Hok Hdc m Hr e He). unfold grad, emean. cbn [F RA]. field. lra. }
  rewrite E. ring.
Qed.
Context (Hh : disable_h (par_of S) = false) (Hf : hook_h_zero S) (D4 : ((eddy_diff4 (par_of S) : R) <= 0)%R).
(** The rate of change, from the tendency. *)
Lemma var_tend (t s : sid) (time : R) m m' (Hst : s <> t) (Hr : ready S m) l k : 0 <= l < ntracers (par_of S) -> 0 <= k < NL -> exec (sdims S) (compute_tendency S t s time Replace) m (OK m') ->
  let q c := mr m (HCell s) [c; k] : R in let r c := (mr m (TrCell s) [l; c; k] / mr m (HCell s) [c; k])%R in
  rsum NC (fun c => mr m AreaCell [c] * (2 * r c * mr m' (TrCell t) [l; c; k] - r c * r c * mr m' (HCell t) [c; k]))%R =
  (- (2 * Rmax 0 (eddy_diff2 (par_of S)) * rsum (3 * NC) (fun e => mr m DcEdge [e] * mr m DvEdge [e] * (emean m q e * (grad m r e * grad m r e)))))%R.
Proof.
  intros Hl Hk X q r. apply (tendency_exec S Hok) in X; auto. destruct X as [_ X].
  apply (var_rate m Hr _ q (fun e => mr m (VnEdge s) [e; k]) r (fun c => mr m' (HCell t) [c; k]) (fun c => mr m' (TrCell t) [l; c; k])).
  - intros c Hc. rewrite X, (T_h S Hok m Hr) by assumption. rewrite (hk_h_zero S) by exact Hf. rewrite Hh. unfold zr. cbn [is_replace fofZ RA F]. rewrite Rminus_0_l. reflexivity.
  - intros c Hc. rewrite X, (T_tr S Hok m Hr) by assumption. unfold ttend, zr. cbv zeta. cbn [is_replace fofZ RA]. unfold tracer_hyperdiff_enabled. rewrite (disabled_le _ D4). fold r. fold q.
    unfold tracer_diff_enabled. cbn [flt RA fofZ]. destruct (Rlt_dec _ _) as [P|P]; [rewrite Rmax_right by (apply Rlt_le, P)|rewrite Rmax_left by (apply Rnot_lt_le, P)]; cbn [F RA]; ring.
Qed.

Context (m0 : mem RA) (Hr : ready S m0) (l k : Z) (Hl : 0 <= l < ntracers (par_of S)) (Hk : 0 <= k < NL).
Definition Va (y : fields RA) : R := rsum NC (fun c => mr m0 AreaCell [c] * (ft y l c k * ft y l c k / fh y c k))%R.
Lemma Va_value n z : ready S n -> holds S St n z -> tracer_variance S n l k = Va z.
Proof.
  intros Rn Hz. unfold tracer_variance, Va. apply rsum_ext. intros c Hc. rewrite (area_eq S Hok m0 Hr n c Rn Hc). destruct (Hz k Hk) as (A1 & _ & A3). rewrite A1, !A3 by assumption. reflexivity.
Qed.
Lemma Va_LB B de : (0 < de)%R -> LB S B de Va.
Proof.
  intros Hde. unfold Va. apply (LB_rsum S B de NC (fun c y => mr m0 AreaCell [c] * (ft y l c k * ft y l c k / fh y c k))%R). intros c Hc.
  assert (Lh : LB S B de (fun y => fh y c k)) by (apply (LB_val S B de (PH c k)); cbn; tauto). assert (Lt : LB S B de (fun y => ft y l c k)) by (apply (LB_val S B de (PT l c k)); cbn; tauto).
  apply LB_mult; [apply LB_const|]. apply (LB_div S B de _ _ de Hde); [|apply LB_mult; exact Lt|exact Lh]. intros y [_ Y]. apply Y. cbn; tauto.
Qed.
Definition dVa (y : fields RA) : R := (- (2 * Rmax 0 (eddy_diff2 (par_of S)) * rsum (3 * NC) (fun e => mr m0 DcEdge [e] * mr m0 DvEdge [e] * (emean m0 (fun c => fh y c k) e * (grad m0 (fun c => ft y l c k / fh y c k) e * grad m0 (fun c => ft y l c k / fh y c k) e)))))%R.
Lemma dVa_sign y : posf S y -> (dVa y <= 0)%R /\ (((eddy_diff2 (par_of S) : R) <= 0)%R -> dVa y = 0%R).
Proof.
  intros HP. unfold dVa. match goal with |- context [rsum _ ?f] => set (X2 := rsum (3 * NC) f) end.
  assert (P2 : (0 <= X2)%R).
  { apply rsum_nonneg. intros e He. apply Rmult_le_pos; [apply Rlt_le; now apply (cb_dcdv S Hok Hdc m0 Hr)|]. apply Rmult_le_pos; [|apply Rle_0_sqr].
    assert (R0 : 0 <= mi m0 CellsOnEdge [e; 0] < NC /\ 0 <= mi m0 CellsOnEdge [e; 1] < NC) by (split; apply (wf_coe _ _ (ready_wfm S Hok m0 Hr)); auto; lia).
    unfold emean. pose proof (HP (mi m0 CellsOnEdge [e; 0]) k ltac:(cbn; tauto)). pose proof (HP (mi m0 CellsOnEdge [e; 1]) k ltac:(cbn; tauto)). lra. }
  split.
  - pose proof (Rmax_l 0 (eddy_diff2 (par_of S))) as M. assert (0 <= 2 * Rmax 0 (eddy_diff2 (par_of S)) * X2)%R by (apply Rmult_le_pos; lra). lra.
  - intros Z0. rewrite Rmax_left by exact Z0. ring.
Qed.
Lemma Va_der w T H V Q t : solution S w T H V Q -> (0 <= t <= T)%R -> positive_thickness S (H t) -> derivable_pt_lim (fun s => Va (traj H V Q s)) t (w * dVa (traj H V Q t))%R.
Proof.
  intros HS Ht HP. pose proof (solution_der S Hok Hdc w T H V Q m0 Hr HS t) as D.
  assert (Fp : forall c, fp S m0 (PH c k) t = 0%R) by (intros c; cbn [fp]; unfold hkh; unfold hook_h_zero in Hf; destruct (hook S); [apply Hf|reflexivity]).
  set (q := fun c => H t c k). set (r := fun c => (Q t l c k / H t c k)%R).
  set (kh := fun c => gp S m0 (PH c k) (traj H V Q t)). set (kq := fun c => gp S m0 (PT l c k) (traj H V Q t)).
  pose proof (var_rate m0 Hr (Rmax 0 (eddy_diff2 (par_of S))) q (fun e => V t e k) r kh kq) as VT.
  unfold dVa. cbn [traj fh ft]. fold q. fold r. rewrite <- VT.
  2:{ intros c Hc. unfold kh. cbn [gp]. unfold gh. rewrite Hh. reflexivity. }
  2:{ intros c Hc. unfold kq. cbn [gp]. unfold gt. cbv zeta. cbn [traj fh fv ft]. rewrite (Rmax_left 0 (eddy_diff4 (par_of S))) by exact D4. fold q. fold r. rewrite Rmult_0_l, Rminus_0_r. reflexivity. }
  unfold Va. rewrite <- rsum_scal. apply (der_rsum NC (fun c s => mr m0 AreaCell [c] * (ft (traj H V Q s) l c k * ft (traj H V Q s) l c k / fh (traj H V Q s) c k))%R). intros c Hc. cbn [traj fh ft].
  pose proof (HP c k Hc Hk) as Pc. pose proof (D (PH c k) Ht ltac:(cbn; tauto)) as D1. pose proof (D (PT l c k) Ht ltac:(cbn; tauto)) as D3. unfold ff in D1, D3. rewrite Fp, Rplus_0_r in D1. cbn [fp] in D3. rewrite Rplus_0_r in D3. fold (kh c) in D1. fold (kq c) in D3. cbn [val traj fh ft] in D1, D3.
  match goal with |- derivable_pt_lim _ _ ?x => replace x with (mr m0 AreaCell [c] * (((w * kq c * Q t l c k + Q t l c k * (w * kq c)) * H t c k - w * kh c * (Q t l c k * Q t l c k)) / Rsqr (H t c k)))%R end.
  2:{ unfold r, Rsqr. cbn [F RA]. field. lra. }
  apply derivable_pt_lim_scal. apply (derivable_pt_lim_div (fun s => Q s l c k * Q s l c k)%R (fun s => H s c k)); [|exact D1|lra].
  now apply (derivable_pt_lim_mult (fun s => Q s l c k) (fun s => Q s l c k)).
Qed.
Lemma Va_mono w T H V Q : (0 <= w)%R -> solution S w T H V Q -> (forall t, (0 <= t <= T)%R -> positive_thickness S (H t)) -> forall a b, (0 <= a <= b)%R -> (b <= T)%R ->
  (Va (traj H V Q b) <= Va (traj H V Q a))%R /\ (((eddy_diff2 (par_of S) : R) <= 0)%R -> Va (traj H V Q b) = Va (traj H V Q a)).
Proof.
  intros Hw HS HP a b Hab HbT. destruct (Req_dec a b) as [-> | Hn]; [split; [lra|reflexivity]|].
  destruct (MVT_cor2 (fun s => Va (traj H V Q s)) (fun s => (w * dVa (traj H V Q s))%R) a b ltac:(lra)) as (c & E & Hc).
  { intros c Hc. apply (Va_der w T); [exact HS|lra|apply HP; lra]. }
  destruct (dVa_sign (traj H V Q c)) as [B C]. { intros i j [Hi Hj]. apply HP; [lra|exact Hi|exact Hj]. }
  set (d := dVa (traj H V Q c)) in *. assert (w * d <= 0)%R by nra. split; [nra|]. intros Z0. rewrite (C Z0) in E. nra.
Qed.
End Var.

(** From runs that end close to a solution to a function of the state at the end of those runs. *)
Lemma func_transfer (S : setup RA) (Hok : setup_ok S) (Hdc : (0 < (dc (mesh_of_setup S) : R))%R) st w T H V Q p (F : fields RA -> R) : (0 < T)%R -> (forall B de, (0 < de)%R -> LB S B de F) ->
  solution S w T H V Q -> (forall t, (0 <= t <= T)%R -> positive_thickness S (H t)) -> (1 <= p)%nat ->
  (exists C : R, forall N, 1 <= N -> (C <= IZR N)%R -> forall m : mem RA, fresh S st m -> state_is S m (H 0%R) (V 0%R) (Q 0%R) ->
    always (sdims S) (stepper_run S st (loop_steps (A:=RA) N (T / IZR N)%R)) m (fun m' => state_near S (C / IZR N ^ p) m' (H T) (V T) (Q T))) ->
  exists C : R, forall N, 1 <= N -> (C <= IZR N)%R -> forall m : mem RA, fresh S st m -> state_is S m (H 0%R) (V 0%R) (Q 0%R) ->
    always (sdims S) (stepper_run S st (loop_steps (A:=RA) N (T / IZR N)%R)) m (fun m' => ready S m' /\ (Rabs (F (fld St m') - F (traj H V Q T)) <= C / IZR N ^ p)%R).
Proof.
  intros HT HF HS HP Hp (C & X).
  assert (Tb : exists B de rr, (0 < de)%R /\ (0 < rr)%R /\ forall z, close S rr z (traj H V Q T) -> box S B de z).
  { destruct (plc_max S (fun q b => (Rabs (val (traj H V Q T) q) <= b)%R)) as (B0 & HB & B1).
    { intros; lra. } { intros q Hq. exists (Rabs (val (traj H V Q T) q)). split; [apply Rabs_pos|lra]. }
    destruct (plc_max S (fun q b => match q with PH c k => (0 < H T c k /\ 1 <= b * H T c k)%R | _ => True end)) as (X0 & HX & X1).
    { intros [c k|e k|l c k] M N HMN G; auto. destruct G. split; [assumption|]. assert (M * H T c k <= N * H T c k)%R by (apply Rmult_le_compat_r; lra). lra. }
    { intros [c k|e k|l c k] Hq; try (exists 0%R; split; [lra|exact I]). cbn [vplc] in Hq. pose proof (HP T ltac:(lra) c k ltac:(tauto) ltac:(tauto)) as P. exists (/ H T c k)%R. split; [left; now apply Rinv_0_lt_compat|]. split; [exact P|]. rewrite Rinv_l by lra. lra. }
    pose proof (Rinv_0_lt_compat (X0 + 1) ltac:(lra)) as IX. exists (B0 + / (X0 + 1) / 2)%R, (/ (X0 + 1) / 2)%R, (/ (X0 + 1) / 2)%R. split; [lra|]. split; [lra|]. intros z Hz. split.
    - intros q Hq. specialize (Hz q Hq). specialize (B1 q Hq). split_Rabs; lra.
    - intros c k Hq. specialize (Hz _ Hq). destruct (X1 (PH c k) Hq) as [A1 A2]. cbn [val traj fh] in Hz. apply Rabs_le_inv in Hz.
      assert (/ (X0 + 1) <= H T c k)%R. { apply (Rmult_le_reg_l (X0 + 1)); [lra|]. rewrite Rinv_r by lra. lra. } lra. }
  destruct Tb as (B & de & rr & Hde & Hrr & Tb). destruct (HF B de Hde) as (M & HM & _ & ML).
  pose proof (Rabs_pos C) as PC. pose proof (Rinv_0_lt_compat _ Hrr) as Ir. assert (P1 : (0 <= Rabs C * / rr)%R) by (apply Rmult_le_pos; lra). assert (P2 : (0 <= M * Rabs C)%R) by (apply Rmult_le_pos; lra).
  exists (Rabs C + Rabs C * / rr + M * Rabs C)%R. intros N HN HCN m Fm Sm. assert (NR : (1 <= IZR N)%R) by (apply IZR_le; exact HN).
  assert (NP : (IZR N <= IZR N ^ p)%R). { replace (IZR N) with (IZR N ^ 1)%R at 1 by ring. apply Rle_pow; assumption. }
  destruct (fresh_spec S Hok st m Fm) as [Rm _]. specialize (X N HN ltac:(pose proof (Rle_abs C); lra) m Fm Sm).
  assert (Y : always (sdims S) (stepper_run S st (loop_steps (A:=RA) N (T / IZR N)%R)) m (fun m' => ready S m')).
  { apply run_always; [exact Hok|exact Rm|]. intros m' E. eapply ready_meq; [exact E|]. now apply run_ready. }
  destruct X as [X1 X2]. destruct Y as [Y1 _]. split; [|exact X2]. intros o Ho. destruct (X1 o Ho) as (m' & -> & Nr). destruct (Y1 _ Ho) as (m2 & E2 & Rm'). injection E2 as <-. exists m'. split; [reflexivity|]. split; [exact Rm'|].
  pose proof (Rinv_0_lt_compat (IZR N ^ p) ltac:(lra)) as IN. set (d := (Rabs C / IZR N ^ p)%R). assert (Hd : (0 <= d)%R) by (apply Rmult_le_pos; lra).
  assert (Cd : close S d (fld St m') (traj H V Q T)).
  { assert (W : (C / IZR N ^ p <= d)%R) by (apply Rmult_le_compat_r; [lra|apply Rle_abs]).
    intros [c j|e j|l c j] Hv'; cbn [vplc] in Hv'; destruct (Nr j) as (N1 & N2 & N3); try tauto; (eapply Rle_trans; [|exact W]); [apply N1|apply N2|apply N3]; tauto. }
  assert (dr : (d <= rr)%R). { unfold d. apply (Rmult_le_reg_r (IZR N ^ p)); [lra|]. unfold Rdiv. rewrite Rmult_assoc, Rinv_l, Rmult_1_r by lra. apply (Rmult_le_reg_l (/ rr)); [exact Ir|]. rewrite <- Rmult_assoc, Rinv_l, Rmult_1_l by lra. lra. }
  eapply Rle_trans; [apply (ML _ _ d)|].
  + apply Tb. intros q Hq. specialize (Cd q Hq). lra.
  + apply Tb. intros q Hq. rewrite Rminus_diag_eq, Rabs_R0 by reflexivity. lra.
  + exact Hd.
  + exact Cd.
  + unfold d, Rdiv. rewrite <- Rmult_assoc. apply Rmult_le_compat_r; lra.
Qed.
Lemma C96_variance_rate_proof :
forall (S : setup RA), setup_ok S -> (0 < (dc (mesh_of_setup S) : R))%R -> 2 <= nx (mesh_of_setup S) -> 2 <= ny (mesh_of_setup S) ->
  disable_h (par_of S) = false -> hook_h_zero S -> ((eddy_diff4 (par_of S) : R) <= 0)%R ->
  forall (t s : sid) (time : R) (m m' : mem RA), s <> t -> ready S m -> exec (sdims S) (compute_tendency S t s time Replace) m (OK m') ->
  forall l k, 0 <= l < ntracers (par_of S) -> 0 <= k < d_nlayers (sdims S) ->
  let h c := mr m (HCell s) [c; k] : R in let r c := (mr m (TrCell s) [l; c; k] / h c)%R in
  let left e := mi m CellsOnEdge [e; 0%Z] in let right e := mi m CellsOnEdge [e; 1%Z] in
  rsum (d_ncells (sdims S)) (fun c => mr m AreaCell [c] * (2 * r c * mr m' (TrCell t) [l; c; k] - r c * r c * mr m' (HCell t) [c; k]))%R =
  (- (2 * Rmax 0 (eddy_diff2 (par_of S)) * rsum (d_nedges (sdims S)) (fun e => mr m DcEdge [e] * mr m DvEdge [e] * ((h (left e) + h (right e)) / 2) * ((r (right e) - r (left e)) / mr m DcEdge [e]) ^ 2)))%R.
Proof.
  intros S Hok Hdc H1 H2 Hh Hf D4 t s time m m' Hst Hr X l k Hl Hk. cbv zeta. pose proof (var_tend S Hok Hdc H1 H2 Hh Hf D4 t s time m m' Hst Hr l k Hl Hk X) as E. cbv zeta in E.
  change (d_ncells (sdims S)) with (nx (mesh_of_setup S) * ny (mesh_of_setup S)). change (d_nedges (sdims S)) with (3 * (nx (mesh_of_setup S) * ny (mesh_of_setup S))). etransitivity; [exact E|]. do 2 f_equal. apply rsum_ext. intros e He. unfold emean, grad. cbn [pow F RA]. ring.
Qed.

Lemma C96_variance_along_solutions_proof :
forall (S : setup RA) (w T : R) (H V : R -> Z -> Z -> R) (Q : R -> Z -> Z -> Z -> R), setup_ok S -> (0 < (dc (mesh_of_setup S) : R))%R -> 2 <= nx (mesh_of_setup S) -> 2 <= ny (mesh_of_setup S) ->
  disable_h (par_of S) = false -> hook_h_zero S -> ((eddy_diff4 (par_of S) : R) <= 0)%R ->
  (0 <= w)%R -> solution S w T H V Q -> (forall t, (0 <= t <= T)%R -> positive_thickness S (H t)) ->
  forall (a b : R) (m m' : mem RA) l k, (0 <= a <= b)%R -> (b <= T)%R -> fresh S RK4 m -> fresh S RK4 m' -> state_is S m (H a) (V a) (Q a) -> state_is S m' (H b) (V b) (Q b) ->
  0 <= l < ntracers (par_of S) -> 0 <= k < d_nlayers (sdims S) ->
  (tracer_variance S m' l k <= tracer_variance S m l k)%R /\ (((eddy_diff2 (par_of S) : R) <= 0)%R -> tracer_variance S m' l k = tracer_variance S m l k).
Proof.
  intros S w T H V Q Hok Hdc H1 H2 Hh Hf D4 Hw HS HP a b m m' l k Hab HbT Fm Fm' Sm Sm' Hl Hk.
  destruct (fresh_spec S Hok RK4 m Fm) as [Rm _]. destruct (fresh_spec S Hok RK4 m' Fm') as [Rm' _].
  rewrite (Va_value S Hok m Rm l k Hl Hk m (traj H V Q a) Rm Sm), (Va_value S Hok m Rm l k Hl Hk m' (traj H V Q b) Rm' Sm').
  now apply (Va_mono S Hok Hdc H1 H2 Hh Hf D4 m Rm l k Hl Hk w T).
Qed.

Lemma C96_variance_of_runs_proof :
forall st, st = RK4 \/ st = LSRK 1 \/ st = LSRK 5 ->
  exists w : R, (st <> LSRK 5 -> w = 1%R) /\ (Rabs (w - 1) <= 1 / 10 ^ 25)%R /\
  forall (S : setup RA) (T : R) (H V : R -> Z -> Z -> R) (Q : R -> Z -> Z -> Z -> R) l k, setup_ok S -> (0 < (dc (mesh_of_setup S) : R))%R -> 2 <= nx (mesh_of_setup S) -> 2 <= ny (mesh_of_setup S) ->
  disable_h (par_of S) = false -> hook_h_zero S -> ((eddy_diff4 (par_of S) : R) <= 0)%R ->
  (disable_vn (par_of S) = true -> hook S = None) -> smooth_forcing S T -> (0 < T)%R -> solution S w T H V Q -> (forall t, (0 <= t <= T)%R -> positive_thickness S (H t)) ->
  0 <= l < ntracers (par_of S) -> 0 <= k < d_nlayers (sdims S) ->
  exists C : R, forall N, 1 <= N -> (C <= IZR N)%R -> forall m : mem RA, fresh S st m -> state_is S m (H 0%R) (V 0%R) (Q 0%R) ->
  always (sdims S) (stepper_run S st (loop_steps (A:=RA) N (T / IZR N)%R)) m (fun m' => let b := (C / IZR N ^ (match st with RK4 => 4 | LSRK _ => 1 end))%R in
    (tracer_variance S m' l k <= tracer_variance S m l k + b)%R /\ (((eddy_diff2 (par_of S) : R) <= 0)%R -> (tracer_variance S m l k - b <= tracer_variance S m' l k)%R)).
Proof.
  intros st Kn. destruct (C90_runs_converge_in_time_proof st Kn) as (w & W1 & W2 & X). exists w. split; [exact W1|]. split; [exact W2|].
  intros S T H V Q l k Hok Hdc H1 H2 Hh Hf D4 Uf HF HT HS HP Hl Hk.
  assert (Uf' : disable_h (par_of S) = true \/ disable_vn (par_of S) = true -> hook S = None) by (intros [A|A]; [congruence|now apply Uf]).
  assert (HP' : forall t c k, (0 <= t <= T)%R -> 0 <= c < d_ncells (sdims S) -> 0 <= k < d_nlayers (sdims S) -> (0 < H t c k)%R) by (intros; now apply HP).
  assert (Hw : (0 <= w)%R) by (apply Rabs_le_inv in W2; assert (1 / 10 ^ 25 <= 1)%R by lra; lra).
  destruct (fresh_any S Hok RK4 (fun _ _ => 0%R)) as (m0 & F0 & _). destruct (fresh_spec S Hok RK4 m0 F0) as [R0 _].
  destruct (func_transfer S Hok Hdc st w T H V Q (match st with RK4 => 4 | LSRK _ => 1 end) (Va S m0 l k) HT) as (C & Y); auto.
  { intros B de Hde. now apply Va_LB. } { destruct st; lia. }
  { destruct st as [|n].
    - rewrite (W1 ltac:(discriminate)) in HS. now apply C91_rk4_is_of_order_four_proof.
    - destruct (X S T H V Q Hok Hdc HT Uf' (smooth_lipschitz S T ltac:(lra) HF) HS HP') as (C & Y). exists C. intros N HN HC m Fm Sm. rewrite pow_1. now apply Y. }
  exists C. intros N HN HC m Fm Sm. destruct (fresh_spec S Hok st m Fm) as [Rm _]. eapply always_impl; [|apply (Y N HN HC m Fm Sm)]. intros m' [Rm' E]. cbv zeta.
  rewrite (Va_value S Hok m0 R0 l k Hl Hk m (traj H V Q 0) Rm Sm), (Va_value S Hok m0 R0 l k Hl Hk m' (fld St m') Rm') by (intros j Hj; repeat split; reflexivity).
  destruct (Va_mono S Hok Hdc H1 H2 Hh Hf D4 m0 R0 l k Hl Hk w T H V Q Hw HS HP 0 T ltac:(lra) ltac:(lra)) as [M1 M2]. apply Rabs_le_inv in E. split; [lra|]. intros Z0. specialize (M2 Z0). lra.
Qed.

