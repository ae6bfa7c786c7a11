(** Proofs about the energy of runs. *)
From Coq Require Import ZArith Reals List Bool Lia Lra.
From Verif Require Import Arith Arrays Prog Conc Launch Mesh AuxVars Tend Model Hex RSum Spec MeshProof MeshMem MeshR Over Formulas KernBase TendFn StepFn Ready TendVal StepVal StepRun StepThms RealTend SumParts Diag FieldInv ConsBase ConsThms Vort Sim SimThms Driver DriverFn Lip Diff TimeStep TimeConv TimeThms Order4 Smooth Order4Thms Picard ExistThms.
Import ListNotations.
Open Scope Z_scope.

Lemma der_rsum n (f : Z -> R -> R) d t : (forall j, 0 <= j < n -> derivable_pt_lim (f j) t (d j)) -> derivable_pt_lim (fun s => rsum n (fun j => f j s)) t (rsum n d).
Proof.
  intros H. destruct (Z_le_dec n 0) as [C|C].
  - rewrite rsum_neg by exact C. apply (der_ext (fun _ => 0%R)); [intros; now rewrite rsum_neg|apply derivable_pt_lim_const].
  - rewrite <- (Z2Nat.id n) in * by lia. clear C. revert H. induction (Z.to_nat n) as [|j IH]; intros H.
    + rewrite rsum_0. apply (der_ext (fun _ => 0%R)); [intros; now rewrite rsum_0|apply derivable_pt_lim_const].
    + replace (Z.of_nat (Datatypes.S j)) with (Z.of_nat j + 1) in * by lia. rewrite rsum_succ by lia.
      apply (der_ext (fun s => rsum (Z.of_nat j) (fun j => f j s) + f (Z.of_nat j) s)%R); [intros; now rewrite rsum_succ by lia|].
      apply (derivable_pt_lim_plus (fun s => rsum (Z.of_nat j) (fun j => f j s))); [apply IH; intros; apply H; lia|apply H; lia].
Qed.

Section Energy.
Context (S : setup RA) (Hok : setup_ok S) (Hdc : (0 < (dc (mesh_of_setup S) : R))%R) (m0 : mem RA) (Hr : ready S m0).
Local Notation NC := (nx (mesh_of_setup S) * ny (mesh_of_setup S)).
Local Notation NL := (d_nlayers (sdims S)).
Definition En (y : fields RA) : R := rsum NC (fun c => rsum NL (fun k => mr m0 AreaCell [c] * (grav (par_of S) * fh y c k * fh y c k / 2 + fh y c k * kin m0 (fun e => fv y e k) c))%R).
Lemma area_eq n c : ready S n -> 0 <= c < NC -> mr n AreaCell [c] = mr m0 AreaCell [c].
Proof. intros Rn Hc. now rewrite (hm_area _ _ _ (ready_hex S Hok n Rn)), (hm_area _ _ _ (ready_hex S Hok m0 Hr)) by assumption. Qed.
Lemma kin_eq n w c : ready S n -> 0 <= c < NC -> kin n w c = kin m0 w c.
Proof.
  intros Rn Hc. unfold kin. rewrite (area_eq n c Rn Hc). rewrite (hm_noc _ _ _ (ready_hex S Hok n Rn)), (hm_noc _ _ _ (ready_hex S Hok m0 Hr)) by assumption.
  do 2 f_equal. apply rsum_ext. intros j Hj. cbv zeta.
  rewrite (hm_eoc _ _ _ (ready_hex S Hok n Rn)), (hm_eoc _ _ _ (ready_hex S Hok m0 Hr)) by assumption.
  pose proof (hE_range (nx (mesh_of_setup S)) (ny (mesh_of_setup S)) ltac:(apply Hok) ltac:(apply Hok) c j Hc Hj) as He.
  now rewrite (hm_dve _ _ _ (ready_hex S Hok n Rn)), (hm_dve _ _ _ (ready_hex S Hok m0 Hr)), (hm_dce _ _ _ (ready_hex S Hok n Rn)), (hm_dce _ _ _ (ready_hex S Hok m0 Hr)) by assumption.
Qed.
Lemma En_value n s z r : ready S n -> holds S s n z -> energy_integral S s n r -> r = Some (En z).
Proof.
  intros Rn Hz Q. rewrite (energy_sum S Hok n Rn s r Q). f_equal. unfold En. apply rsum_ext. intros c Hc. apply rsum_ext. intros k Hk. rewrite (area_eq n c Rn Hc). unfold ecell.
  destruct (Hz k Hk) as (A1 & A2 & _). rewrite A1 by exact Hc. rewrite <- (kin_eq n _ c Rn Hc).
  rewrite (kin_ext S Hok n Rn (fun e => mr n (VnEdge s) [e; k]) (fun e => fv z e k)) by assumption. reflexivity.
Qed.
Lemma En_LB B de : (0 < de)%R -> LB S B de En.
Proof.
  intros Hde. unfold En. apply (LB_rsum S B de NC (fun c y => rsum NL (fun k => mr m0 AreaCell [c] * (grav (par_of S) * fh y c k * fh y c k / 2 + fh y c k * kin m0 (fun e => fv y e k) c))%R)). intros c Hc.
  apply (LB_rsum S B de NL (fun k y => mr m0 AreaCell [c] * (grav (par_of S) * fh y c k * fh y c k / 2 + fh y c k * kin m0 (fun e => fv y e k) c))%R). intros k Hk.
  assert (Lh : LB S B de (fun y => fh y c k)) by (apply (LB_val S B de (PH c k)); cbn; tauto).
  apply LB_mult; [apply LB_const|]. apply LB_plus; [apply LB_divc, LB_mult; [apply LB_mult; [apply LB_const|exact Lh]|exact Lh]|]. apply LB_mult; [exact Lh|].
  apply (LC_kin S B de Hok m0 Hr (fun e y => fv y e k)); [|exact Hc]. intros e He. apply (LB_val S B de (PV e k)). cbn; tauto.
Qed.
(** Along a solution the energy is constant. *)
Context (H1 : 2 <= nx (mesh_of_setup S)) (H2 : 2 <= ny (mesh_of_setup S)) (Hh : disable_h (par_of S) = false) (Hv : disable_vn (par_of S) = false) (Hf : hook S = None)
  (V2 : ((visc_del2 (par_of S) : R) <= 0)%R) (V4 : ((visc_del4 (par_of S) : R) <= 0)%R).
Lemma En_der w T H V Q t : solution S w T H V Q -> (0 <= t <= T)%R -> derivable_pt_lim (fun s => En (traj H V Q s)) t 0%R.
Proof.
  intros HS Ht.
  destruct (fresh_any S Hok RK4 (fun a ix => match a, ix with HCell St, [c; k] => H t c k | VnEdge St, [e; k] => V t e k | TrCell St, [l; c; k] => Q t l c k | _, _ => 0%R end)) as (m & Fm & E).
  assert (Sm : state_is S m (H t) (V t) (Q t)). { intros j _. split; [|split]; intros; [apply (proj1 (E [c; j]))|apply (proj1 (proj2 (E [e; j])))|apply (proj2 (proj2 (E [l; c; j])))]. }
  destruct (fresh_spec S Hok RK4 m Fm) as [Rm _]. destruct (HS t m Ht Fm Sm) as [A1 [m' X]]. destruct (A1 _ X) as (m2 & E2 & D). injection E2 as <-. clear A1 E.
  apply (tendency_exec S Hok) in X; auto; [|discriminate]. destruct X as [_ X].
  assert (Hst : St <> Tend) by discriminate. set (h := mesh_of_setup S) in *. set (g := grav (par_of S) : R).
  set (q := fun k c => mr m (HCell St) [c; k] : R). set (u := fun k e => mr m (VnEdge St) [e; k] : R).
  set (kh := fun k c => mr m' (HCell Tend) [c; k] : R). set (kv := fun k e => mr m' (VnEdge Tend) [e; k] : R).
  assert (Eh : forall k c, 0 <= k < NL -> 0 <= c < nx h * ny h -> kh k c = (- outflow m (fun e => emean m (q k) e * u k e) c)%R).
  { intros k c Hk Hc. unfold kh. rewrite X, (T_h S Hok m Rm) by assumption. unfold hk_h. rewrite Hh, Hf. unfold zr. cbn [is_replace fofZ RA].
    rewrite Rminus_0_l. reflexivity. }
  assert (Ev : forall k e, 0 <= k < NL -> 0 <= e < 3 * (nx h * ny h) ->
    kv k e = (pvflux m (f0 (par_of S)) (q k) (u k) e - grad m (kin m (u k)) e - g * grad m (q k) e)%R).
  { intros k e Hk He. unfold kv. rewrite X, (T_v S Hok Hdc m Rm) by assumption. unfold hk_v. rewrite Hv, Hf. unfold zr, vtend. cbn [is_replace fofZ RA].
    unfold vel_diff_enabled, vel_hyperdiff_enabled. rewrite !disabled_le by assumption. fold g. cbn [F RA].
    fold (q k). fold (u k). ring. }
  assert (Z0 : rsum (nx h * ny h) (fun c => rsum NL (fun k => mr m AreaCell [c] * (g * q k c * kh k c + kh k c * kin m (u k) c + 2 * (q k c * kinb m (u k) (kv k) c))))%R = 0%R).
  { rewrite rsum_swap. apply rsum_zero. intros k Hk. apply (energy_rate S Hok Hdc m Rm (f0 (par_of S)) g (q k) (u k) (kh k) (kv k) H1 H2); auto. }
  replace 0%R with (rsum (nx h * ny h) (fun c => rsum NL (fun k => mr m0 AreaCell [c] * (w * (g * q k c * kh k c + kh k c * kin m (u k) c + 2 * (q k c * kinb m (u k) (kv k) c)))))%R).
  2:{ rewrite <- (Rmult_0_r w), <- Z0, <- rsum_scal. apply rsum_ext. intros c Hc. rewrite <- rsum_scal. apply rsum_ext. intros k Hk. rewrite (area_eq m c Rm Hc). ring. }
  unfold En. fold h. apply (der_rsum (nx h * ny h) (fun c s => rsum NL (fun k => mr m0 AreaCell [c] * (g * fh (traj H V Q s) c k * fh (traj H V Q s) c k / 2 + fh (traj H V Q s) c k * kin m0 (fun e => fv (traj H V Q s) e k) c))%R)). intros c Hc.
  apply (der_rsum NL (fun k s => mr m0 AreaCell [c] * (g * fh (traj H V Q s) c k * fh (traj H V Q s) c k / 2 + fh (traj H V Q s) c k * kin m0 (fun e => fv (traj H V Q s) e k) c))%R). intros k Hk.
  apply derivable_pt_lim_scal. cbn [traj fh fv]. destruct (D k Hk) as (D1 & D2 & _). destruct (Sm k Hk) as (S1 & S2 & _).
  assert (Kd : derivable_pt_lim (fun s => kin m0 (fun e => V s e k) c) t (w * (2 * kinb m (u k) (kv k) c))%R).
  { apply (der_ext (fun s => kin m (fun e => V s e k) c)); [intros; now rewrite (kin_eq m _ c Rm Hc)|]. unfold kin, kinb. pose proof (hm_noc _ _ _ (ready_hex S Hok m Rm) c Hc) as En6. rewrite En6.
    match goal with |- derivable_pt_lim _ _ ?l => replace l
      with (/ mr m AreaCell [c] * / 4 * rsum 6 (fun j => 2 * w * (mr m DvEdge [mi m EdgesOnCell [c; j]] * mr m DcEdge [mi m EdgesOnCell [c; j]] * (u k (mi m EdgesOnCell [c; j]) * kv k (mi m EdgesOnCell [c; j])))))%R by (rewrite rsum_scal; unfold Rdiv; cbn [F RA]; ring) end.
    apply (der_ext (fun s => / mr m AreaCell [c] * / 4 * rsum 6 (fun j => let e := mi m EdgesOnCell [c; j] in mr m DvEdge [e] * mr m DcEdge [e] * (V s e k * V s e k)))%R); [intros; unfold Rdiv; ring|].
    apply derivable_pt_lim_scal. apply (der_rsum 6 (fun j s => let e := mi m EdgesOnCell [c; j] in mr m DvEdge [e] * mr m DcEdge [e] * (V s e k * V s e k))%R). intros j Hj. cbv zeta.
    pose proof (wf_eoc _ _ (ready_wfm S Hok m Rm) c j Hc Hj) as He. set (e := mi m EdgesOnCell [c; j]) in *.
    replace (2 * w * (mr m DvEdge [e] * mr m DcEdge [e] * (u k e * kv k e)))%R with (mr m DvEdge [e] * mr m DcEdge [e] * (w * kv k e * V t e k + V t e k * (w * kv k e)))%R.
    2:{ unfold u at 1. rewrite S2 by exact He. cbn [F RA]. ring. }
    apply derivable_pt_lim_scal. apply (derivable_pt_lim_mult (fun s => V s e k) (fun s => V s e k)); now apply D2. }
  pose proof (D1 c Hc) as Dq. fold (kh k c) in Dq.
  replace (w * (g * q k c * kh k c + kh k c * kin m (u k) c + 2 * (q k c * kinb m (u k) (kv k) c)))%R
    with (g * / 2 * (w * kh k c * H t c k + H t c k * (w * kh k c)) + (w * kh k c * kin m0 (fun e => V t e k) c + H t c k * (w * (2 * kinb m (u k) (kv k) c))))%R.
  2:{ replace (kin m0 (fun e => V t e k) c) with (kin m (u k) c). 2:{ rewrite <- (kin_eq m _ c Rm Hc). apply (kin_ext S Hok m Rm); [|exact Hc]. intros e He. now apply S2. }
      unfold q. rewrite S1 by exact Hc. cbn [F RA]. field. }
  apply (der_ext (fun s => g * / 2 * (H s c k * H s c k) + H s c k * kin m0 (fun e => V s e k) c)%R); [intros; cbn [F RA]; field|].
  apply (derivable_pt_lim_plus (fun s => g * / 2 * (H s c k * H s c k))%R (fun s => H s c k * kin m0 (fun e => V s e k) c)%R).
  - apply derivable_pt_lim_scal. now apply (derivable_pt_lim_mult (fun s => H s c k) (fun s => H s c k)).
  - now apply (derivable_pt_lim_mult (fun s => H s c k) (fun s => kin m0 (fun e => V s e k) c)).
Qed.
Lemma En_const w T H V Q t : solution S w T H V Q -> (0 <= t <= T)%R -> En (traj H V Q t) = En (traj H V Q 0).
Proof.
  intros HS Ht. pose proof (der_lip T (fun s => En (traj H V Q s)) (fun _ => 0%R) 0%R (fun s Hs => En_der w T H V Q s HS Hs)) as X. assert (Z : forall s : R, (0 <= s <= T)%R -> (Rabs 0 <= 0)%R) by (intros; rewrite Rabs_R0; lra). assert (T0 : (0 <= 0 <= T)%R) by lra. specialize (X Z t 0%R Ht T0). cbn beta in X. rewrite Rmult_0_l in X. split_Rabs; lra.
Qed.
End Energy.
Lemma run_ready (S : setup RA) st steps m : ready S m -> ready S (run_fn S st steps m).
Proof. intros Hr. destruct st; cbn [run_fn]; (eapply ready_cst; [|exact Hr]); [apply cst_rk4_run|apply cst_lsrk_run]. Qed.
Lemma ready_meq (S : setup RA) m m' : meq m' m -> ready S m -> ready S m'.
Proof. intros E Hr. eapply ready_cst; [|exact Hr]. eapply cst_meq; [exact E|apply cst_refl]. Qed.
(** From runs that end close to a solution to the energy of those runs. *)
Lemma energy_transfer (S : setup RA) (Hok : setup_ok S) (Hdc : (0 < (dc (mesh_of_setup S) : R))%R) st w T H V Q p : (0 < T)%R -> known st -> weight st = w ->
  2 <= nx (mesh_of_setup S) -> 2 <= ny (mesh_of_setup S) -> disable_h (par_of S) = false -> disable_vn (par_of S) = false -> hook S = None -> ((visc_del2 (par_of S) : R) <= 0)%R -> ((visc_del4 (par_of S) : R) <= 0)%R ->
  solution S w T H V Q -> (forall t, (0 <= t <= T)%R -> positive_thickness S (H t)) -> (1 <= p)%nat ->
  (exists C : R, forall N, 1 <= N -> (C <= IZR N)%R -> forall m : mem RA, fresh S st m -> state_is S m (H 0%R) (V 0%R) (Q 0%R) ->
    always (sdims S) (stepper_run S st (loop_steps (A:=RA) N (T / IZR N)%R)) m (fun m' => state_near S (C / IZR N ^ p) m' (H T) (V T) (Q T))) ->
  exists C : R, forall N, 1 <= N -> (C <= IZR N)%R -> forall m : mem RA, fresh S st m -> state_is S m (H 0%R) (V 0%R) (Q 0%R) ->
    always (sdims S) (stepper_run S st (loop_steps (A:=RA) N (T / IZR N)%R)) m (fun m' => forall r r', energy_integral S St m r -> energy_integral S St m' r' -> exists E E' : R, r = Some E /\ r' = Some E' /\ (Rabs (E' - E) <= C / IZR N ^ p)%R).
Proof.
  intros HT Kn Ew H1 H2 Hh Hv Hf V2 V4 HS HP Hp (C & X).
  destruct (fresh_any S Hok RK4 (fun _ _ => 0%R)) as (m0 & F0 & _). destruct (fresh_spec S Hok RK4 m0 F0) as [R0 _].
  pose proof (solution_der S Hok Hdc w T H V Q m0 R0 HS) as D. rewrite <- Ew in D.
  destruct (tube S m0 st T HT (traj H V Q) D) as (B & de & rr & Hde & Hrr & Tb). { intros t c k Ht [Hc Hk]. now apply HP. }
  destruct (En_LB S Hok m0 R0 B de Hde) as (M & HM & _ & ML).
  pose proof (Rabs_pos C) as PC. pose proof (Rinv_0_lt_compat _ Hrr) as Ir. assert (P1 : (0 <= Rabs C * / rr)%R) by (apply Rmult_le_pos; lra). assert (P2 : (0 <= M * Rabs C)%R) by (apply Rmult_le_pos; lra).
  exists (Rabs C + Rabs C * / rr + M * Rabs C)%R. intros N HN HCN m Fm Sm. assert (NR : (1 <= IZR N)%R) by (apply IZR_le; exact HN).
  assert (NP : (IZR N <= IZR N ^ p)%R). { replace (IZR N) with (IZR N ^ 1)%R at 1 by ring. apply Rle_pow; assumption. }
  destruct (fresh_spec S Hok st m Fm) as [Rm _]. specialize (X N HN ltac:(pose proof (Rle_abs C); lra) m Fm Sm).
  assert (Y : always (sdims S) (stepper_run S st (loop_steps (A:=RA) N (T / IZR N)%R)) m (fun m' => ready S m')).
  { apply run_always; [exact Hok|exact Rm|]. intros m' E. eapply ready_meq; [exact E|]. now apply run_ready. }
  destruct X as [X1 X2]. destruct Y as [Y1 _]. split; [|exact X2]. intros o Ho. destruct (X1 o Ho) as (m' & -> & Nr). destruct (Y1 _ Ho) as (m2 & E2 & Rm'). injection E2 as <-. exists m'. split; [reflexivity|].
  intros r r' Q1 Q2.
  assert (Hm' : holds S St m' (fld St m')) by (intros j Hj; repeat split; reflexivity).
  exists (En S m0 (traj H V Q 0)), (En S m0 (fld St m')). split; [|split].
  - eapply (En_value S Hok m0 R0 m St); eassumption.
  - eapply (En_value S Hok m0 R0 m' St); eassumption.
  - rewrite <- (En_const S Hok Hdc m0 R0 H1 H2 Hh Hv Hf V2 V4 w T H V Q T HS ltac:(lra)).
    pose proof (Rinv_0_lt_compat (IZR N ^ p) ltac:(lra)) as IN. set (d := (Rabs C / IZR N ^ p)%R). assert (Hd : (0 <= d)%R) by (apply Rmult_le_pos; lra).
    assert (Cd : close S d (fld St m') (traj H V Q T)).
    { assert (W : (C / IZR N ^ p <= d)%R) by (apply Rmult_le_compat_r; [lra|apply Rle_abs]).
      intros [c j|e j|l c j] Hv'; cbn [vplc] in Hv'; destruct (Nr j) as (N1 & N2 & N3); try tauto; (eapply Rle_trans; [|exact W]); [apply N1|apply N2|apply N3]; tauto. }
    assert (dr : (d <= rr)%R). { unfold d. apply (Rmult_le_reg_r (IZR N ^ p)); [lra|]. unfold Rdiv. rewrite Rmult_assoc, Rinv_l, Rmult_1_r by lra. apply (Rmult_le_reg_l (/ rr)); [exact Ir|]. rewrite <- Rmult_assoc, Rinv_l, Rmult_1_l by lra. lra. }
    eapply Rle_trans; [apply (ML _ _ d)|].
    + apply (Tb T); [lra|]. intros q Hq. specialize (Cd q Hq). lra.
    + apply (Tb T); [lra|]. intros q Hq. rewrite Rminus_diag_eq, Rabs_R0 by reflexivity. lra.
    + exact Hd.
    + exact Cd.
    + unfold d, Rdiv. rewrite <- Rmult_assoc. apply Rmult_le_compat_r; lra.
Qed.

Lemma C93_solutions_conserve_energy_proof :
forall (S : setup RA) (w T : R) (H V : R -> Z -> Z -> R) (Q : R -> Z -> Z -> Z -> R), setup_ok S -> (0 < (dc (mesh_of_setup S) : R))%R -> 2 <= nx (mesh_of_setup S) -> 2 <= ny (mesh_of_setup S) ->
  disable_h (par_of S) = false -> disable_vn (par_of S) = false -> hook S = None -> ((visc_del2 (par_of S) : R) <= 0)%R -> ((visc_del4 (par_of S) : R) <= 0)%R -> solution S w T H V Q ->
  forall (t : R) (m m' : mem RA) (r r' : option R), (0 <= t <= T)%R -> fresh S RK4 m -> fresh S RK4 m' -> state_is S m (H 0%R) (V 0%R) (Q 0%R) -> state_is S m' (H t) (V t) (Q t) ->
  energy_integral S St m r -> energy_integral S St m' r' -> exists E : R, r = Some E /\ r' = Some E.
Proof.
  intros S w T H V Q Hok Hdc H1 H2 Hh Hv Hf V2 V4 HS t m m' r r' Ht Fm Fm' Sm Sm' Q1 Q2.
  destruct (fresh_spec S Hok RK4 m Fm) as [Rm _]. destruct (fresh_spec S Hok RK4 m' Fm') as [Rm' _]. exists (En S m (traj H V Q 0)). split.
  - eapply (En_value S Hok m Rm m St); eassumption.
  - rewrite <- (En_const S Hok Hdc m Rm H1 H2 Hh Hv Hf V2 V4 w T H V Q t HS Ht). eapply (En_value S Hok m Rm m' St); eassumption.
Qed.

Lemma C93_energy_error_of_runs_proof :
forall st, st = RK4 \/ st = LSRK 1 \/ st = LSRK 5 ->
  exists w : R, (st <> LSRK 5 -> w = 1%R) /\ (Rabs (w - 1) <= 1 / 10 ^ 25)%R /\
  forall (S : setup RA) (T : R) (H V : R -> Z -> Z -> R) (Q : R -> Z -> Z -> Z -> R), setup_ok S -> (0 < (dc (mesh_of_setup S) : R))%R -> 2 <= nx (mesh_of_setup S) -> 2 <= ny (mesh_of_setup S) ->
  disable_h (par_of S) = false -> disable_vn (par_of S) = false -> hook S = None -> ((visc_del2 (par_of S) : R) <= 0)%R -> ((visc_del4 (par_of S) : R) <= 0)%R -> (0 < T)%R -> solution S w T H V Q -> (forall t, (0 <= t <= T)%R -> positive_thickness S (H t)) ->
  exists C : R, forall N, 1 <= N -> (C <= IZR N)%R -> forall m : mem RA, fresh S st m -> state_is S m (H 0%R) (V 0%R) (Q 0%R) ->
  always (sdims S) (stepper_run S st (loop_steps (A:=RA) N (T / IZR N)%R)) m (fun m' => forall r r', energy_integral S St m r -> energy_integral S St m' r' ->
    exists E E' : R, r = Some E /\ r' = Some E' /\ (Rabs (E' - E) <= C / IZR N ^ (match st with RK4 => 4 | LSRK _ => 1 end))%R).
Proof.
  intros st Kn. exists (weight st). split; [|split].
  { intros Hn. destruct Kn as [-> | [-> | ->]]; [reflexivity|exact weight_1|congruence]. }
  { destruct Kn as [-> | [-> | ->]]; [|rewrite weight_1|exact weight_5]; unfold weight; rewrite Rminus_diag_eq, Rabs_R0 by reflexivity; lra. }
  intros S T H V Q Hok Hdc H1 H2 Hh Hv Hf V2 V4 HT HS HP.
  assert (HP' : forall t c k, (0 <= t <= T)%R -> 0 <= c < d_ncells (sdims S) -> 0 <= k < d_nlayers (sdims S) -> (0 < H t c k)%R) by (intros; now apply HP).
  apply (energy_transfer S Hok Hdc st (weight st) T H V Q); auto; [destruct st; lia|].
  assert (L : st <> RK4 -> exists C : R, forall N, 1 <= N -> (C <= IZR N)%R -> forall m : mem RA, fresh S st m -> state_is S m (H 0%R) (V 0%R) (Q 0%R) ->
    always (sdims S) (stepper_run S st (loop_steps (A:=RA) N (T / IZR N)%R)) m (fun m' => state_near S (C / IZR N ^ 1) m' (H T) (V T) (Q T))).
  { intros _. destruct (fresh_any S Hok RK4 (fun _ _ => 0%R)) as (m0 & F0 & _). destruct (fresh_spec S Hok RK4 m0 F0) as [R0 _].
    assert (HF : lipschitz_forcing S T) by (intros g Eg; congruence). destruct (forcing_lip S T m0 HF) as (L & HL & FP).
    destruct (converges S Hok Hdc m0 R0 st Kn T HT (traj H V Q) (solution_der S Hok Hdc _ T H V Q m0 R0 HS)) with (L := L) as (C & HC & G); auto.
    { intros t c k Ht [Hc Hk]. now apply HP. }
    { intros _ _. exact Hf. }
    exists C. intros N HN HCN m Fm Sm. destruct (fresh_spec S Hok st m Fm) as [Rm Zm]. rewrite pow_1.
    apply run_always; [exact Hok|exact Rm|]. intros m' Hm'.
    destruct (G N HCN HN m) as (z & Hz & Cz); [split; [exact Rm|intros _; now apply zero_disabled]|exact Sm|].
    apply (near_holds S _ m' z H V Q T); [|exact Cz]. eapply holds_meq; [apply meq_sym, Hm'|exact Hz]. }
  destruct Kn as [-> | [-> | ->]]; [|apply L; discriminate|apply L; discriminate].
  apply (C91_rk4_is_of_order_four_proof S T H V Q); auto. intros g Eg; congruence.
Qed.

Lemma C93_energy_of_rk4_runs_proof :
forall (S : setup RA) (h v : Z -> Z -> R) (q : Z -> Z -> Z -> R), setup_ok S -> (0 < (dc (mesh_of_setup S) : R))%R -> 2 <= nx (mesh_of_setup S) -> 2 <= ny (mesh_of_setup S) ->
  disable_h (par_of S) = false -> disable_vn (par_of S) = false -> hook S = None -> ((visc_del2 (par_of S) : R) <= 0)%R -> ((visc_del4 (par_of S) : R) <= 0)%R -> positive_thickness S h ->
  exists T C : R, (0 < T)%R /\ forall N, 1 <= N -> (C <= IZR N)%R -> forall m : mem RA, fresh S RK4 m -> state_is S m h v q ->
  always (sdims S) (stepper_run S RK4 (loop_steps (A:=RA) N (T / IZR N)%R)) m (fun m' => forall r r', energy_integral S St m r -> energy_integral S St m' r' ->
    exists E E' : R, r = Some E /\ r' = Some E' /\ (Rabs (E' - E) <= C / IZR N ^ 4)%R).
Proof.
  intros S h v q Hok Hdc H1 H2 Hh Hv Hf V2 V4 HP.
  destruct (C92_solutions_exist_proof S 1%R 1%R h v q Hok Hdc ltac:(lra)) as (T & H & V & Q & HT' & HS & E0 & PP); [intros g Eg; congruence|exact HP|].
  destruct (C93_energy_error_of_runs_proof RK4 (or_introl eq_refl)) as (w & W1 & _ & X). rewrite (W1 ltac:(discriminate)) in X.
  destruct (X S T H V Q Hok Hdc H1 H2 Hh Hv Hf V2 V4 (proj1 HT') HS PP) as (C & Y). exists T, C. split; [tauto|]. intros N HN HC m Fm Sm. apply Y; auto.
  intros k Hk. destruct (Sm k Hk) as (A1 & A2 & A3). destruct (E0 k Hk) as (B1 & B2 & B3). split; [|split]; intros; [rewrite A1 by assumption; symmetry; now apply B1|rewrite A2 by assumption; symmetry; now apply B2|rewrite A3 by assumption; symmetry; now apply B3].
Qed.

