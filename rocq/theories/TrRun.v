(** Rounding errors of the tracer content in binary64 runs. *)
From Coq Require Import ZArith Reals List Bool Lia Lra.
From Coq Require Import Floats.SpecFloat.
From Flocq Require Import Core.Core.
From Verif Require Import Arith Arrays Prog Conc Launch Mesh AuxVars Tend Model Hex MeshProof MeshMem Over Formulas KernBase Terms KernAux KernTend TendFn StepFn Ready Rel RelRun Relate TendVal StepVal StepRun MeshFacts MeshR RSum FloatFacts FloatMass FloatRun TrFloat TrFlux.
Import ListNotations.
Open Scope Z_scope.

Section Run.
Context (cc ss : spec_float -> spec_float) (pp : spec_float).
Local Notation A := (SFA cc ss pp).
Context (S : setup A) (Hok : setup_ok S).
Local Notation cf := (cfg_of S).
Local Notation P := (par_of S).
Local Notation D := (sdims S).
Local Notation h := (mesh_of_setup S).
Local Notation NC := (nx h * ny h).
Implicit Types (m n : mem A).
Context (HX : 2 <= nx h) (HY : 2 <= ny h).
Context (d : R) (Hd1 : fin (dc h)) (Hd2 : val (dc h) = d) (Hd3 : rng d (-100) 100).
Context (l k : Z) (Hl : 0 <= l < ntracers P) (Hk : 0 <= k < d_nlayers D).
Context (Hb Vb Rb Db : R) (HH : (bpow radix2 (-100) <= Hb <= bpow radix2 200)%R) (HV : (bpow radix2 (-100) <= Vb)%R) (HR : (bpow radix2 (-100) <= Rb)%R) (HD : (bpow radix2 (-200) <= Db)%R).
Context (K2 K4 : R) (P2 : (0 <= K2)%R) (P4 : (0 <= K4)%R).
Context (E2 : tracer_diff_enabled P = true -> fin_le K2 (eddy_diff2 P) /\ (bpow radix2 (-100) <= K2)%R).
Context (E4 : tracer_hyperdiff_enabled P = true -> fin_le K4 (eddy_diff4 P) /\ (bpow radix2 (-100) <= K4)%R).
Local Notation tot := (fun m : mem A => ttotal S l k St m).
Local Notation Tb := (Hb * Rb)%R.
Local Notation w := (Hb * Rb * (4 * Vb / d + 8 * K2 / (d * d) + 64 * K4 / (d * d * d * d)))%R.
Local Notation M := (q64 ^ 50 * w)%R.
Local Notation E := (9 * eps64 * M)%R.
Lemma NC_pos : 0 < NC. Proof. nia. Qed.
Lemma w_low : (bpow radix2 (-400) <= w)%R.
Proof.
  pose proof (rng_pos _ _ _ Hd3) as Hd. pose proof (bpow_gt_0 radix2 (-100)) as Z1. pose proof (proj1 (rng_div _ _ _ _ _ _ z1 Hd3)) as L.
  assert (Pd2 : (0 < d * d)%R) by (apply Rmult_lt_0_compat; lra). assert (Pd4 : (0 < d * d * d * d)%R) by (do 2 (apply Rmult_lt_0_compat; [|lra]); lra).
  assert (N2 : (0 <= 8 * K2 / (d * d))%R) by (apply Rmult_le_pos; [lra|]; apply Rlt_le, Rinv_0_lt_compat; lra).
  assert (N3 : (0 <= 64 * K4 / (d * d * d * d))%R) by (apply Rmult_le_pos; [lra|]; apply Rlt_le, Rinv_0_lt_compat; lra).
  assert (T1 : (bpow radix2 (-100 + -100) <= Hb * Rb)%R) by (rewrite bpow_plus; apply Rmult_le_compat; try apply bpow_ge_0; lra).
  assert (T2 : (bpow radix2 (-100 + -100) <= Vb * (1 / d))%R) by (rewrite bpow_plus; apply Rmult_le_compat; try apply bpow_ge_0; [lra|exact L]).
  pose proof (bpow_gt_0 radix2 (-100 + -100)) as Z2.
  change (-400) with (-100 + -100 + (-100 + -100)). rewrite bpow_plus. apply Rmult_le_compat; try apply bpow_ge_0; [exact T1|].
  replace (4 * Vb / d)%R with (4 * (Vb * (1 / d)))%R by (field; lra). lra.
Qed.
Lemma w_pos : (0 < w)%R. Proof. pose proof w_low. pose proof (bpow_gt_0 radix2 (-400)). lra. Qed.
Lemma M_low : (bpow radix2 (-700) <= M)%R.
Proof.
  pose proof w_low as W. pose proof (qk1 50) as Q. pose proof w_pos as WP. apply Rle_trans with (1 * w)%R.
  - rewrite Rmult_1_l. eapply Rle_trans; [|exact W]. now apply bpow_le.
  - apply Rmult_le_compat_r; lra.
Qed.
Lemma M_pos : (0 < M)%R. Proof. pose proof M_low. pose proof (bpow_gt_0 radix2 (-700)). lra. Qed.
Lemma tb_fin s n : tbounded S l k Hb Vb Rb s n -> forall c, 0 <= c < NC -> fin_le Tb (mr n (TrCell s) [l; c; k]).
Proof.
  intros (B1 & _ & B3) c Hc. destruct (B3 c Hc) as [F3 L3]. split; [exact F3|]. eapply Rle_trans; [exact L3|]. rewrite Rmult_comm. pose proof (bpow_gt_0 radix2 (-100)).
  apply Rmult_le_compat_r; [lra|]. apply (B1 c Hc).
Qed.

(** ** Bounds of the tendencies *)
Definition TJ (Mq Eq : R) n : Prop := J cc ss pp NC Mq Eq (fun c => mr n (TrCell Tend) [l; c; k]).
Local Notation TI := (TJ M E).
Lemma incr_TJ s time (Mq Eq : R) n : s <> Tend -> ready S n -> tbounded S l k Hb Vb Rb s n -> (0 <= Mq)%R -> TJ Mq Eq n ->
  TJ (q64 ^ 3 * Mq + M) (Eq + E + 3 * eps64 * (q64 ^ 3 * Mq)) (tendency_fn S Tend s time Increment n).
Proof.
  intros Hs Hr HB H0 HT. unfold TJ.
  eapply J_ext; [intros c Hc; apply (val_tr S (ok_wfd S Hok)); auto; now apply ready_wfm|].
  exact (J_rate cc ss pp S Hok HX HY d Hd1 Hd2 Hd3 s l k n Hr Hl Hk Hb Vb Rb HH HV HR HB K2 K4 P2 P4 E2 E4 Increment Mq Eq (fun c => mr n (TrCell Tend) [l; c; k]) H0 HT).
Qed.
Lemma TI_tend s time n : s <> Tend -> ready S n -> tbounded S l k Hb Vb Rb s n -> TI (tendency_fn S Tend s time Replace n).
Proof.
  intros Hs Hr HB. unfold TJ. pose proof NC_pos.
  eapply J_ext; [intros c Hc; apply (val_tr S (ok_wfd S Hok)); auto; now apply ready_wfm|].
  pose proof (J_rate cc ss pp S Hok HX HY d Hd1 Hd2 Hd3 s l k n Hr Hl Hk Hb Vb Rb HH HV HR HB K2 K4 P2 P4 E2 E4 Replace 0 0 (fun c => mr n (TrCell Tend) [l; c; k]) (Rle_refl 0) (J_0 cc ss pp NC ltac:(lia))) as G.
  eapply J_weak; [| | |exact G]; [lia|lra|lra].
Qed.

(** ** One update *)
Lemma axpy_h dst base (dt b : F A) n c : 0 <= c < NC ->
  mr (axpy S dst base dt b n) (TrCell dst) [l; c; k] = (mr n (TrCell base) [l; c; k] + dt * b * mr n (TrCell Tend) [l; c; k])%fp.
Proof.
  intros Hc. unfold axpy. cbv zeta. replace (0 <? ntracers P) with true by (symmetry; apply Z.ltb_lt; lia).
  rewrite upd_same by (cbn [rext]; apply inb3; rewrite (d_ntr S); repeat split; tauto || lia). cbn [on3]. rewrite !upd_other by discriminate.
  destruct (sid_eq_dec dst base) as [->|]; reflexivity.
Qed.
Lemma upd_gen (dt b : F A) (beta Mq Eq : R) n : fin_le Db dt -> fin_le beta b -> (bpow radix2 (-10) <= beta)%R -> (bpow radix2 (-700) <= Mq)%R ->
  tbounded S l k Hb Vb Rb St n -> TJ Mq Eq n -> tbounded S l k Hb Vb Rb St (axpy S St St dt b n) ->
  (Rabs (tot (axpy S St St dt b n) - tot n) <= IZR NC * (eps64 * Tb + eps64 * (q64 * (Db * beta) * Mq) + q64 * (Db * beta) * Eq))%R.
Proof.
  intros [Fdt Bdt] [Fb Bb] Hbeta ML BB [T1 T2] BB'. pose proof (tb_fin St n BB) as B1. pose proof (tb_fin St _ BB') as B1'. clear BB BB'.
  pose proof (fin_dbl _ Fdt) as Ddt. pose proof (fin_dbl _ Fb) as Dbb. pose proof (bpow_gt_0 radix2 (-10)) as Z1. pose proof (bpow_gt_0 radix2 (-200)) as Z2.
  assert (Dw : dbl (dt * b)%fp) by now apply dbl_mul.
  assert (Y : forall c, 0 <= c < NC -> mr (axpy S St St dt b n) (TrCell St) [l; c; k] = (mr n (TrCell St) [l; c; k] + dt * b * mr n (TrCell Tend) [l; c; k])%fp) by (intros; now apply axpy_h).
  assert (G : forall c, 0 <= c < NC -> fin (mr n (TrCell Tend) [l; c; k]) /\ fin (dt * b)%fp).
  { intros c Hc. destruct (axpy_fin cc ss pp _ _ _ _ (fin_dbl _ (proj1 (B1 c Hc))) (T1 c Hc) Dw (Y c Hc) (proj1 (B1' c Hc))) as (_ & G1 & G2 & _). auto. }
  pose proof NC_pos as HN. destruct T2 as [T2 T3]; [intros; now apply G|]. destruct (G 0 ltac:(lia)) as [_ Fw].
  assert (tD : (bpow radix2 (-210) <= Db * beta)%R).
  { change (-210) with (-200 + -10). rewrite bpow_plus. apply Rmult_le_compat; try apply bpow_ge_0; assumption. }
  assert (t1 : (tiny <= Db * beta)%R) by (eapply Rle_trans; [|exact tD]; now apply bpow_le).
  pose proof (weight cc ss pp dt b Db beta Ddt Dbb Fw Bdt Bb t1) as BW. pose proof q1 as Q1.
  pose proof (axpy_sum cc ss pp NC (fun c => mr n (TrCell St) [l; c; k]) (fun c => mr (axpy S St St dt b n) (TrCell St) [l; c; k]) (fun c => mr n (TrCell Tend) [l; c; k]) (dt * b)%fp Tb Mq (q64 * (Db * beta)) Eq HN) as G2.
  apply G2; auto.
  - intros c Hc. now apply fin_dbl, B1.
  - intros c Hc. now apply B1'.
  - intros c Hc. now apply B1'.
  - pose proof (bpow_gt_0 radix2 (-210)) as Z3. pose proof (bpow_gt_0 radix2 (-700)) as Z4.
    assert (T : (bpow radix2 (-210) * bpow radix2 (-700) <= q64 * (Db * beta) * Mq)%R).
    { apply Rmult_le_compat; try apply bpow_ge_0; [|exact ML]. apply Rle_trans with (1 * (Db * beta))%R; [lra|]. apply Rmult_le_compat_r; lra. }
    eapply Rle_trans; [|exact T]. rewrite <- bpow_plus. now apply bpow_le.
Qed.
Lemma upd_drift (dt b : F A) (beta : R) n : fin_le Db dt -> fin_le beta b -> (bpow radix2 (-10) <= beta)%R ->
  tbounded S l k Hb Vb Rb St n -> TI n -> tbounded S l k Hb Vb Rb St (axpy S St St dt b n) ->
  (Rabs (tot (axpy S St St dt b n) - tot n) <= IZR NC * eps64 * (Tb + 10 * (q64 ^ 51 * (beta * Db * w))))%R.
Proof.
  intros H1 H3 H4 H5 H6 H7. eapply Rle_trans; [apply (upd_gen dt b beta M E n); auto; exact M_low|].
  right. replace (q64 ^ 51)%R with (q64 * q64 ^ 50)%R by (cbn [pow]; ring). ring.
Qed.

(** ** The classical Runge-Kutta method *)
Lemma rk4_b_lt i : fin_le (q64 * rk4_beta i) (rk4_b i : F A).
Proof. unfold rk4_b, rk4_beta. destruct (_ || _); [apply (b_quot cc ss pp 1 6)|apply (b_quot cc ss pp 1 3)]; lia. Qed.
Local Notation good := (fun m : mem A => tbounded S l k Hb Vb Rb St m /\ tbounded S l k Hb Vb Rb Provis m).
Lemma rk4_upd i (dt : F A) n : fin_le Db dt -> good n -> TI n -> good (axpy S St St dt (rk4_b i) n) ->
  (Rabs (tot (axpy S St St dt (rk4_b i) n) - tot n) <= IZR NC * eps64 * (Tb + 10 * (q64 ^ 52 * (rk4_beta i * Db * w))))%R.
Proof.
  intros Hdt [B1 _] HT [B2 _]. eapply Rle_trans; [apply (upd_drift dt (rk4_b i) (q64 * rk4_beta i) n Hdt (rk4_b_lt i) (rk4_b_low i) B1 HT B2)|].
  right. replace (q64 ^ 52)%R with (q64 * q64 ^ 51)%R by (cbn [pow]; ring). ring.
Qed.
Lemma TI_other Mq Eq n n' : (forall c, 0 <= c < NC -> mr n' (TrCell Tend) [l; c; k] = mr n (TrCell Tend) [l; c; k]) -> TJ Mq Eq n -> TJ Mq Eq n'.
Proof.
  intros Ee [T1 T2]. split; [intros c Hc; rewrite Ee by exact Hc; auto|]. intros Hf. destruct T2 as [T2 T3]; [intros c Hc; rewrite <- Ee by exact Hc; auto|].
  split; [intros c Hc; rewrite Ee by exact Hc; auto|]. unfold ttotal in *. rewrite (rsum_ext _ _ (fun c => val (mr n (TrCell Tend) [l; c; k]))); [exact T3|].
  intros c Hc. now rewrite Ee.
Qed.
Lemma tot_other n n' : (forall c, 0 <= c < NC -> mr n' (TrCell St) [l; c; k] = mr n (TrCell St) [l; c; k]) -> tot n' = tot n.
Proof. intros Ee. apply rsum_ext. intros c Hc. now rewrite Ee. Qed.
Lemma rk4_st (t dt : F A) i n Ls : i < 3 -> fin_le Db dt -> ready S n -> TI n -> along D (rk4_stage S t dt i ++ Ls) n good ->
  let n' := rk4_stage_fn S t dt i n in
  ready S n' /\ TI n' /\ along D Ls n' good /\ (Rabs (tot n' - tot n) <= IZR NC * eps64 * (Tb + 10 * (q64 ^ 52 * (rk4_beta i * Db * w))))%R.
Proof.
  intros Hi Hdt Hr HT HA. pose proof (ok_wfd S Hok) as Hw. pose proof (ok_ntr S Hok) as Hnt. unfold rk4_stage, rk4_stage_fn in *. cbv zeta in *.
  replace (i <? 4 - 1) with true in * by (symmetry; apply Z.ltb_lt; lia). cbn [whenL] in HA.
  pose proof (along_here _ _ _ _ HA) as G0. rewrite <- !app_assoc in HA.
  apply (along_seq D _ _ n good _ (hs_accumulate S dt (rk4_b i) n)) in HA.
  set (n1 := axpy S St St dt (rk4_b i) n) in *. assert (R1 : ready S n1) by (eapply ready_cst; [apply cst_axpy|exact Hr]).
  pose proof (along_here _ _ _ _ HA) as G1. apply (along_seq D _ _ n1 good _ (hs_provis S dt (rk4_a i) n1)) in HA.
  set (n2 := axpy S Provis Old dt (rk4_a i) n1) in *. assert (R2 : ready S n2) by (eapply ready_cst; [apply cst_axpy|exact R1]).
  pose proof (along_here _ _ _ _ HA) as G2. apply (along_seq D _ _ n2 good _ (rd_tendency S Hok Tend Provis _ Replace n2 R2 ltac:(discriminate))) in HA.
  split; [eapply ready_cst; [apply cst_tendency|exact R2]|]. split; [apply TI_tend; [discriminate|exact R2|apply G2]|]. split; [exact HA|].
  rewrite (tot_other n2) by (intros; apply tend_other; reflexivity || discriminate).
  rewrite (tot_other n1 n2) by (intros; now apply axpy_other). now apply rk4_upd.
Qed.
Lemma rk4_drift (t dt : F A) n Ls : fin_le Db dt -> ready S n -> along D (rk4_step S t dt ++ Ls) n good ->
  let n' := rk4_fn S t dt n in
  ready S n' /\ along D Ls n' good /\ (Rabs (tot n' - tot n) <= IZR NC * eps64 * (4 * Tb + 10 * (q64 ^ 52 * (Db * w))))%R.
Proof.
  intros Hdt Hr HA. unfold rk4_step in HA. rewrite <- !app_assoc in HA.
  apply (along_seq D _ _ n good _ (hs_save cc ss pp S n)) in HA. set (n0 := save_fn S n) in *.
  assert (R0 : ready S n0) by (eapply ready_cst; [apply cst_save|exact Hr]). pose proof (along_here _ _ _ _ HA) as G0.
  apply (along_seq D _ _ n0 good _ (rd_tendency S Hok Tend St t Replace n0 R0 ltac:(discriminate))) in HA.
  assert (T0 : tot (tendency_fn S Tend St t Replace n0) = tot n).
  { rewrite (tot_other n0) by (intros; apply tend_other; reflexivity || discriminate). apply tot_other. intros. now apply save_other. }
  pose proof (TI_tend St t n0 ltac:(discriminate) R0 (proj1 G0)) as I0.
  assert (R1 : ready S (tendency_fn S Tend St t Replace n0)) by (eapply ready_cst; [apply cst_tendency|exact R0]).
  unfold rk4_fn. fold n0. rewrite <- T0. clear T0. set (m0 := tendency_fn S Tend St t Replace n0) in *. clearbody m0. clear n n0 Hr R0 G0.
  change (zseq 4) with [0; 1; 2; 3] in *. cbn [flat_map fold_left] in *. rewrite <- !app_assoc in HA.
  destruct (rk4_st t dt 0 m0 _ ltac:(lia) Hdt R1 I0 HA) as (Ra & Ia & HA1 & B0). set (m1 := rk4_stage_fn S t dt 0 m0) in *. clearbody m1. clear HA.
  destruct (rk4_st t dt 1 m1 _ ltac:(lia) Hdt Ra Ia HA1) as (Rbb & Ib & HA2 & B1). set (m2 := rk4_stage_fn S t dt 1 m1) in *. clearbody m2. clear HA1.
  destruct (rk4_st t dt 2 m2 _ ltac:(lia) Hdt Rbb Ib HA2) as (Rc & Ic & HA3 & B2). set (m3 := rk4_stage_fn S t dt 2 m2) in *. clearbody m3. clear HA2.
  unfold rk4_stage, rk4_stage_fn in *. cbv zeta in *. change (3 <? 4 - 1) with false in *. cbn [whenL app] in HA3. rewrite app_nil_r in HA3.
  pose proof (along_here _ _ _ _ HA3) as G3. apply (along_seq D _ _ m3 good _ (hs_accumulate S dt (rk4_b 3) m3)) in HA3.
  pose proof (rk4_upd 3 dt m3 Hdt G3 Ic (along_here _ _ _ _ HA3)) as B3. set (m4 := axpy S St St dt (rk4_b 3) m3) in *.
  split; [eapply ready_cst; [apply cst_axpy|exact Rc]|]. split; [exact HA3|].
  unfold rk4_beta in *. cbn [Z.eqb orb Pos.eqb] in *. set (w' := (Db * w)%R) in *. set (z := (IZR NC * eps64)%R) in *.
  replace (tot m4 - tot m0)%R with ((tot m4 - tot m3) + ((tot m3 - tot m2) + ((tot m2 - tot m1) + (tot m1 - tot m0))))%R by ring.
  eapply Rle_trans; [apply Rabs_triang|]. eapply Rle_trans; [apply Rplus_le_compat_l, Rabs_triang|]. eapply Rle_trans; [apply Rplus_le_compat_l, Rplus_le_compat_l, Rabs_triang|].
  replace (1 / 6 * Db * w)%R with (1 / 6 * w')%R in * by (unfold w'; ring). replace (1 / 3 * Db * w)%R with (1 / 3 * w')%R in * by (unfold w'; ring).
  set (q := (q64 ^ 52)%R) in *. lra.
Qed.
Lemma rk4_run_drift steps m : (forall x, In x steps -> fin_le Db (snd x)) -> ready S m -> along D (rk4_run S steps) m good ->
  (Rabs (tot (rk4_run_fn S steps m) - tot m) <= INR (length steps) * (IZR NC * eps64 * (4 * Tb + 10 * (q64 ^ 52 * (Db * w)))))%R.
Proof.
  revert m. induction steps as [|x ls IH]; intros m Hx Hr HA.
  - cbn [rk4_run_fn fold_left length INR]. rewrite Rminus_diag_eq, Rabs_R0 by reflexivity. lra.
  - change (rk4_run S (x :: ls)) with (rk4_step S (fst x) (snd x) ++ rk4_run S ls) in HA.
    destruct (rk4_drift (fst x) (snd x) m _ (Hx x (or_introl eq_refl)) Hr HA) as (R1 & HA1 & B1).
    change (rk4_run_fn S (x :: ls) m) with (rk4_run_fn S ls (rk4_fn S (fst x) (snd x) m)). set (m1 := rk4_fn S (fst x) (snd x) m) in *.
    pose proof (IH m1 (fun y Hy => Hx y (or_intror Hy)) R1 HA1) as B2. change (length (x :: ls)) with (Datatypes.S (length ls)). rewrite S_INR.
    set (m2 := rk4_run_fn S ls m1) in *. replace (tot m2 - tot m)%R with ((tot m2 - tot m1) + (tot m1 - tot m))%R by ring.
    eapply Rle_trans; [apply Rabs_triang|]. lra.
Qed.

(** ** The low storage method *)
Lemma scale_h (a : F A) n c : 0 <= c < NC -> mr (scale_fn S a n) (TrCell Tend) [l; c; k] = (mr n (TrCell Tend) [l; c; k] * a)%fp.
Proof.
  intros Hc. unfold scale_fn. cbv zeta. replace (0 <? ntracers P) with true by (symmetry; apply Z.ltb_lt; lia).
  rewrite upd_same by (cbn [rext]; apply inb3; rewrite (d_ntr S); repeat split; tauto || lia). cbn [on3]. rewrite !upd_other by discriminate. reflexivity.
Qed.
(** The work array after [tend *= a]: by zero, and by another number. *)
Lemma scale0 n : (forall c, 0 <= c < NC -> dbl (mr n (TrCell Tend) [l; c; k])) -> TJ 0 0 (scale_fn S (#0)%fp n).
Proof.
  intros Dn. assert (D0 : dbl (@fofZ A 0)) by apply dbl_ofZ. destruct (ofZ_val cc ss pp 0 ltac:(reflexivity)) as [_ E0].
  split; [intros c Hc; rewrite scale_h by exact Hc; now apply dbl_mul; [apply Dn|]|]. intros Hf.
  assert (V : forall c, 0 <= c < NC -> val (mr (scale_fn S (#0)%fp n) (TrCell Tend) [l; c; k]) = 0%R).
  { intros c Hc. specialize (Hf c Hc). rewrite scale_h in * by exact Hc. destruct (fin_mul cc ss pp _ _ (Dn c Hc) D0 Hf) as (_ & _ & Ee).
    etransitivity; [exact Ee|]. rewrite E0, Rmult_0_r. apply rnd_0. }
  split; [intros c Hc; rewrite V, Rabs_R0 by exact Hc; lra|]. unfold ttotal. rewrite rsum_zero by exact V. rewrite Rabs_R0. lra.
Qed.
Lemma scale_TJ (a : F A) (alpha Mq Eq : R) n : fin_le alpha a -> (bpow radix2 (-10) <= alpha)%R -> (bpow radix2 (-700) <= Mq)%R -> TJ Mq Eq n ->
  TJ (q64 * (alpha * Mq)) (alpha * Eq + eps64 * (alpha * Mq)) (scale_fn S a n).
Proof.
  intros [Fa Ba] La Lm [T1 T2]. pose proof (fin_dbl _ Fa) as Da. pose proof NC_pos as HN.
  assert (t1 : (tiny <= alpha * Mq)%R).
  { apply Rle_trans with (bpow radix2 (-10 + -700)); [now apply bpow_le|]. rewrite bpow_plus. apply Rmult_le_compat; try apply bpow_ge_0; assumption. }
  split; [intros c Hc; rewrite scale_h by exact Hc; now apply dbl_mul; [apply T1|]|]. intros Hf.
  assert (V : forall c, 0 <= c < NC -> fin (mr n (TrCell Tend) [l; c; k]) /\ val (mr (scale_fn S a n) (TrCell Tend) [l; c; k]) = rnd (val (mr n (TrCell Tend) [l; c; k]) * val a)).
  { intros c Hc. specialize (Hf c Hc). rewrite scale_h in * by exact Hc. destruct (fin_mul cc ss pp _ _ (T1 c Hc) Da Hf) as (G1 & _ & Ee). auto. }
  destruct T2 as [T2 T3]; [intros; now apply V|].
  assert (B : forall c, 0 <= c < NC -> (Rabs (val (mr n (TrCell Tend) [l; c; k]) * val a) <= alpha * Mq)%R).
  { intros c Hc. rewrite Rabs_mult, Rmult_comm. apply Rmult_le_compat; auto using Rabs_pos. }
  split.
  - intros c Hc. rewrite (proj2 (V c Hc)). apply rnd_le; auto.
  - unfold ttotal in *. rewrite (rsum_ext _ _ (fun c => val (mr n (TrCell Tend) [l; c; k]) * val a + (rnd (val (mr n (TrCell Tend) [l; c; k]) * val a) - val (mr n (TrCell Tend) [l; c; k]) * val a))%R)
      by (intros c Hc; rewrite (proj2 (V c Hc)); ring).
    rewrite rsum_plus, rsum_scal_r. eapply Rle_trans; [apply Rabs_triang|]. rewrite Rmult_plus_distr_l. apply Rplus_le_compat.
    + rewrite Rabs_mult, Rmult_comm. replace (IZR NC * (alpha * Eq))%R with (alpha * (IZR NC * Eq))%R by ring. apply Rmult_le_compat; auto using Rabs_pos.
    + eapply Rle_trans; [apply Rabs_rsum|]. rewrite <- rsum_const by (cbn; lia). apply rsum_le. intros c Hc. apply rnd_err; auto.
Qed.
Lemma TJ_weak M1 Q1 M2 Q2 n : (M1 <= M2)%R -> (Q1 <= Q2)%R -> TJ M1 Q1 n -> TJ M2 Q2 n.
Proof. pose proof NC_pos. apply J_weak. lia. Qed.

(** One stage, with explicit constants. *)
Lemma M_low7 mu : (1 <= mu)%R -> (bpow radix2 (-700) <= mu * M)%R.
Proof.
  intros Hmu. pose proof M_low as ML. pose proof M_pos as MP. eapply Rle_trans; [exact ML|].
  apply Rle_trans with (1 * M)%R; [lra|]. apply Rmult_le_compat_r; lra.
Qed.
Local Notation LI mu sg := (TJ (mu * M) (sg * (eps64 * M))).
Lemma lsrk_incr0 time n : ready S n -> (forall c, 0 <= c < NC -> dbl (mr n (TrCell Tend) [l; c; k])) ->
  tbounded S l k Hb Vb Rb St (scale_fn S (#0)%fp n) ->
  LI 1 9 (tendency_fn S Tend St time Increment (scale_fn S (#0)%fp n)).
Proof.
  intros Hr Dn HB'. assert (R1 : ready S (scale_fn S (#0)%fp n)) by (eapply ready_cst; [apply cst_scale|exact Hr]).
  pose proof M_pos as MP. pose proof eps_pos as EP.
  eapply TJ_weak; [| |apply (incr_TJ St time 0 0); [discriminate|exact R1|exact HB'|lra|now apply scale0]].
  - lra.
  - lra.
Qed.
Lemma lsrk_incr (a : F A) (alpha mu sg mu' sg' : R) time n : fin_le alpha a -> (1 / 1000 <= alpha)%R -> (1 <= mu)%R ->
  (q64 ^ 4 * (alpha * mu) + 1 <= mu')%R -> (alpha * sg + alpha * mu + 9 + 3 * (q64 ^ 4 * (alpha * mu)) <= sg')%R ->
  ready S n -> LI mu sg n -> tbounded S l k Hb Vb Rb St (scale_fn S a n) ->
  LI mu' sg' (tendency_fn S Tend St time Increment (scale_fn S a n)).
Proof.
  intros Ha La Lm L1 L2 Hr HT HB'. assert (R1 : ready S (scale_fn S a n)) by (eapply ready_cst; [apply cst_scale|exact Hr]).
  pose proof M_pos as MP. pose proof eps_pos as EP. pose proof (M_low7 mu Lm) as ML. pose proof q1 as Q1.
  assert (La' : (bpow radix2 (-10) <= alpha)%R) by (replace (bpow radix2 (-10)) with (/ 1024)%R by reflexivity; lra).
  pose proof (scale_TJ a alpha _ _ n Ha La' ML HT) as T1.
  assert (P0 : (0 <= q64 * (alpha * (mu * M)))%R) by (do 3 (apply Rmult_le_pos; [lra|]); lra).
  eapply TJ_weak; [| |apply (incr_TJ St time _ _ _ ltac:(discriminate) R1 HB' P0 T1)].
  - replace (q64 ^ 3 * (q64 * (alpha * (mu * M))) + M)%R with ((q64 ^ 4 * (alpha * mu) + 1) * M)%R by ring. apply Rmult_le_compat_r; lra.
  - set (e := (eps64 * M)%R). assert (0 < e)%R by (apply Rmult_lt_0_compat; lra).
    replace (alpha * (sg * e) + eps64 * (alpha * (mu * M)) + 9 * eps64 * M + 3 * eps64 * (q64 ^ 3 * (q64 * (alpha * (mu * M)))))%R
      with ((alpha * sg + alpha * mu + 9 + 3 * (q64 ^ 4 * (alpha * mu))) * e)%R by (unfold e; ring). apply Rmult_le_compat_r; lra.
Qed.
Lemma lsrk_upd (dt b : F A) (beta mu sg : R) n : fin_le Db dt -> fin_le beta b -> (1 / 1000 <= beta)%R -> (1 <= mu)%R ->
  tbounded S l k Hb Vb Rb St n -> LI mu sg n -> tbounded S l k Hb Vb Rb St (axpy S St St dt b n) ->
  (Rabs (tot (axpy S St St dt b n) - tot n) <= IZR NC * eps64 * (Tb + beta * (mu + sg) * (q64 ^ 51 * (Db * w))))%R.
Proof.
  intros Hdt Hbb Lb Lm HB HT HB'. assert (Lb' : (bpow radix2 (-10) <= beta)%R) by (replace (bpow radix2 (-10)) with (/ 1024)%R by reflexivity; lra).
  eapply Rle_trans; [apply (upd_gen dt b beta _ _ n Hdt Hbb Lb' (M_low7 mu Lm) HB HT HB')|].
  right. replace (q64 ^ 51)%R with (q64 * q64 ^ 50)%R by (cbn [pow]; ring). ring.
Qed.
Local Notation St_ok := (fun m : mem A => tbounded S l k Hb Vb Rb St m).
Definition dblT n : Prop := forall c, 0 <= c < NC -> dbl (mr n (TrCell Tend) [l; c; k]).
Lemma lsrk_st (t dt : F A) i n Ls (beta mu sg : R) : fin_le Db dt -> fin_le beta (lsrk_b 5 i : F A) -> (1 / 1000 <= beta)%R -> (1 <= mu)%R ->
  ready S n -> along D (lsrk_stage S 5 t dt i ++ Ls) n St_ok ->
  (tbounded S l k Hb Vb Rb St (scale_fn S (lsrk_a 5 i) n) ->
   LI mu sg (tendency_fn S Tend St (t + lsrk_c 5 i * dt)%fp Increment (scale_fn S (lsrk_a 5 i) n))) ->
  let n' := lsrk_stage_fn S 5 t dt i n in
  ready S n' /\ LI mu sg n' /\ along D Ls n' St_ok /\ (Rabs (tot n' - tot n) <= IZR NC * eps64 * (Tb + beta * (mu + sg) * (q64 ^ 51 * (Db * w))))%R.
Proof.
  intros Hdt Hbb Lb Lm Hr HA HL. unfold lsrk_stage, lsrk_stage_fn in *. rewrite <- !app_assoc in HA. pose proof (along_here _ _ _ _ HA) as G0.
  pose proof (ok_wfd S Hok) as Hw. pose proof (ok_ntr S Hok) as Hnt.
  apply (along_seq D _ _ n St_ok _ (hs_scale S (lsrk_a 5 i) n)) in HA. pose proof (along_here _ _ _ _ HA) as G1.
  specialize (HL G1). set (n1 := scale_fn S (lsrk_a 5 i) n) in *. assert (R1 : ready S n1) by (eapply ready_cst; [apply cst_scale|exact Hr]).
  apply (along_seq D _ _ n1 St_ok _ (rd_tendency S Hok Tend St _ Increment n1 R1 ltac:(discriminate))) in HA. pose proof (along_here _ _ _ _ HA) as G2.
  set (n2 := tendency_fn S Tend St (t + lsrk_c 5 i * dt)%fp Increment n1) in *. assert (R2 : ready S n2) by (eapply ready_cst; [apply cst_tendency|exact R1]).
  apply (along_seq D _ _ n2 St_ok _ (hs_accumulate S dt (lsrk_b 5 i) n2)) in HA. pose proof (along_here _ _ _ _ HA) as G3.
  split; [eapply ready_cst; [apply cst_axpy|exact R2]|]. split.
  { apply (TI_other _ _ n2); [|exact HL]. intros. now apply axpy_other. }
  split; [exact HA|].
  assert (Et : tot n2 = tot n).
  { rewrite (tot_other n1) by (intros; apply tend_other; reflexivity || discriminate). apply tot_other. intros. now apply (scale_other cc ss pp S). }
  rewrite <- Et. now apply lsrk_upd.
Qed.
Ltac ql := apply quot_le; [lia|lia|lia|cbn [Z.abs]; pose proof q_ub; lra].
Lemma lsrk_drift (t dt : F A) n Ls : fin_le Db dt -> ready S n -> dblT n -> along D (lsrk_step S 5 t dt ++ Ls) n St_ok ->
  let n' := lsrk_fn S 5 t dt n in
  ready S n' /\ dblT n' /\ along D Ls n' St_ok /\ (Rabs (tot n' - tot n) <= IZR NC * eps64 * (5 * Tb + 127 * (q64 ^ 51 * (Db * w))))%R.
Proof.
  intros Hdt Hr Dn HA. pose proof q_ub as Q1. pose proof q2_ub as Q2. pose proof q0 as Q0.
  unfold lsrk_step, lsrk_fn in *. change (zseq 5) with [0; 1; 2; 3; 4] in *. cbn [flat_map fold_left] in *. rewrite <- !app_assoc in HA.
  assert (Q4 : (q64 ^ 4 <= 1.00001)%R).
  { replace (q64 ^ 4)%R with (q64 * q64 * (q64 * q64))%R by ring. assert (0 < q64 * q64)%R by (apply Rmult_lt_0_compat; lra).
    assert (q64 * q64 * (q64 * q64) <= (1 + 3 / 1000000) * (1 + 3 / 1000000))%R by (apply Rmult_le_compat; lra). lra. }
  destruct (lsrk_st t dt 0 n _ 0.15 1 9 Hdt ltac:(ql) ltac:(lra) ltac:(lra) Hr HA) as (R0 & L0 & HA0 & B0).
  { intros G1. now apply lsrk_incr0. }
  set (n0 := lsrk_stage_fn S 5 t dt 0 n) in *. clearbody n0. clear HA.
  destruct (lsrk_st t dt 1 n0 _ 0.38 1.419 14.44 Hdt ltac:(ql) ltac:(lra) ltac:(lra) R0 HA0) as (R1 & L1 & HA1 & B1).
  { intros G1. apply (lsrk_incr (lsrk_a 5 1) 0.418 1 9); auto; [ql|lra|lra|lra|lra]. }
  set (n1 := lsrk_stage_fn S 5 t dt 1 n0) in *. clearbody n1. clear HA0.
  destruct (lsrk_st t dt 2 n1 _ 0.823 2.694 33.01 Hdt ltac:(ql) ltac:(lra) ltac:(lra) R1 HA1) as (R2 & L2 & HA2 & B2).
  { intros G1. apply (lsrk_incr (lsrk_a 5 2) 1.193 1.419 14.44); auto; [ql|lra|lra|lra|lra]. }
  set (n2 := lsrk_stage_fn S 5 t dt 2 n1) in *. clearbody n2. clear HA1.
  destruct (lsrk_st t dt 3 n2 _ 0.6995 5.576 83.36 Hdt ltac:(ql) ltac:(lra) ltac:(lra) R2 HA2) as (R3 & L3 & HA3 & B3).
  { intros G1. apply (lsrk_incr (lsrk_a 5 3) 1.698 2.694 33.01); auto; [ql|lra|lra|lra|lra]. }
  set (n3 := lsrk_stage_fn S 5 t dt 3 n2) in *. clearbody n3. clear HA2.
  destruct (lsrk_st t dt 4 n3 _ 0.1531 9.449 169.1 Hdt ltac:(ql) ltac:(lra) ltac:(lra) R3 HA3) as (R4 & L4 & HA4 & B4).
  { intros G1. apply (lsrk_incr (lsrk_a 5 4) 1.515 5.576 83.36); auto; [ql|lra|lra|lra|lra]. }
  set (n4 := lsrk_stage_fn S 5 t dt 4 n3) in *. clearbody n4. clear HA3.
  split; [exact R4|]. split; [exact (proj1 L4)|]. split; [exact HA4|].
  set (w' := (q64 ^ 51 * (Db * w))%R) in *. assert (W0 : (0 <= w')%R).
  { unfold w'. pose proof w_pos. pose proof (qk0 51) as Q51. pose proof (bpow_gt_0 radix2 (-200)) as Z2. do 2 (apply Rmult_le_pos; [lra|]); lra. }
  set (z := (IZR NC * eps64)%R) in *.
  assert (Z0 : (0 <= z)%R) by (apply Rmult_le_pos; [apply IZR_le; pose proof NC_pos; lia|pose proof eps_pos; lra]).
  assert (Zw : (0 <= z * w')%R) by now apply Rmult_le_pos.
  replace (tot n4 - tot n)%R with ((tot n4 - tot n3) + ((tot n3 - tot n2) + ((tot n2 - tot n1) + ((tot n1 - tot n0) + (tot n0 - tot n)))))%R by ring.
  eapply Rle_trans; [apply Rabs_triang|]. eapply Rle_trans; [apply Rplus_le_compat_l, Rabs_triang|]. eapply Rle_trans; [apply Rplus_le_compat_l, Rplus_le_compat_l, Rabs_triang|].
  eapply Rle_trans; [apply Rplus_le_compat_l, Rplus_le_compat_l, Rplus_le_compat_l, Rabs_triang|].
  lra.
Qed.
Lemma lsrk_run_drift steps m : (forall x, In x steps -> fin_le Db (snd x)) -> ready S m -> dblT m -> along D (lsrk_run S 5 steps) m St_ok ->
  (Rabs (tot (lsrk_run_fn S 5 steps m) - tot m) <= INR (length steps) * (IZR NC * eps64 * (5 * Tb + 127 * (q64 ^ 51 * (Db * w)))))%R.
Proof.
  revert m. induction steps as [|x ls IH]; intros m Hx Hr Dn HA.
  - cbn [lsrk_run_fn fold_left length INR]. rewrite Rminus_diag_eq, Rabs_R0 by reflexivity. lra.
  - change (lsrk_run S 5 (x :: ls)) with (lsrk_step S 5 (fst x) (snd x) ++ lsrk_run S 5 ls) in HA.
    destruct (lsrk_drift (fst x) (snd x) m _ (Hx x (or_introl eq_refl)) Hr Dn HA) as (R1 & D1 & HA1 & B1).
    change (lsrk_run_fn S 5 (x :: ls) m) with (lsrk_run_fn S 5 ls (lsrk_fn S 5 (fst x) (snd x) m)). set (m1 := lsrk_fn S 5 (fst x) (snd x) m) in *.
    pose proof (IH m1 (fun y Hy => Hx y (or_intror Hy)) R1 D1 HA1) as B2. change (length (x :: ls)) with (Datatypes.S (length ls)). rewrite S_INR.
    set (m2 := lsrk_run_fn S 5 ls m1) in *. replace (tot m2 - tot m)%R with ((tot m2 - tot m1) + (tot m1 - tot m))%R by ring.
    eapply Rle_trans; [apply Rabs_triang|]. lra.
Qed.
End Run.
