(** Rounding errors of the tracer content in binary64: the proofs of the theorems of PropsTrFloat.v. *)
From Coq Require Import ZArith Reals List Bool Lia Lra.
From Coq Require Import Floats.SpecFloat.
From Flocq Require Import Core.Core.
From Verif Require Import Arith Arrays Prog Conc Launch Mesh AuxVars Tend Model Hex MeshProof MeshMem Over Formulas KernBase Terms KernAux KernTend TendFn StepFn Ready Rel RelRun Relate TendVal StepVal StepRun MeshFacts MeshR RSum FloatFacts FloatMass FloatRun TrFloat TrFlux TrRun FloatRest FloatAlong FloatThms TrAlong TrAdv.
Import ListNotations.
Open Scope Z_scope.

Lemma q_pow52 n (r : R) : (n <= 52)%nat -> (0 <= r)%R -> (q64 ^ n * r <= 1.0001 * r)%R.
Proof.
  intros Hn Hr. apply Rmult_le_compat_r; [exact Hr|]. eapply Rle_trans; [apply (qk_mono n 52 Hn)|].
  eapply Rle_trans; [apply qk_lin; lia|]. pose proof eps_small as Es. pose proof eps_pos as Ep. replace (INR 52) with 52%R by (cbn; lra). lra.
Qed.

Lemma C99_tracer_tendency_error_proof :
  forall (cc ss : spec_float -> spec_float) (pp : spec_float) (S : setup (SFA cc ss pp)), setup_ok S ->
  let d := val (dc (mesh_of_setup S)) in
  2 <= nx (mesh_of_setup S) -> 2 <= ny (mesh_of_setup S) ->
  fin (dc (mesh_of_setup S)) -> (bpow radix2 (-100) <= d <= bpow radix2 100)%R ->
  forall l k, 0 <= l < ntracers (par_of S) -> 0 <= k < d_nlayers (sdims S) ->
  forall Hb Vb Rb K2 K4 : R, (bpow radix2 (-100) <= Hb <= bpow radix2 200)%R -> (bpow radix2 (-100) <= Vb)%R -> (bpow radix2 (-100) <= Rb)%R -> (0 <= K2)%R -> (0 <= K4)%R ->
  (tracer_diff_enabled (par_of S) = true -> fin_le K2 (eddy_diff2 (par_of S)) /\ (bpow radix2 (-100) <= K2)%R) ->
  (tracer_hyperdiff_enabled (par_of S) = true -> fin_le K4 (eddy_diff4 (par_of S)) /\ (bpow radix2 (-100) <= K4)%R) ->
  forall s time (m : mem (SFA cc ss pp)), s <> Tend -> ready S m -> tbounded S l k Hb Vb Rb s m ->
  always (sdims S) (compute_tendency S Tend s time Replace) m (fun m' =>
    (forall c, 0 <= c < d_ncells (sdims S) -> fin (mr m' (TrCell Tend) [l; c; k])) ->
    (Rabs (ttotal S l k Tend m') <= IZR (d_ncells (sdims S)) * bpow radix2 (-53) * (10 * (Hb * Rb * (4 * Vb / d + 8 * K2 / (d * d) + 64 * K4 / (d * d * d * d)))))%R).
Proof.
  intros cc ss pp S Hok d HX HY Hd1 Hd3 l k Hl Hk Hb Vb Rb K2 K4 HH HV HR P2 P4 E2 E4 s time m Hs Hr HB.
  apply (always_fn S _ (tendency_fn S Tend s time Replace) m); [now apply rd_tendency|]. intros m' Em. apply meq_eq in Em. subst m'. intros Hf.
  destruct (TI_tend cc ss pp S Hok HX HY d Hd1 eq_refl Hd3 l k Hl Hk Hb Vb Rb HH HV HR K2 K4 P2 P4 E2 E4 s time m Hs Hr HB) as [_ T2]. destruct (T2 Hf) as [_ T3].
  pose proof (TrRun.w_pos d Hd3 Hb Vb Rb HH HV HR K2 K4 P2 P4) as W. set (w := (Hb * Rb * (4 * Vb / d + 8 * K2 / (d * d) + 64 * K4 / (d * d * d * d)))%R) in *.
  eapply Rle_trans; [exact T3|]. pose proof eps_pos as EP. assert (HN : 0 < d_ncells (sdims S)) by (cbn; nia).
  replace (IZR (nx (mesh_of_setup S) * ny (mesh_of_setup S)) * (9 * eps64 * (q64 ^ 50 * w)))%R with (IZR (d_ncells (sdims S)) * eps64 * (9 * (q64 ^ 50 * w)))%R
    by (change (d_ncells (sdims S)) with (nx (mesh_of_setup S) * ny (mesh_of_setup S)); ring).
  fold eps64. apply Rmult_le_compat_l; [apply Rmult_le_pos; [apply IZR_le; lia|lra]|].
  pose proof (q_pow52 50 w ltac:(lia) ltac:(lra)). lra.
Qed.

Lemma C99_tracer_drift_proof :
  forall (cc ss : spec_float -> spec_float) (pp : spec_float) (S : setup (SFA cc ss pp)), setup_ok S ->
  let d := val (dc (mesh_of_setup S)) in
  2 <= nx (mesh_of_setup S) -> 2 <= ny (mesh_of_setup S) ->
  fin (dc (mesh_of_setup S)) -> (bpow radix2 (-100) <= d <= bpow radix2 100)%R ->
  forall l k, 0 <= l < ntracers (par_of S) -> 0 <= k < d_nlayers (sdims S) ->
  forall Hb Vb Rb Db K2 K4 : R, (bpow radix2 (-100) <= Hb <= bpow radix2 200)%R -> (bpow radix2 (-100) <= Vb)%R -> (bpow radix2 (-100) <= Rb)%R -> (bpow radix2 (-200) <= Db)%R ->
  (0 <= K2)%R -> (0 <= K4)%R ->
  (tracer_diff_enabled (par_of S) = true -> fin_le K2 (eddy_diff2 (par_of S)) /\ (bpow radix2 (-100) <= K2)%R) ->
  (tracer_hyperdiff_enabled (par_of S) = true -> fin_le K4 (eddy_diff4 (par_of S)) /\ (bpow radix2 (-100) <= K4)%R) ->
  forall steps, (forall x, In x steps -> fin_le Db (snd x)) ->
  forall m : mem (SFA cc ss pp), ready S m ->
  let within (a b : R) (m' : mem (SFA cc ss pp)) := (Rabs (ttotal S l k St m' - ttotal S l k St m)
    <= INR (length steps) * IZR (d_ncells (sdims S)) * bpow radix2 (-53) * (Hb * Rb * (a + b * (Db * (4 * Vb / d + 8 * K2 / (d * d) + 64 * K4 / (d * d * d * d))))))%R in
  (along (sdims S) (rk4_run S steps) m (fun m' => tbounded S l k Hb Vb Rb St m' /\ tbounded S l k Hb Vb Rb Provis m') ->
   always (sdims S) (rk4_run S steps) m (within 4 11)%R) /\
  (along (sdims S) (lsrk_ctor S ++ lsrk_run S 5 steps) m (tbounded S l k Hb Vb Rb St) ->
   always (sdims S) (lsrk_ctor S ++ lsrk_run S 5 steps) m (within 5 128)%R).
Proof.
  intros cc ss pp S Hok d HX HY Hd1 Hd3 l k Hl Hk Hb Vb Rb Db K2 K4 HH HV HR HD P2 P4 E2 E4 steps Hx m Hr within.
  pose proof (TrRun.w_pos d Hd3 Hb Vb Rb HH HV HR K2 K4 P2 P4) as W. pose proof eps_pos as EP. pose proof (bpow_gt_0 radix2 (-200)) as z1.
  assert (HN : 0 < d_ncells (sdims S)) by (cbn; nia).
  assert (FIN : forall a b b' q (x : R), (q <= 52)%nat -> (1.0001 * b <= b')%R -> (0 <= b)%R ->
    (x <= INR (length steps) * (IZR (nx (mesh_of_setup S) * ny (mesh_of_setup S)) * eps64 * (a * (Hb * Rb) + b * (q64 ^ q * (Db * (Hb * Rb * (4 * Vb / d + 8 * K2 / (d * d) + 64 * K4 / (d * d * d * d))))))))%R ->
    (x <= INR (length steps) * IZR (d_ncells (sdims S)) * bpow radix2 (-53) * (Hb * Rb * (a + b' * (Db * (4 * Vb / d + 8 * K2 / (d * d) + 64 * K4 / (d * d * d * d))))))%R).
  { intros a b b' q x Hq Hbb Hb0 H. eapply Rle_trans; [exact H|]. set (L := (4 * Vb / d + 8 * K2 / (d * d) + 64 * K4 / (d * d * d * d))%R) in *.
    fold eps64. rewrite !(Rmult_assoc (INR (length steps))). apply Rmult_le_compat_l; [apply pos_INR|]. apply Rmult_le_compat_l; [apply Rmult_le_pos; [apply IZR_le; lia|lra]|].
    replace (Hb * Rb * (a + b' * (Db * L)))%R with (a * (Hb * Rb) + b' * (Db * (Hb * Rb * L)))%R by ring. apply Rplus_le_compat_l.
    assert (V : (0 <= Db * (Hb * Rb * L))%R) by (apply Rmult_le_pos; lra). revert V. generalize (Db * (Hb * Rb * L))%R. intros v V.
    pose proof (q_pow52 q v Hq V) as Q. apply Rle_trans with (b * (1.0001 * v))%R; [apply Rmult_le_compat_l; [exact Hb0|exact Q]|].
    replace (b * (1.0001 * v))%R with (1.0001 * b * v)%R by ring. apply Rmult_le_compat_r; lra. }
  split; intros HA.
  - apply (always_fn S _ (rk4_run_fn S steps) m); [now apply rd_rk4_run|]. intros m' Em. apply meq_eq in Em. subst m'. unfold within.
    apply (FIN 4%R 10%R 11%R 52%nat); [lia|lra|lra|]. now apply (TrRun.rk4_run_drift cc ss pp S Hok HX HY d Hd1 eq_refl Hd3 l k Hl Hk Hb Vb Rb Db HH HV HR HD K2 K4 P2 P4 E2 E4).
  - apply (always_fn S _ (fun m => lsrk_run_fn S 5 steps (lsrk_init_fn S m)) m); [now apply hs_ls|]. intros m' Em. apply meq_eq in Em. subst m'. unfold within.
    apply (along_seq (sdims S) _ _ m _ _ (hs_lsrk_ctor S m)) in HA.
    assert (E0 : ttotal S l k St (lsrk_init_fn S m) = ttotal S l k St m) by (apply rsum_ext; intros c Hc; now rewrite init_other).
    rewrite <- E0. apply (FIN 5%R 127%R 128%R 51%nat); [lia|lra|lra|].
    apply (TrRun.lsrk_run_drift cc ss pp S Hok HX HY d Hd1 eq_refl Hd3 l k Hl Hk Hb Vb Rb Db HH HV HR HD K2 K4 P2 P4 E2 E4); auto; [now apply init_ready|].
    intros c Hc. rewrite (init_Tr cc ss pp S m) by assumption. apply dbl_ofZ.
Qed.

Lemma C99_frozen_flow_proof :
  forall (cc ss : spec_float -> spec_float) (pp : spec_float) (S : setup (SFA cc ss pp)), setup_ok S ->
  let d := val (dc (mesh_of_setup S)) in
  2 <= nx (mesh_of_setup S) -> 2 <= ny (mesh_of_setup S) ->
  fin (dc (mesh_of_setup S)) -> (bpow radix2 (-100) <= d <= bpow radix2 100)%R ->
  noif (cfg_of S) = false -> disable_vn (par_of S) = true -> disable_h (par_of S) = true -> hook S = None ->
  forall l k, 0 <= l < ntracers (par_of S) -> 0 <= k < d_nlayers (sdims S) ->
  forall Hm Hb Vb Rb Db K2 K4 : R, (bpow radix2 (-100) <= Hm)%R -> (Hm <= Hb <= bpow radix2 100)%R -> (bpow radix2 (-100) <= Vb <= bpow radix2 100)%R ->
  (bpow radix2 (-100) <= Rb <= bpow radix2 100)%R -> (bpow radix2 (-100) <= Db <= bpow radix2 100)%R -> (0 <= K2 <= bpow radix2 100)%R -> (0 <= K4 <= bpow radix2 100)%R ->
  (tracer_diff_enabled (par_of S) = true -> fin_le K2 (eddy_diff2 (par_of S)) /\ (bpow radix2 (-100) <= K2)%R) ->
  (tracer_hyperdiff_enabled (par_of S) = true -> fin_le K4 (eddy_diff4 (par_of S)) /\ (bpow radix2 (-100) <= K4)%R) ->
  let rate := (4 * Vb / d + 8 * K2 / (d * d) + 64 * K4 / (d * d * d * d))%R in
  forall steps, (forall x, In x steps -> fin_le Db (snd x)) ->
  (INR (length steps) * (9 * (Db * rate * (Hb / Hm)) + bpow radix2 (-50)) <= 1 / 2)%R ->
  let layer (b : R) (s : sid) (m : mem (SFA cc ss pp)) :=
    (forall c, 0 <= c < d_ncells (sdims S) -> fin (mr m (HCell s) [c; k]) /\ (Hm <= Rabs (val (mr m (HCell s) [c; k])) <= Hb)%R) /\
    (forall e, 0 <= e < d_nedges (sdims S) -> fin_le Vb (mr m (VnEdge s) [e; k])) /\
    (forall c, 0 <= c < d_ncells (sdims S) -> fin_le b (mr m (TrCell s) [l; c; k])) in
  forall m : mem (SFA cc ss pp), ready S m -> layer (Rb * Hm / 2)%R St m ->
  let within (a b : R) (m' : mem (SFA cc ss pp)) := layer (Rb * Hm)%R St m' /\ (Rabs (ttotal S l k St m' - ttotal S l k St m)
    <= INR (length steps) * IZR (d_ncells (sdims S)) * bpow radix2 (-53) * (Hb * Rb * (a + b * (Db * rate))))%R in
  (layer (Rb * Hm)%R Provis m -> disabled_zero S Tend m -> always (sdims S) (rk4_run S steps) m (within 4 11)%R) /\
  always (sdims S) (lsrk_ctor S ++ lsrk_run S 5 steps) m (within 5 128)%R.
Proof.
  intros cc ss pp S Hok d HX HY Hd1 Hd3 En Ev Eh Ek l k Hl Hk Hm Hb Vb Rb Db K2 K4 HM HH HV HR HD P2 P4 E2 E4 rate steps Hx Hn layer m Hr HB within.
  pose proof (bpow_gt_0 radix2 (-100)) as z1. pose proof eps_pos as EP.
  assert (L2 : (bpow radix2 (-200) <= bpow radix2 (-100))%R) by (apply bpow_le; lia).
  assert (L3 : (bpow radix2 100 <= bpow radix2 200)%R) by (apply bpow_le; lia).
  assert (HH1 : (bpow radix2 (-100) <= Hb <= bpow radix2 100)%R) by lra.
  assert (HH2 : (bpow radix2 (-100) <= Hb <= bpow radix2 200)%R) by lra.
  pose proof (C99_tracer_drift_proof cc ss pp S Hok HX HY Hd1 Hd3 l k Hl Hk Hb Vb Rb Db K2 K4 HH2 ltac:(lra) ltac:(lra) ltac:(lra) ltac:(lra) ltac:(lra) E2 E4 steps Hx m Hr) as G. cbv zeta in G. destruct G as [G4 G5].
  pose proof (TrRun.w_pos d Hd3 Hb Vb Rb HH2 ltac:(lra) ltac:(lra) K2 K4 ltac:(lra) ltac:(lra)) as W.
  fold d in G4, G5. fold rate in G4, G5, W.
  assert (T0 : (0 < Rb * Hm)%R) by (apply Rmult_lt_0_compat; lra).
  assert (FIN : forall a b q, (q <= 52)%nat -> (1.00011 * b <= 9)%R -> (0 <= b)%R -> (0 <= a <= 8)%R ->
    (Rb * Hm / 2 + INR (length steps) * (b * (q64 * q64 ^ q * (Db * (Hb * Rb * rate))) + a * (eps64 * (Rb * Hm))) <= Rb * Hm)%R).
  { intros a b q Hq Hb1 Hb0 Ha.
    assert (E5 : (8 * eps64 = bpow radix2 (-50))%R) by (unfold eps64; replace 8%R with (bpow radix2 3) by (cbn; lra); rewrite <- bpow_plus; reflexivity).
    set (T := (Rb * Hm)%R) in *. set (v := (Db * (Hb * Rb * rate))%R). assert (Ev' : (v = T * (Db * rate * (Hb / Hm)))%R) by (unfold v, T; field; lra).
    assert (V : (0 < v)%R) by (unfold v; apply Rmult_lt_0_compat; lra). pose proof (q_pow52 q v Hq ltac:(lra)) as Q. pose proof q_ub as Q1. pose proof q1 as Q0.
    assert (B0 : (q64 * q64 ^ q * v <= 1.00011 * v)%R).
    { rewrite Rmult_assoc. apply Rle_trans with (q64 * (1.0001 * v))%R; [apply Rmult_le_compat_l; lra|]. apply Rle_trans with (1.000001 * (1.0001 * v))%R; [apply Rmult_le_compat_r; lra|]. lra. }
    assert (B1 : (b * (q64 * q64 ^ q * v) <= 9 * v)%R).
    { apply Rle_trans with (b * (1.00011 * v))%R; [apply Rmult_le_compat_l; [exact Hb0|exact B0]|]. replace (b * (1.00011 * v))%R with (1.00011 * b * v)%R by ring. apply Rmult_le_compat_r; lra. }
    assert (B2 : (a * (eps64 * T) <= T * bpow radix2 (-50))%R).
    { rewrite <- E5. replace (T * (8 * eps64))%R with (8 * (eps64 * T))%R by ring. apply Rmult_le_compat_r; [apply Rmult_le_pos; lra|lra]. }
    assert (B3 : (INR (length steps) * (b * (q64 * q64 ^ q * v) + a * (eps64 * T)) <= T * (1 / 2))%R).
    { apply Rle_trans with (T * (INR (length steps) * (9 * (Db * rate * (Hb / Hm)) + bpow radix2 (-50))))%R; [|apply Rmult_le_compat_l; lra].
      replace (T * (INR (length steps) * (9 * (Db * rate * (Hb / Hm)) + bpow radix2 (-50))))%R with (INR (length steps) * (9 * (T * (Db * rate * (Hb / Hm))) + T * bpow radix2 (-50)))%R by ring.
      rewrite <- Ev'. apply Rmult_le_compat_l; [apply pos_INR|]. lra. }
    lra. }
  assert (TB : forall s m', layer (Rb * Hm)%R s m' -> tbounded S l k Hb Vb Rb s m').
  { intros s m' Hf. apply (fbd_tb cc ss pp S l k Hl Hk Hm Hb Vb Rb Db K2 K4 HM HH1 HV HR HD P2 P4 (Rb * Hm)%R s m' (Rle_refl _) Hf). }
  assert (HB1 : layer (Rb * Hm)%R St m).
  { destruct HB as (B1 & B2 & B3). split; [exact B1|]. split; [exact B2|]. intros c Hc. destruct (B3 c Hc). split; [assumption|lra]. }
  assert (F4 := FIN 4%R 1%R 52%nat ltac:(lia) ltac:(lra) ltac:(lra) ltac:(lra)). assert (F5 := FIN 5%R 8.3%R 51%nat ltac:(lia) ltac:(lra) ltac:(lra) ltac:(lra)).
  split.
  - intros HP HZ. assert (AL : along (sdims S) (rk4_run S steps) m (fun m' => layer (Rb * Hm)%R St m' /\ layer (Rb * Hm)%R Provis m')).
    { apply (TrAdv.adv_rk4_run cc ss pp S Hok HX HY (conj Hd1 Hd3) En Ev Eh Ek l k Hl Hk Hm Hb Vb Rb Db K2 K4 HM HH1 HV HR HD P2 P4 ltac:(lra) E2 E4 steps (Rb * Hm / 2)%R m Hx).
      - fold d. fold rate. replace (q64 ^ 53)%R with (q64 * q64 ^ 52)%R by (cbn [pow]; ring). rewrite Rmult_1_l in F4. exact F4.
      - split; [exact Hr|]. split; [exact HB|]. split; [exact HP|]. split; intros i Hi; [rewrite (proj1 (HZ k Hk) Eh i Hi)|rewrite (proj2 (HZ k Hk) Ev i Hi)]; apply (zero_0 cc ss pp). }
    destruct G4 as [A1 A2].
    { intros ls ls' m1 E Hm1. destruct (AL ls ls' m1 E Hm1). split; now apply TB. }
    split; [|exact A2]. intros o Ho. destruct (A1 o Ho) as (m' & -> & Hm'). exists m'. split; [reflexivity|]. split; [|exact Hm'].
    refine (proj1 (AL _ [] m' _ Ho)). now rewrite app_nil_r.
  - assert (AL : along (sdims S) (lsrk_ctor S ++ lsrk_run S 5 steps) m (layer (Rb * Hm)%R St)).
    { apply (along_fn _ _ _ m _ (lsrk_init_fn S) (hs_lsrk_ctor S m)).
      - apply along_init; [|exact HB1]. intros a m' Ha (H1 & H2 & H3). split; [|split]; intros i Hi; (rewrite upd_other; [auto|]); intros <-; discriminate Ha.
      - apply (TrAdv.adv_lsrk_run cc ss pp S Hok HX HY (conj Hd1 Hd3) En Ev Eh Ek l k Hl Hk Hm Hb Vb Rb Db K2 K4 HM HH1 HV HR HD P2 P4 ltac:(lra) E2 E4 steps (Rb * Hm / 2)%R (lsrk_init_fn S m) Hx).
        + fold d. fold rate. replace (q64 ^ 52)%R with (q64 * q64 ^ 51)%R by (cbn [pow]; ring). exact F5.
        + split; [now apply init_ready|]. split.
          * destruct HB as (B1 & B2 & B3). split; [|split]; intros i Hi; rewrite init_other by reflexivity; auto.
          * split; [split; intros i Hi; [rewrite (proj1 (init_T cc ss pp S m k Hk) i Hi)|rewrite (proj2 (init_T cc ss pp S m k Hk) i Hi)]; apply (zero_0 cc ss pp)|].
            intros c Hc. rewrite (init_Tr cc ss pp S m l c k Hl Hc Hk). destruct (zero_0 cc ss pp) as [Z1 Z2]. split; [exact Z1|]. rewrite Z2, Rabs_R0.
            fold d. fold rate. apply Rmult_le_pos; [lra|]. apply Rmult_le_pos; [apply Rlt_le, qk0|lra]. }
    destruct G5 as [A1 A2].
    { intros ls ls' m1 E Hm1. apply TB. now apply (AL ls ls'). }
    split; [|exact A2]. intros o Ho. destruct (A1 o Ho) as (m' & -> & Hm'). exists m'. split; [reflexivity|]. split; [|exact Hm'].
    refine (AL _ [] m' _ Ho). now rewrite app_nil_r.
Qed.
