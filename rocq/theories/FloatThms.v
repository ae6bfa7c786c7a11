(** Proofs of the theorems of PropsFloat.v. *)
From Coq Require Import ZArith Reals List Bool Lia Lra.
From Coq Require Import Floats.SpecFloat.
From Flocq Require Import Core.Core.
From Verif Require Import Arith Arrays Prog Conc Launch Mesh AuxVars Tend Model Hex MeshProof MeshMem Over Formulas KernBase Terms KernAux KernTend TendFn StepFn Ready Rel RelRun Relate TendVal StepVal StepRun RSum FloatFacts FloatMass FloatRun FloatRest FloatAlong FloatAdv FloatTr.
Import ListNotations.
Open Scope Z_scope.

Section Aux.
Context (cc ss : spec_float -> spec_float) (pp : spec_float).
Local Notation A := (SFA cc ss pp).
Context (S : setup A) (Hok : setup_ok S).
Lemma rng_of (x : R) a b : (bpow radix2 a <= x <= bpow radix2 b)%R -> rng x a b. Proof. exact (fun H => H). Qed.
Lemma init_tot k (m : mem A) : total S k St (lsrk_init_fn S m) = total S k St m.
Proof.
  apply rsum_ext. intros c Hc. unfold lsrk_init_fn. cbv zeta. destruct (0 <? _); now rewrite !upd_other by discriminate.
Qed.
Lemma init_T (m : mem A) k : 0 <= k < d_nlayers (sdims S) ->
  (forall c, 0 <= c < d_ncells (sdims S) -> mr (lsrk_init_fn S m) (HCell Tend) [c; k] = (#0)%fp) /\
  (forall e, 0 <= e < d_nedges (sdims S) -> mr (lsrk_init_fn S m) (VnEdge Tend) [e; k] = (#0)%fp).
Proof.
  intros Hk. unfold lsrk_init_fn. cbv zeta. split; intros i Hi; destruct (0 <? _);
    rewrite ?(upd_other _ (TrCell Tend)) by discriminate.
  1-2: rewrite upd_other by discriminate; apply upd_same; cbn [rext]; apply inb2; split; assumption.
  1-2: apply upd_same; cbn [rext]; apply inb2; split; assumption.
Qed.
Lemma init_Tr (m : mem A) l c k : 0 <= l < ntracers (par_of S) -> 0 <= c < d_ncells (sdims S) -> 0 <= k < d_nlayers (sdims S) ->
  mr (lsrk_init_fn S m) (TrCell Tend) [l; c; k] = (#0)%fp.
Proof.
  intros Hl Hc Hk. unfold lsrk_init_fn. cbv zeta. replace (0 <? ntracers (par_of S)) with true by (symmetry; apply Z.ltb_lt; lia).
  apply upd_same. cbn [rext]. apply inb3. rewrite (d_ntr S). repeat split; tauto || lia.
Qed.
Lemma init_other (m : mem A) a ix : is_st Tend a = false -> mr (lsrk_init_fn S m) a ix = mr m a ix.
Proof.
  intros H. unfold lsrk_init_fn. cbv zeta. destruct (0 <? _); rewrite !upd_other; try reflexivity; intros ->; discriminate H.
Qed.
Lemma hs_ls n steps (m : mem A) : ready S m ->
  hsafe (sdims S) (lsrk_ctor S ++ lsrk_run S n steps) m (fun m' => meq m' (lsrk_run_fn S n steps (lsrk_init_fn S m))).
Proof.
  intros Hr. eapply hsafe_seq; [apply hs_lsrk_ctor|]. apply hs_lsrk_run; auto. apply ready_wfm; auto. eapply ready_cst; [apply cst_init|exact Hr].
Qed.
Lemma init_ready (m : mem A) : ready S m -> ready S (lsrk_init_fn S m). Proof. intros Hr. eapply ready_cst; [apply cst_init|exact Hr]. Qed.
Lemma along_init (Q : mem A -> Prop) (m : mem A) : (forall a m', is_st Tend a = true -> Q m' -> Q (upd (sdims S) a m' (fun _ _ => (#0)%fp))) -> Q m ->
  along (sdims S) (lsrk_ctor S) m Q.
Proof.
  intros HQ H0. unfold lsrk_ctor. cbn [app].
  eapply (along_cons _ _ _ m Q (fun m => upd (sdims S) (HCell Tend) m (fun _ _ => (#0)%fp))); [apply hs_fill|exact H0|]. cbv beta.
  eapply (along_cons _ _ _ _ Q (fun m => upd (sdims S) (VnEdge Tend) m (fun _ _ => (#0)%fp))); [apply hs_fill|now apply HQ|]. cbv beta.
  destruct (0 <? _); cbn [whenL]; [|apply along_nil; apply HQ, HQ; auto].
  eapply (along_one _ _ _ Q (fun m => upd (sdims S) (TrCell Tend) m (fun _ _ => (#0)%fp))); [apply hs_fill|now repeat apply HQ|now repeat apply HQ].
Qed.
Lemma bounded_init k hb vb a m' : is_st Tend a = true -> bounded S k hb vb St m' -> bounded S k hb vb St (upd (sdims S) a m' (fun _ _ => (#0)%fp)).
Proof.
  intros Ha [H1 H2]. split; intros i Hi; (rewrite upd_other; [auto|]); intros <-; discriminate Ha.
Qed.
Lemma zero_0 : FloatRest.zero ((#0)%fp : F A). Proof. destruct (ofZ_val cc ss pp 0 ltac:(lia)) as [H1 H2]. exact (conj H1 H2). Qed.
End Aux.
Lemma q_pow n (r : R) : (n <= 22)%nat -> (0 <= r)%R -> (q64 ^ n * r <= 1.0001 * r)%R.
Proof.
  intros Hn Hr. apply Rmult_le_compat_r; [exact Hr|]. eapply Rle_trans; [apply (qk_mono n 22 Hn)|].
  pose proof q_ub as Q. pose proof q0 as Q0.
  assert (E2 : (q64 ^ 2 <= 1.0000021)%R) by (cbn [pow]; assert (q64 * q64 <= (1 + 1 / 1000000) * (1 + 1 / 1000000))%R by (apply Rmult_le_compat; lra); lra).
  pose proof (qk0 2) as P2. assert (E4 : (q64 ^ 2 * q64 ^ 2 <= 1.0000043)%R) by (assert (q64 ^ 2 * q64 ^ 2 <= 1.0000021 * 1.0000021)%R by (apply Rmult_le_compat; lra); lra).
  set (x := (q64 ^ 2 * q64 ^ 2)%R) in *. assert (P4 : (0 < x)%R) by (apply Rmult_lt_0_compat; lra).
  assert (E8 : (x * x <= 1.0000087)%R) by (assert (x * x <= 1.0000043 * 1.0000043)%R by (apply Rmult_le_compat; lra); lra).
  assert (P8 : (0 < x * x)%R) by (apply Rmult_lt_0_compat; lra).
  assert (E16 : (x * x * (x * x) <= 1.0000175)%R) by (assert (x * x * (x * x) <= 1.0000087 * 1.0000087)%R by (apply Rmult_le_compat; lra); lra).
  assert (P16 : (0 < x * x * (x * x))%R) by (apply Rmult_lt_0_compat; lra).
  assert (E20 : (x * x * (x * x) * x <= 1.000022)%R) by (assert (x * x * (x * x) * x <= 1.0000175 * 1.0000043)%R by (apply Rmult_le_compat; lra); lra).
  assert (P20 : (0 < x * x * (x * x) * x)%R) by (apply Rmult_lt_0_compat; lra).
  replace (q64 ^ 22)%R with (x * x * (x * x) * x * q64 ^ 2)%R by (unfold x; cbn [pow]; ring).
  assert (x * x * (x * x) * x * q64 ^ 2 <= 1.000022 * 1.0000021)%R by (apply Rmult_le_compat; lra). lra.
Qed.

Lemma C82_tendency_mass_error_proof :
  forall (cc ss : spec_float -> spec_float) (pp : spec_float) (S : setup (SFA cc ss pp)), setup_ok S ->
  2 <= nx (mesh_of_setup S) -> 2 <= ny (mesh_of_setup S) ->
  fin (dc (mesh_of_setup S)) -> (bpow radix2 (-200) <= val (dc (mesh_of_setup S)) <= bpow radix2 200)%R ->
  disable_h (par_of S) = false -> hook S = None ->
  forall k, 0 <= k < d_nlayers (sdims S) ->
  forall Hb Vb : R, (bpow radix2 (-200) <= Hb)%R -> (bpow radix2 (-200) <= Vb)%R ->
  forall s time (m : mem (SFA cc ss pp)), s <> Tend -> ready S m -> bounded S k Hb Vb s m ->
  always (sdims S) (compute_tendency S Tend s time Replace) m (fun m' =>
    (forall c, 0 <= c < d_ncells (sdims S) -> fin (mr m' (HCell Tend) [c; k])) ->
    (Rabs (total S k Tend m') <= IZR (d_ncells (sdims S)) * bpow radix2 (-53) * (25 * Hb * Vb / val (dc (mesh_of_setup S))))%R).
Proof.
  intros cc ss pp S Hok HX HY Hd1 Hd3 Eh Ek k Hk Hb Vb HH HV s time m Hs Hr HB.
  apply (always_fn S _ (tendency_fn S Tend s time Replace) m); [now apply rd_tendency|]. intros m' Em. apply meq_eq in Em. subst m'. intros Hf.
  destruct (TI_tend cc ss pp S Hok HX HY _ Hd1 eq_refl Hd3 Eh Ek k Hk Hb Vb HH HV s time m Hr HB) as [_ T2]. destruct (T2 Hf) as [_ T3].
  eapply Rle_trans; [exact T3|]. pose proof (dpos _ Hd3) as Dp. pose proof (bpow_gt_0 radix2 (-200)) as z1. pose proof eps_pos as EP.
  set (d := val (dc (mesh_of_setup S))) in *. assert (HN : 0 < d_ncells (sdims S)) by (cbn; nia).
  assert (W : (0 < Hb * Vb / d)%R) by (apply Rmult_lt_0_compat; [apply Rmult_lt_0_compat; lra|now apply Rinv_0_lt_compat]).
  replace (IZR (nx (mesh_of_setup S) * ny (mesh_of_setup S)) * (6 * eps64 * (q64 ^ 19 * (4 * Hb * Vb / d))))%R
    with (IZR (d_ncells (sdims S)) * eps64 * (24 * (q64 ^ 19 * (Hb * Vb / d))))%R by (change (d_ncells (sdims S)) with (nx (mesh_of_setup S) * ny (mesh_of_setup S)); generalize (IZR (nx (mesh_of_setup S) * ny (mesh_of_setup S))), eps64, (q64 ^ 19)%R; intros; field; lra).
  fold eps64. apply Rmult_le_compat_l; [apply Rmult_le_pos; [apply IZR_le; lia|lra]|].
  pose proof (q_pow 19 (Hb * Vb / d) ltac:(lia) ltac:(lra)). replace (25 * Hb * Vb / d)%R with (25 * (Hb * Vb / d))%R by (field; lra). lra.
Qed.

Lemma C82_mass_drift_proof :
  forall (cc ss : spec_float -> spec_float) (pp : spec_float) (S : setup (SFA cc ss pp)), setup_ok S ->
  2 <= nx (mesh_of_setup S) -> 2 <= ny (mesh_of_setup S) ->
  fin (dc (mesh_of_setup S)) -> (bpow radix2 (-200) <= val (dc (mesh_of_setup S)) <= bpow radix2 200)%R ->
  disable_h (par_of S) = false -> hook S = None ->
  forall k, 0 <= k < d_nlayers (sdims S) ->
  forall Hb Vb Db : R, (bpow radix2 (-200) <= Hb)%R -> (bpow radix2 (-200) <= Vb)%R -> (bpow radix2 (-200) <= Db)%R ->
  forall steps, (forall x, In x steps -> fin_le Db (snd x)) ->
  forall m : mem (SFA cc ss pp), ready S m ->
  let within (a b : R) (m' : mem (SFA cc ss pp)) := (Rabs (total S k St m' - total S k St m)
    <= INR (length steps) * IZR (d_ncells (sdims S)) * bpow radix2 (-53) * (Hb * (a + b * (Db * Vb / val (dc (mesh_of_setup S))))))%R in
  (along (sdims S) (rk4_run S steps) m (fun m' => bounded S k Hb Vb St m' /\ bounded S k Hb Vb Provis m') ->
   always (sdims S) (rk4_run S steps) m (within 4 29)%R) /\
  (along (sdims S) (lsrk_ctor S ++ lsrk_run S 5 steps) m (bounded S k Hb Vb St) ->
   always (sdims S) (lsrk_ctor S ++ lsrk_run S 5 steps) m (within 5 353)%R).
Proof.
  intros cc ss pp S Hok HX HY Hd1 Hd3 Eh Ek k Hk Hb Vb Db HH HV HD steps Hx m Hr within.
  pose proof (dpos _ Hd3) as Dp. pose proof (bpow_gt_0 radix2 (-200)) as z1. pose proof eps_pos as EP.
  assert (HN : 0 < d_ncells (sdims S)) by (cbn; nia).
  assert (FIN : forall a b b' q (x : R), (q <= 22)%nat -> (4.0004 * b <= b')%R -> (0 <= b)%R ->
    (x <= INR (length steps) * (IZR (nx (mesh_of_setup S) * ny (mesh_of_setup S)) * eps64 * (a * Hb + b * (q64 ^ q * (Db * (4 * Hb * Vb / val (dc (mesh_of_setup S))))))))%R ->
    (x <= INR (length steps) * IZR (d_ncells (sdims S)) * bpow radix2 (-53) * (Hb * (a + b' * (Db * Vb / val (dc (mesh_of_setup S))))))%R).
  { intros a b b' q x Hq Hbb Hb0 H. eapply Rle_trans; [exact H|]. set (d := val (dc (mesh_of_setup S))) in *.
    assert (W0 : (0 < Db * Vb / d)%R) by (apply Rmult_lt_0_compat; [apply Rmult_lt_0_compat; lra|now apply Rinv_0_lt_compat]).
    assert (W : (0 < Hb * (Db * Vb / d))%R) by (apply Rmult_lt_0_compat; lra).
    fold eps64. rewrite !(Rmult_assoc (INR (length steps))). apply Rmult_le_compat_l; [apply pos_INR|]. apply Rmult_le_compat_l; [apply Rmult_le_pos; [apply IZR_le; lia|lra]|].
    replace (Db * (4 * Hb * Vb / d))%R with (4 * (Hb * (Db * Vb / d)))%R by (field; lra). replace (Hb * (a + b' * (Db * Vb / d)))%R with (a * Hb + b' * (Hb * (Db * Vb / d)))%R by ring.
    revert W. generalize (Hb * (Db * Vb / d))%R. intros w W. apply Rplus_le_compat_l.
    pose proof (q_pow q (4 * w) Hq ltac:(lra)) as Q. apply Rle_trans with (b * (1.0001 * (4 * w)))%R; [apply Rmult_le_compat_l; [exact Hb0|exact Q]|].
    replace (b * (1.0001 * (4 * w)))%R with (4.0004 * b * w)%R by lra. apply Rmult_le_compat_r; lra. }
  split; intros HA.
  - apply (always_fn S _ (rk4_run_fn S steps) m); [now apply rd_rk4_run|]. intros m' Em. apply meq_eq in Em. subst m'. unfold within.
    apply (FIN 4%R 7%R 29%R 21%nat); [lia|lra|lra|]. now apply (rk4_run_drift cc ss pp S Hok HX HY _ Hd1 eq_refl Hd3 Eh Ek k Hk Hb Vb Db HH HV HD).
  - apply (always_fn S _ (fun m => lsrk_run_fn S 5 steps (lsrk_init_fn S m)) m); [now apply hs_ls|]. intros m' Em. apply meq_eq in Em. subst m'. unfold within.
    apply (along_seq (sdims S) _ _ m _ _ (hs_lsrk_ctor S m)) in HA. rewrite <- (init_tot cc ss pp S k m).
    apply (FIN 5%R 88.2%R 353%R 20%nat); [lia|lra|lra|].
    apply (lsrk_run_drift cc ss pp S Hok HX HY _ Hd1 eq_refl Hd3 Eh Ek k Hk Hb Vb Db HH HV HD); auto; [now apply init_ready|].
    intros c Hc. rewrite (proj1 (init_T cc ss pp S m k Hk)) by exact Hc. apply dbl_ofZ.
Qed.

Lemma C82_frozen_velocity_proof :
  forall (cc ss : spec_float -> spec_float) (pp : spec_float) (S : setup (SFA cc ss pp)), setup_ok S ->
  2 <= nx (mesh_of_setup S) -> 2 <= ny (mesh_of_setup S) ->
  fin (dc (mesh_of_setup S)) -> (bpow radix2 (-100) <= val (dc (mesh_of_setup S)) <= bpow radix2 100)%R ->
  noif (cfg_of S) = false -> disable_vn (par_of S) = true -> disable_h (par_of S) = false -> ntracers (par_of S) = 0 -> hook S = None ->
  forall k, 0 <= k < d_nlayers (sdims S) ->
  forall Hb Vb Db : R, (bpow radix2 (-100) <= Hb <= bpow radix2 100)%R -> (bpow radix2 (-100) <= Vb <= bpow radix2 100)%R ->
  (bpow radix2 (-100) <= Db <= bpow radix2 100)%R ->
  forall steps, (forall x, In x steps -> fin_le Db (snd x)) ->
  (INR (length steps) * (34 * (Db * Vb / val (dc (mesh_of_setup S))) + bpow radix2 (-50)) <= 1 / 2)%R ->
  forall m : mem (SFA cc ss pp), ready S m -> bounded S k (Hb / 2) Vb St m ->
  let within (a b : R) (m' : mem (SFA cc ss pp)) := bounded S k Hb Vb St m' /\ (Rabs (total S k St m' - total S k St m)
    <= INR (length steps) * IZR (d_ncells (sdims S)) * bpow radix2 (-53) * (Hb * (a + b * (Db * Vb / val (dc (mesh_of_setup S))))))%R in
  (bounded S k Hb Vb Provis m -> disabled_zero S Tend m -> always (sdims S) (rk4_run S steps) m (within 4 29)%R) /\
  always (sdims S) (lsrk_ctor S ++ lsrk_run S 5 steps) m (within 5 353)%R.
Proof.
  intros cc ss pp S Hok HX HY Hd1 Hd3 En Ev Eh Et Ek k Hk Hb Vb Db HH HV HD steps Hx Hn m Hr HB within.
  pose proof (bpow_gt_0 radix2 (-100)) as z1. pose proof eps_pos as EP.
  assert (L2 : (bpow radix2 (-200) <= bpow radix2 (-100))%R) by (apply bpow_le; lia).
  assert (L3 : (bpow radix2 100 <= bpow radix2 200)%R) by (apply bpow_le; lia).
  assert (Hdd : (bpow radix2 (-200) <= val (dc (mesh_of_setup S)) <= bpow radix2 200)%R) by lra.
  pose proof (C82_mass_drift_proof cc ss pp S Hok HX HY Hd1 Hdd Eh Ek k Hk Hb Vb Db ltac:(lra) ltac:(lra) ltac:(lra) steps Hx m Hr) as G. cbv zeta in G. destruct G as [G4 G5].
  assert (Dp : (0 < val (dc (mesh_of_setup S)))%R) by lra.
  set (d := val (dc (mesh_of_setup S))) in *.
  assert (W0 : (0 < Db * Vb / d)%R) by (apply Rmult_lt_0_compat; [apply Rmult_lt_0_compat; lra|now apply Rinv_0_lt_compat]).
  assert (FIN : forall a b q, (q <= 22)%nat -> (4.0004 * b <= 34)%R -> (0 <= b)%R -> (0 <= a <= 8)%R ->
    (Hb / 2 + INR (length steps) * (b * (q64 ^ q * (Db * (4 * Hb * Vb / d))) + a * (eps64 * Hb)) <= Hb)%R).
  { intros a b q Hq Hb1 Hb0 Ha. replace (Db * (4 * Hb * Vb / d))%R with (4 * (Hb * (Db * Vb / d)))%R by (field; lra).
    assert (E5 : (8 * eps64 = bpow radix2 (-50))%R) by (unfold eps64; replace 8%R with (bpow radix2 3) by (cbn; lra); rewrite <- bpow_plus; reflexivity).
    set (w := (Db * Vb / d)%R) in *. clearbody w. assert (Hbp : (0 < Hb)%R) by lra. assert (W : (0 < Hb * w)%R) by (apply Rmult_lt_0_compat; lra).
    pose proof (q_pow q (4 * (Hb * w)) Hq ltac:(lra)) as Q.
    assert (B1 : (b * (q64 ^ q * (4 * (Hb * w))) <= 34 * (Hb * w))%R).
    { apply Rle_trans with (b * (1.0001 * (4 * (Hb * w))))%R; [apply Rmult_le_compat_l; [exact Hb0|exact Q]|].
      apply Rle_trans with (4.0004 * b * (Hb * w))%R; [apply Req_le; lra|apply Rmult_le_compat_r; lra]. }
    assert (B2 : (a * (eps64 * Hb) <= Hb * bpow radix2 (-50))%R).
    { rewrite <- E5. replace (Hb * (8 * eps64))%R with (8 * (eps64 * Hb))%R by ring. apply Rmult_le_compat_r; [apply Rmult_le_pos; lra|lra]. }
    assert (B3 : (INR (length steps) * (b * (q64 ^ q * (4 * (Hb * w))) + a * (eps64 * Hb)) <= Hb * (1 / 2))%R).
    { apply Rle_trans with (Hb * (INR (length steps) * (34 * w + bpow radix2 (-50))))%R; [|apply Rmult_le_compat_l; lra].
      replace (Hb * (INR (length steps) * (34 * w + bpow radix2 (-50))))%R with (INR (length steps) * (34 * (Hb * w) + Hb * bpow radix2 (-50)))%R by ring.
      apply Rmult_le_compat_l; [apply pos_INR|]. lra. }
    lra. }
  split.
  - intros HP HZ. assert (AL : along (sdims S) (rk4_run S steps) m (fun m' => bounded S k Hb Vb St m' /\ bounded S k Hb Vb Provis m')).
    { apply (adv_rk4_run cc ss pp S Hok HX HY (conj Hd1 Hd3) En Ev Eh Et Ek k Hk Hb Vb Db HH HV HD steps (Hb / 2) m Hx).
      - fold d. pose proof (FIN 4%R 1%R 22%nat ltac:(lia) ltac:(lra) ltac:(lra) ltac:(lra)). lra.
      - split; [exact Hr|]. split; [exact HB|]. split; [exact HP|]. intros e He. rewrite (proj2 (HZ k Hk) Ev e He). apply (zero_0 cc ss pp). }
    destruct (G4 AL) as [A1 A2]. split; [|exact A2]. intros o Ho. destruct (A1 o Ho) as (m' & -> & Hm'). exists m'. split; [reflexivity|]. split; [|exact Hm'].
    refine (proj1 (AL _ [] m' _ Ho)). now rewrite app_nil_r.
  - assert (AL : along (sdims S) (lsrk_ctor S ++ lsrk_run S 5 steps) m (bounded S k Hb Vb St)).
    { apply (along_fn _ _ _ m _ (lsrk_init_fn S) (hs_lsrk_ctor S m)).
      - apply along_init; [intros a m' Ha; now apply bounded_init|]. destruct HB as [B1 B2]. split; [|exact B2]. intros c Hc. destruct (B1 c Hc). split; [assumption|lra].
      - apply (adv_lsrk_run cc ss pp S Hok HX HY (conj Hd1 Hd3) En Ev Eh Et Ek k Hk Hb Vb Db HH HV HD steps (Hb / 2) (lsrk_init_fn S m) Hx).
        + fold d. apply (FIN 5%R 8.3%R 21%nat); [lia|lra|lra|lra].
        + split; [now apply init_ready|]. split.
          * destruct HB as [B1 B2]. split; intros i Hi; rewrite init_other by reflexivity; auto.
          * split; [intros e He; rewrite (proj2 (init_T cc ss pp S m k Hk) e He); apply (zero_0 cc ss pp)|].
            intros c Hc. rewrite (proj1 (init_T cc ss pp S m k Hk) c Hc). destruct (zero_0 cc ss pp) as [Z1 Z2]. split; [exact Z1|]. rewrite Z2, Rabs_R0.
            fold d. apply Rmult_le_pos; [lra|]. apply Rmult_le_pos; [apply Rlt_le, qk0|]. apply Rmult_le_pos; [|apply Rlt_le, Rinv_0_lt_compat; lra].
            apply Rmult_le_pos; [apply Rmult_le_pos; lra|lra]. }
    destruct (G5 AL) as [A1 A2]. split; [|exact A2]. intros o Ho. destruct (A1 o Ho) as (m' & -> & Hm'). exists m'. split; [reflexivity|]. split; [|exact Hm'].
    refine (AL _ [] m' _ Ho). now rewrite app_nil_r.
Qed.

Lemma C83_lake_at_rest_bit_for_bit_proof :
  forall (cc ss : spec_float -> spec_float) (pp : spec_float) (S : setup (SFA cc ss pp)), setup_ok S ->
  let size (n : Z) (x : spec_float) := fin x /\ (Rabs (val x) <= bpow radix2 n)%R in
  let normal (x : spec_float) := fin x /\ (bpow radix2 (-100) <= val x <= bpow radix2 100)%R in
  normal (dc (mesh_of_setup S)) -> size 100 (f0 (par_of S)) -> size 100 (grav (par_of S)) ->
  size 100 (visc_del2 (par_of S)) -> size 100 (visc_del4 (par_of S)) -> hook S = None ->
  forall H : Z -> spec_float, (forall k, 0 <= k < d_nlayers (sdims S) -> normal (H k)) ->
  forall steps : list (spec_float * spec_float), (forall x, In x steps -> size 200 (snd x)) ->
  let at_rest (m : mem (SFA cc ss pp)) := forall k, 0 <= k < d_nlayers (sdims S) ->
    (forall c, 0 <= c < d_ncells (sdims S) -> mr m (HCell St) [c; k] = H k) /\
    (forall e, 0 <= e < d_nedges (sdims S) -> exists sign, mr m (VnEdge St) [e; k] = S754_zero sign) in
  forall m : mem (SFA cc ss pp), ready S m -> at_rest m ->
  (disabled_zero S Tend m -> always (sdims S) (rk4_run S steps) m at_rest) /\
  (forall nstages, always (sdims S) (lsrk_ctor S ++ lsrk_run S nstages steps) m at_rest).
Proof.
  intros cc ss pp S Hok size normal Hdc Hf Hg H2 H4 Ek H HH steps Hx at_rest m Hr HR.
  assert (E1 : resting cc ss pp S H St m).
  { intros k Hk. destruct (HR k Hk) as [R1 R2]. split; [exact R1|]. intros e He. destruct (R2 e He) as (sg & E). rewrite E. split; [split; exact eq_refl|exact eq_refl]. }
  assert (E2 : forall m', resting cc ss pp S H St m' -> at_rest m').
  { intros m' G k Hk. destruct (G k Hk) as [R1 R2]. split; [exact R1|]. intros e He. exact (zero_cases _ (R2 e He)). }
  split.
  - intros HZ. apply (always_fn S _ (rk4_run_fn S steps) m); [now apply rd_rk4_run|]. intros m' Em. apply meq_eq in Em. subst m'. apply E2.
    apply (rest_rk4_run cc ss pp S Hok Hdc Hf Hg H2 H4 Ek H HH steps m Hx Hr E1).
    intros k Hk. destruct (HZ k Hk) as [Z1 Z2]. split; intros Ed i Hi; [rewrite (Z1 Ed i Hi)|rewrite (Z2 Ed i Hi)]; apply (zero_0 cc ss pp).
  - intros n. apply (always_fn S _ (fun m => lsrk_run_fn S n steps (lsrk_init_fn S m)) m); [now apply hs_ls|]. intros m' Em. apply meq_eq in Em. subst m'. apply E2.
    apply (rest_lsrk_run cc ss pp S Hok Hdc Hf Hg H2 H4 Ek H HH n steps (lsrk_init_fn S m) Hx); [now apply init_ready| |].
    + intros k Hk. destruct (E1 k Hk) as [R1 R2]. split; intros i Hi; rewrite init_other by reflexivity; auto.
    + intros k Hk. split; intros i Hi; [rewrite (proj1 (init_T cc ss pp S m k Hk) i Hi)|rewrite (proj2 (init_T cc ss pp S m k Hk) i Hi)]; apply (zero_0 cc ss pp).
Qed.

Lemma C83_uniform_tracers_bit_for_bit_proof :
  forall (cc ss : spec_float -> spec_float) (pp : spec_float) (S : setup (SFA cc ss pp)), setup_ok S ->
  let size (n : Z) (x : spec_float) := fin x /\ (Rabs (val x) <= bpow radix2 n)%R in
  let normal (x : spec_float) := fin x /\ (bpow radix2 (-100) <= val x <= bpow radix2 100)%R in
  normal (dc (mesh_of_setup S)) -> size 100 (f0 (par_of S)) -> size 100 (grav (par_of S)) ->
  size 100 (visc_del2 (par_of S)) -> size 100 (visc_del4 (par_of S)) -> size 100 (eddy_diff2 (par_of S)) -> size 100 (eddy_diff4 (par_of S)) ->
  hook S = None ->
  forall H : Z -> spec_float, (forall k, 0 <= k < d_nlayers (sdims S) -> normal (H k)) ->
  forall T : Z -> Z -> spec_float, (forall l k, 0 <= l < ntracers (par_of S) -> 0 <= k < d_nlayers (sdims S) -> size 100 (T l k)) ->
  forall steps : list (spec_float * spec_float), (forall x, In x steps -> size 200 (snd x)) ->
  let same (x y : spec_float) := x = y \/ exists a b, x = S754_zero a /\ y = S754_zero b in
  let at_rest (m : mem (SFA cc ss pp)) := forall k, 0 <= k < d_nlayers (sdims S) ->
    (forall c, 0 <= c < d_ncells (sdims S) -> mr m (HCell St) [c; k] = H k) /\
    (forall e, 0 <= e < d_nedges (sdims S) -> exists sign, mr m (VnEdge St) [e; k] = S754_zero sign) /\
    (forall l c, 0 <= l < ntracers (par_of S) -> 0 <= c < d_ncells (sdims S) -> same (mr m (TrCell St) [l; c; k]) (T l k)) in
  forall m : mem (SFA cc ss pp), ready S m -> at_rest m ->
  (disabled_zero S Tend m -> always (sdims S) (rk4_run S steps) m at_rest) /\
  (forall nstages, always (sdims S) (lsrk_ctor S ++ lsrk_run S nstages steps) m at_rest).
Proof.
  intros cc ss pp S Hok size normal Hdc Hf Hg H2 H4 Hk2 Hk4 Ek H HH T HT steps Hx same at_rest m Hr HR.
  assert (Es : forall x y, same x y <-> eqz x y).
  { intros x y. split; intros [E|E]; try (now left); right; [destruct E as (a & b & -> & ->); split; (split; [split; exact eq_refl|exact eq_refl])|].
    destruct E as [E1 E2]. destruct (zero_cases _ E1) as [a ->], (zero_cases _ E2) as [b ->]. eauto. }
  assert (E1 : rr cc ss pp S H T St m).
  { split.
    - intros k Hk. destruct (HR k Hk) as (R1 & R2 & _). split; [exact R1|]. intros e He. destruct (R2 e He) as (sg & E). rewrite E. split; [split; exact eq_refl|exact eq_refl].
    - intros l k Hl Hk c Hc. apply Es. now apply (HR k Hk). }
  assert (E2 : forall m', rr cc ss pp S H T St m' -> at_rest m').
  { intros m' [G G'] k Hk. destruct (G k Hk) as [R1 R2]. split; [exact R1|]. split; [intros e He; exact (zero_cases _ (R2 e He))|].
    intros l c Hl Hc. apply Es. now apply G'. }
  split.
  - intros HZ. apply (always_fn S _ (rk4_run_fn S steps) m); [now apply rd_rk4_run|]. intros m' Em. apply meq_eq in Em. subst m'. apply E2.
    apply (rr_rk4_run cc ss pp S Hok Hdc Hf Hg H2 H4 Hk2 Hk4 Ek H HH T HT steps m Hx Hr E1).
    intros k Hk. destruct (HZ k Hk) as [Z1 Z2]. split; intros Ed i Hi; [rewrite (Z1 Ed i Hi)|rewrite (Z2 Ed i Hi)]; apply (zero_0 cc ss pp).
  - intros n. apply (always_fn S _ (fun m => lsrk_run_fn S n steps (lsrk_init_fn S m)) m); [now apply hs_ls|]. intros m' Em. apply meq_eq in Em. subst m'. apply E2.
    apply (rr_lsrk_run cc ss pp S Hok Hdc Hf Hg H2 H4 Hk2 Hk4 Ek H HH T HT n steps (lsrk_init_fn S m) Hx); [now apply init_ready| |].
    + destruct E1 as [R1 R2]. split.
      * intros k Hk. destruct (R1 k Hk). split; intros i Hi; rewrite init_other by reflexivity; auto.
      * intros l k Hl Hk c Hc. rewrite init_other by reflexivity. now apply R2.
    + split.
      * intros k Hk. split; intros i Hi; [rewrite (proj1 (init_T cc ss pp S m k Hk) i Hi)|rewrite (proj2 (init_T cc ss pp S m k Hk) i Hi)]; apply (zero_0 cc ss pp).
      * intros l k Hl Hk c Hc. rewrite (init_Tr cc ss pp S m l c k Hl Hc Hk). apply (zero_0 cc ss pp).
Qed.

