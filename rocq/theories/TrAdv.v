(** Binary64 runs that move the tracers through a layer whose thickness and velocity do not change: every number stays finite
    and within known bounds. *)
From Coq Require Import ZArith Reals List Bool Lia Lra.
From Coq Require Import Floats.SpecFloat.
From Flocq Require Import Core.Core IEEE754.BinarySingleNaN.
From Verif Require Import Arith Arrays Prog Conc Launch Mesh AuxVars Tend Model Hex MeshProof MeshMem Over Formulas KernBase Terms KernAux KernTend TendFn StepFn Ready Rel RelRun Relate TendVal StepVal StepRun MeshFacts MeshR RSum FloatFacts FloatMass FloatRun FloatRest FloatAlong FloatAdv TrFloat TrFlux TrRun TrAlong.
Import ListNotations.
Open Scope Z_scope.

Section Num.
Context (cc ss : spec_float -> spec_float) (pp : spec_float).
Local Notation A := (SFA cc ss pp).
Lemma add_z (x y : F A) : fin x -> zero y -> fin (x + y)%fp /\ val (x + y)%fp = val x.
Proof.
  intros Fx [Fy Ey]. pose proof (rnd_val x (fin_dbl _ Fx)) as E. destruct (add_ok cc ss pp x y Fx Fy) as [G1 G2].
  - rewrite Ey, Rplus_0_r. unfold small. rewrite E. apply fin_ex in Fx as (z & -> & Fz). rewrite val_B. apply abs_B2R_lt_emax.
  - split; [exact G1|]. now rewrite G2, Ey, Rplus_0_r, E.
Qed.
Lemma lek_bd (x : F A) i a r b : lek cc ss pp x i a r -> fin x -> (i <= 60)%nat -> (r <= bpow radix2 b)%R -> bd (1 + b) x.
Proof.
  intros (_ & L & H) Fx Hi Hr. split; [exact Fx|]. eapply Rle_trans; [apply (H Fx)|]. rewrite bpow_plus. change (bpow radix2 1) with 2%R. pose proof (bpow_gt_0 radix2 a).
  apply Rmult_le_compat; [apply Rlt_le, qk0|lra| |exact Hr]. apply qk_2. lia.
Qed.
(** Six terms. *)
Lemma sub6 (p : Z -> F A) b : (forall j, 0 <= j < 6 -> bd b (p j)) -> -900 <= b <= 990 -> bd (b + 6) (iterZ 6 (fun j (a : F A) => (a - p j)%fp) (#0)%fp).
Proof.
  intros PC Hb. change (iterZ 6 (fun j (a : F A) => (a - p j)%fp) (#0)%fp) with ((#0 - p 0 - p 1 - p 2 - p 3 - p 4 - p 5) : F A)%fp.
  assert (St : forall i (x : F A) j, 0 <= i < 6 -> 0 <= j < 6 -> bd (b + i) x -> bd (b + (i + 1)) (x - p j)%fp).
  { intros i x j Hi Hj Hx. replace (b + (i + 1)) with (Z.max (b + i) b + 1) by lia. apply (bd_sub cc ss pp); [exact Hx|now apply PC|split; lia]. }
  apply (St 5); try lia. apply (St 4); try lia. apply (St 3); try lia. apply (St 2); try lia. apply (St 1); try lia. apply (St 0); try lia. apply zero_bd, z0.
Qed.
Lemma add6 (p : Z -> F A) b : (forall j, 0 <= j < 6 -> bd b (p j)) -> -900 <= b <= 990 -> bd (b + 6) (iterZ 6 (fun j (a : F A) => (a + p j)%fp) (#0)%fp).
Proof.
  intros PC Hb. change (iterZ 6 (fun j (a : F A) => (a + p j)%fp) (#0)%fp) with ((#0 + p 0 + p 1 + p 2 + p 3 + p 4 + p 5) : F A)%fp.
  assert (St : forall i (x : F A) j, 0 <= i < 6 -> 0 <= j < 6 -> bd (b + i) x -> bd (b + (i + 1)) (x + p j)%fp).
  { intros i x j Hi Hj Hx. replace (b + (i + 1)) with (Z.max (b + i) b + 1) by lia. apply (bd_add cc ss pp); [exact Hx|now apply PC|split; lia]. }
  apply (St 5); try lia. apply (St 4); try lia. apply (St 3); try lia. apply (St 2); try lia. apply (St 1); try lia. apply (St 0); try lia. apply zero_bd, z0.
Qed.
End Num.

Section Adv.
Context (cc ss : spec_float -> spec_float) (pp : spec_float).
Local Notation A := (SFA cc ss pp).
Context (S : setup A) (Hok : setup_ok S).
Local Notation cf := (cfg_of S).
Local Notation P := (par_of S).
Local Notation D := (sdims S).
Local Notation h := (mesh_of_setup S).
Local Notation NC := (nx h * ny h).
Local Notation aux := (aux_fn cf D).
Implicit Types (m n : mem A).
Context (HX : 2 <= nx h) (HY : 2 <= ny h).
Context (Hdc : ps (-100) 100 (dc h)).
Context (En : noif cf = false) (Ev : disable_vn P = true) (Eh : disable_h P = true) (Ek : hook S = None).
Context (l k : Z) (Hl : 0 <= l < ntracers P) (Hk : 0 <= k < d_nlayers D).
Local Notation d := (val (dc h)).
Context (Hm Hb Vb Rb Db K2 K4 : R) (HM : (bpow radix2 (-100) <= Hm)%R) (HH : (bpow radix2 (-100) <= Hb <= bpow radix2 100)%R)
  (HV : (bpow radix2 (-100) <= Vb <= bpow radix2 100)%R) (HR : (bpow radix2 (-100) <= Rb <= bpow radix2 100)%R) (HD : (bpow radix2 (-100) <= Db <= bpow radix2 100)%R)
  (P2 : (0 <= K2 <= bpow radix2 100)%R) (P4 : (0 <= K4 <= bpow radix2 100)%R) (HMb : (Hm <= Hb)%R).
Context (E2 : tracer_diff_enabled P = true -> fin_le K2 (eddy_diff2 P) /\ (bpow radix2 (-100) <= K2)%R).
Context (E4 : tracer_hyperdiff_enabled P = true -> fin_le K4 (eddy_diff4 P) /\ (bpow radix2 (-100) <= K4)%R).
Local Notation T := (Rb * Hm)%R.
Local Notation w := (Hb * Rb * (4 * Vb / d + 8 * K2 / (d * d) + 64 * K4 / (d * d * d * d)))%R.
Local Notation M := (q64 ^ 50 * w)%R.
Lemma rngd : rng d (-100) 100. Proof. exact (proj2 Hdc). Qed.
Lemma fin_dc : fin (dc h). Proof. apply Hdc. Qed.
Lemma dpos : (0 < d)%R. Proof. exact (rng_pos _ _ _ rngd). Qed.
Lemma HH' : (bpow radix2 (-100) <= Hb <= bpow radix2 200)%R.
Proof. destruct HH as [H1 H2]. split; [exact H1|]. eapply Rle_trans; [exact H2|]. now apply bpow_le. Qed.
Lemma HD' : (bpow radix2 (-200) <= Db)%R. Proof. destruct HD as [H _]. eapply Rle_trans; [|exact H]. now apply bpow_le. Qed.
Lemma T_rng : (bpow radix2 (-200) <= T <= bpow radix2 200)%R.
Proof.
  pose proof (bpow_gt_0 radix2 (-100)). change (-200) with (-100 + -100). change 200 with (100 + 100). rewrite !bpow_plus. split; apply Rmult_le_compat; lra.
Qed.
Lemma M_up : (M <= bpow radix2 709)%R.
Proof.
  pose proof dpos as Dp. pose proof (bpow_gt_0 radix2 (-100)) as z1. pose proof (bpow_gt_0 radix2 100) as z2. destruct rngd as [r1 r2].
  pose proof HH as H0. pose proof HV as H1. pose proof HR as H2. pose proof P2 as H3. pose proof P4 as H4.
  assert (I : (/ d <= bpow radix2 100)%R). { change 100 with (- (-100)). rewrite bpow_opp. apply Rinv_le_contravar; assumption. }
  assert (I0 : (0 < / d)%R) by now apply Rinv_0_lt_compat. set (i := (/ d)%R) in *. set (b := bpow radix2 100) in *.
  assert (I2 : (i * i <= b * b)%R) by (apply Rmult_le_compat; lra). assert (I20 : (0 < i * i)%R) by (apply Rmult_lt_0_compat; lra).
  assert (I4 : (i * i * (i * i) <= b * b * (b * b))%R) by (apply Rmult_le_compat; lra). assert (I40 : (0 < i * i * (i * i))%R) by (apply Rmult_lt_0_compat; lra).
  assert (B1 : (1 <= b)%R) by (unfold b; change 1%R with (bpow radix2 0); apply bpow_le; lia).
  set (b5 := bpow radix2 500). assert (E5 : (b5 = b * (b * b * (b * b)))%R) by (unfold b5, b; rewrite <- !bpow_plus; reflexivity).
  assert (L1 : (Vb * i <= b5)%R).
  { apply Rle_trans with (b * b)%R; [apply Rmult_le_compat; lra|]. unfold b5, b. rewrite <- bpow_plus. now apply bpow_le. }
  assert (L2 : (K2 * (i * i) <= b5)%R).
  { apply Rle_trans with (b * (b * b))%R; [apply Rmult_le_compat; lra|]. unfold b5, b. rewrite <- !bpow_plus. now apply bpow_le. }
  assert (L4 : (K4 * (i * i * (i * i)) <= b5)%R) by (rewrite E5; apply Rmult_le_compat; lra).
  assert (LV : (0 <= Vb * i)%R) by (apply Rmult_le_pos; lra). assert (LK2 : (0 <= K2 * (i * i))%R) by (apply Rmult_le_pos; lra).
  assert (LK4 : (0 <= K4 * (i * i * (i * i)))%R) by (apply Rmult_le_pos; lra).
  replace (4 * Vb / d + 8 * K2 / (d * d) + 64 * K4 / (d * d * d * d))%R with (4 * (Vb * i) + 8 * (K2 * (i * i)) + 64 * (K4 * (i * i * (i * i))))%R by (unfold i; field; lra).
  assert (TT : (0 <= Hb * Rb <= bpow radix2 200)%R).
  { split; [apply Rmult_le_pos; lra|]. change 200 with (100 + 100). rewrite bpow_plus. fold b. apply Rmult_le_compat; lra. }
  change 709 with (1 + (200 + 508)). rewrite bpow_plus. change (bpow radix2 1) with 2%R. apply Rmult_le_compat; [apply Rlt_le, qk0| | |].
  - apply Rmult_le_pos; lra.
  - apply qk_2. lia.
  - rewrite bpow_plus. apply Rmult_le_compat; try lra. change 508 with (8 + 500). rewrite bpow_plus. fold b5. change (bpow radix2 8) with 256%R. lra.
Qed.
Lemma M_lo : (bpow radix2 (-700) <= M)%R.
Proof. destruct HH, HV, HR, P2, P4. exact (TrRun.M_low cc ss pp S d rngd l k Hl Hk Hb Vb Rb HH' ltac:(assumption) ltac:(assumption) K2 K4 ltac:(assumption) ltac:(assumption)). Qed.
Lemma w_posit : (0 < w)%R.
Proof. destruct HH, HV, HR, P2, P4. exact (TrRun.w_pos d rngd Hb Vb Rb HH' ltac:(assumption) ltac:(assumption) K2 K4 ltac:(assumption) ltac:(assumption)). Qed.

(** A layer with thicknesses between [Hm] and [Hb], velocities at most [Vb] and tracers at most [tb], in absolute value. *)
Definition fbd (tb : R) (s : sid) n : Prop :=
  (forall c, 0 <= c < NC -> fin (mr n (HCell s) [c; k]) /\ (Hm <= Rabs (val (mr n (HCell s) [c; k])) <= Hb)%R) /\
  (forall e, 0 <= e < 3 * NC -> fin_le Vb (mr n (VnEdge s) [e; k])) /\
  (forall c, 0 <= c < NC -> fin_le tb (mr n (TrCell s) [l; c; k])).
Lemma fbd_tb tb s n : (tb <= T)%R -> fbd tb s n -> tbounded S l k Hb Vb Rb s n.
Proof.
  intros Ht (B1 & B2 & B3). split; [|split; [exact B2|]]; intros c Hc; destruct (B1 c Hc) as (F1 & L1 & U1).
  - split; [split; [exact F1|exact U1]|]. eapply Rle_trans; [|exact L1]. eapply Rle_trans; [|exact HM]. now apply bpow_le.
  - destruct (B3 c Hc) as [F3 L3]. split; [exact F3|]. eapply Rle_trans; [exact L3|]. eapply Rle_trans; [exact Ht|]. pose proof (bpow_gt_0 radix2 (-100)). apply Rmult_le_compat_l; lra.
Qed.

(** ** Finite tendencies *)
Ltac okk := split; lia.
Section Fin.
Context (tb : R) (s : sid) (n : mem A) (Ht : (tb <= T)%R) (Hr : ready S n) (HB : fbd tb s n).
Local Notation c0 := (fun e => mi n CellsOnEdge [e; 0]).
Local Notation c1 := (fun e => mi n CellsOnEdge [e; 1]).
Lemma coe e i : 0 <= e < 3 * NC -> 0 <= i < 2 -> 0 <= mi n CellsOnEdge [e; i] < NC.
Proof. intros He Hi. rewrite (hm_coe _ _ _ (ready_hex S Hok n Hr)) by assumption. apply hcoe_range; lia. Qed.
Lemma TB : tbounded S l k Hb Vb Rb s n. Proof. now apply (fbd_tb tb). Qed.
Lemma bd_mean e : 0 <= e < 3 * NC -> bd 100 (f_mean n s e k).
Proof.
  intros He. destruct HB as (B1 & _). unfold f_mean.
  assert (Hh : forall c, 0 <= c < NC -> bd 100 (mr n (HCell s) [c; k])) by (intros c Hc; destruct (B1 c Hc) as (f1 & f2 & f3); split; [exact f1|]; destruct HH; lra).
  apply (bd_mul cc ss pp (-1) 101); [apply (ps_bd _ _ _ (ps_half cc ss pp))| |okk]. apply (bd_add cc ss pp 100 100); [apply Hh, coe; lia|apply Hh, coe; lia|okk].
Qed.
Lemma bd_v e : 0 <= e < 3 * NC -> bd 100 (mr n (VnEdge s) [e; k]).
Proof. intros He. destruct HB as (_ & B2 & _). destruct (B2 e He) as [f1 f2]. split; [exact f1|]. destruct HV; lra. Qed.
Lemma bd_ntr c : 0 <= c < NC -> bd 101 (f_ntr n s l c k).
Proof.
  intros Hc. destruct HB as (B1 & _ & B3). destruct (B1 c Hc) as (F1 & L1 & U1). destruct (B3 c Hc) as [F3 L3]. pose proof (bpow_gt_0 radix2 (-100)) as z1.
  apply (lek_bd cc ss pp _ 2 (-100) Rb 100); [| |lia|apply HR].
  - apply (lek_ntr cc ss pp S s l k n Hl Hk Hb Vb Rb HH' (proj1 HR) TB c Hc).
  - unfold f_ntr. apply (bd_fin (200 + 100)). destruct (ofZ_val cc ss pp 1 ltac:(reflexivity)) as [F0 E0].
    assert (Ny : val (mr n (HCell s) [c; k]) <> 0%R) by (intros E; rewrite E, Rabs_R0 in L1; lra).
    assert (Bi : (Rabs (val (@fofZ A 1) / val (mr n (HCell s) [c; k])) <= bpow radix2 100)%R).
    { rewrite E0. unfold Rdiv. rewrite Rmult_1_l, Rabs_inv. change 100 with (- -100). rewrite bpow_opp. apply Rinv_le_contravar; lra. }
    apply (bd_mul cc ss pp 200 100); [split; [exact F3|pose proof T_rng; lra]| |okk].
    destruct (div_ok cc ss pp (#1)%fp _ F0 F1 Ny) as [G1 G2]; [apply (small_bd 100); [okk|exact Bi]|]. split; [exact G1|]. rewrite G2. now apply rnd_bd.
Qed.
Lemma bd_tm e : 0 <= e < 3 * NC -> bd 101 (tm cc ss pp S s l k n e).
Proof.
  intros He. unfold tm. cbv zeta. assert (X : bd 102 (f_ntr n s l (mi n CellsOnEdge [e; 0%Z]) k + f_ntr n s l (mi n CellsOnEdge [e; 1%Z]) k)%fp)
    by (apply (bd_add cc ss pp 101 101); [apply bd_ntr, coe; lia|apply bd_ntr, coe; lia|okk]).
  destruct (ksimd cf); [apply (bd_mul cc ss pp (-1) 102)|apply (bd_mul cc ss pp 102 (-1))]; auto; try okk; apply (ps_bd _ _ _ (ps_half cc ss pp)).
Qed.
Lemma bd_gr e : 0 <= e < 3 * NC -> bd 202 (gr cc ss pp S s l k n e).
Proof.
  intros He. unfold gr. apply (bd_mul cc ss pp 102 100); [|apply (ps_bd _ _ _ (psx_idc cc ss pp S Hdc))|okk].
  apply (bd_sub cc ss pp 101 101); [apply bd_ntr, coe; lia|apply bd_ntr, coe; lia|okk].
Qed.
Lemma bd_g z : z = 1 \/ z = -1 -> bd 301 (gg cc ss pp S * fofZ z)%fp.
Proof.
  intros Hz. apply (bd_mul cc ss pp 301 0); [|now apply bd_sign|okk]. unfold gg.
  apply (bd_mul cc ss pp 100 201); [apply (ps_bd _ _ _ (psx_dve cc ss pp S Hdc))|apply (ps_bd _ _ _ (psx_ia cc ss pp S Hdc))|okk].
Qed.
Lemma bd_geo (kap : F A) z : bd 100 kap -> z = 1 \/ z = -1 -> bd 401 (kap * (#1 / hareac h) * hdve h * fofZ z)%fp.
Proof.
  intros Hkap Hz. apply (bd_mul cc ss pp 401 0); [|now apply bd_sign|okk]. apply (bd_mul cc ss pp 301 100); [|apply (ps_bd _ _ _ (psx_dve cc ss pp S Hdc))|okk].
  apply (bd_mul cc ss pp 100 201); [exact Hkap|apply (ps_bd _ _ _ (psx_ia cc ss pp S Hdc))|okk].
Qed.
Lemma bd_1 : bd 0 (@fofZ A 1). Proof. apply bd_sign. auto. Qed.
Lemma edg c j : 0 <= c < NC -> 0 <= j < 6 -> 0 <= hE (nx h) (ny h) c j < 3 * NC. Proof. intros. apply hE_range; lia. Qed.
Lemma sgn c j : hesc h c j = 1 \/ hesc h c j = -1. Proof. unfold hesc. destruct (_ =? _); auto. Qed.
Lemma bd_fa c : 0 <= c < NC -> bd 608 (fa cc ss pp S s l k n c).
Proof.
  intros Hc. apply (sub6 cc ss pp (fun j => pa cc ss pp S s l k n (hE (nx h) (ny h) c j) (hesc h c j)) 602); [|lia]. intros j Hj. pose proof (edg c j Hc Hj) as He. unfold pa.
  apply (bd_mul cc ss pp 502 100); [|now apply bd_v|okk]. apply (bd_mul cc ss pp 401 101); [|now apply bd_tm|okk].
  apply (bd_mul cc ss pp 301 100); [apply bd_g, sgn|now apply bd_mean|okk].
Qed.
Lemma bd_fd c : fin_le K2 (eddy_diff2 P) -> 0 <= c < NC -> bd 709 (fd cc ss pp S s l k n c).
Proof.
  intros [Fk Bk] Hc. assert (BK : bd 100 (eddy_diff2 P)) by (split; [exact Fk|destruct P2; lra]).
  apply (add6 cc ss pp (fun j => pd cc ss pp S s l k n (hE (nx h) (ny h) c j) (hesc h c j)) 703); [|lia]. intros j Hj. pose proof (edg c j Hc Hj) as He.
  unfold pd. cbv zeta. pose proof (bd_geo (eddy_diff2 P) (hesc h c j) BK (sgn c j)) as G. destruct (ksimd cf).
  - apply (bd_mul cc ss pp 501 202); [|now apply bd_gr|okk]. apply (bd_mul cc ss pp 401 100); [|now apply bd_mean|okk]. apply (bd_mul cc ss pp 401 0); [exact G|apply bd_1|okk].
  - apply (bd_mul cc ss pp 501 202); [|now apply bd_gr|okk]. apply (bd_mul cc ss pp 501 0); [|apply bd_1|okk]. apply (bd_mul cc ss pp 401 100); [exact G|now apply bd_mean|okk].
Qed.
Lemma bd_del2 c : 0 <= c < NC -> bd 404 (del2 cc ss pp S s l k n c).
Proof.
  intros Hc. apply (lek_bd cc ss pp _ 25 (-402) (8 * Hb * Rb / (d * d)) 403); [exact (lek_del2 cc ss pp S Hok HX HY d fin_dc eq_refl rngd s l k n Hr Hl Hk Hb Vb Rb HH' (proj1 HR) TB c Hc)| |lia|].
  - apply (bd_fin 609). apply (add6 cc ss pp (fun j => p2 cc ss pp S s l k n (hE (nx h) (ny h) c j) (hesc h c j)) 603); [|lia]. intros j Hj. pose proof (edg c j Hc Hj) as He. unfold p2.
    apply (bd_mul cc ss pp 401 202); [|now apply bd_gr|okk]. apply (bd_mul cc ss pp 301 100); [apply bd_g, sgn|now apply bd_mean|okk].
  - pose proof dpos as Dp. pose proof (bpow_gt_0 radix2 (-100)) as z1. destruct rngd as [r1 r2].
    assert (I : (/ d <= bpow radix2 100)%R). { change 100 with (- (-100)). rewrite bpow_opp. apply Rinv_le_contravar; assumption. }
    assert (I0 : (0 < / d)%R) by now apply Rinv_0_lt_compat. replace (8 * Hb * Rb / (d * d))%R with (8 * (Hb * Rb * (/ d * / d)))%R by (field; lra).
    change 403 with (3 + (100 + 100 + (100 + 100))). rewrite !bpow_plus. change (bpow radix2 3) with 8%R. apply Rmult_le_compat_l; [lra|].
    apply Rmult_le_compat; try (apply Rmult_le_pos; lra); apply Rmult_le_compat; lra.
Qed.
Lemma bd_fh c : fin_le K4 (eddy_diff4 P) -> 0 <= c < NC -> bd 912 (fh cc ss pp S s l k n c).
Proof.
  intros [Fk Bk] Hc. assert (BK : bd 100 (eddy_diff4 P)) by (split; [exact Fk|destruct P4; lra]).
  apply (sub6 cc ss pp (fun j => ph cc ss pp S s l k n (hE (nx h) (ny h) c j) (hesc h c j)) 906); [|lia]. intros j Hj. pose proof (edg c j Hc Hj) as He. unfold ph.
  apply (bd_mul cc ss pp 401 505); [apply (bd_mul cc ss pp 401 0); [now apply bd_geo; [|apply sgn]|apply bd_1|okk]| |okk].
  apply (bd_mul cc ss pp 405 100); [|apply (ps_bd _ _ _ (psx_idc cc ss pp S Hdc))|okk]. apply (bd_sub cc ss pp 404 404); [apply bd_del2, coe; lia|apply bd_del2, coe; lia|okk].
Qed.
Lemma rate_fin md c (x : F A) : 0 <= c < NC -> bd 714 (zr md x) -> fin (g_tr S Tend s md (trdel2_fn S (aux s n)) l c k x).
Proof.
  intros Hc Hx. rewrite (gtr_val cc ss pp S Hok HX HY s l k n Hr Hl Hk Hb HH') by exact Hc. cbv zeta.
  assert (X1 : bd 715 (zr md x + fa cc ss pp S s l k n c)%fp) by (apply (bd_add cc ss pp 714 608); [exact Hx|now apply bd_fa|okk]).
  assert (X2 : bd 716 (if tracer_diff_enabled P then zr md x + fa cc ss pp S s l k n c + fd cc ss pp S s l k n c else zr md x + fa cc ss pp S s l k n c)%fp).
  { case_eq (tracer_diff_enabled P); intros Bd; [|eapply bd_weak; [|exact X1]; lia]. apply (bd_add cc ss pp 715 709); [exact X1|apply bd_fd; [now apply E2|exact Hc]|okk]. }
  case_eq (tracer_hyperdiff_enabled P); intros Bh; [|apply (bd_fin _ _ X2)]. apply (bd_fin 913). apply (bd_add cc ss pp 716 912); [exact X2|apply bd_fh; [now apply E4|exact Hc]|okk].
Qed.
End Fin.
Lemma tend_le tb s time n c : (tb <= T)%R -> s <> Tend -> ready S n -> fbd tb s n -> 0 <= c < NC -> fin_le M (mr (tendency_fn S Tend s time Replace n) (TrCell Tend) [l; c; k]).
Proof.
  intros Ht Hs Hr HB Hc. pose proof (fbd_tb tb s n Ht HB) as TB'.
  destruct (TI_tend cc ss pp S Hok HX HY d fin_dc eq_refl rngd l k Hl Hk Hb Vb Rb HH' (proj1 HV) (proj1 HR) K2 K4 (proj1 P2) (proj1 P4) E2 E4 s time n Hs Hr TB') as [T1 T2].
  assert (G : forall c, 0 <= c < NC -> fin (mr (tendency_fn S Tend s time Replace n) (TrCell Tend) [l; c; k])).
  { intros c' Hc'. rewrite (val_tr S (ok_wfd S Hok)); auto; [|now apply ready_wfm]. apply (rate_fin tb); auto. apply zero_bd, z0. }
  split; [now apply G|]. now apply T2.
Qed.

(** ** One update *)
Definition zV n : Prop := (forall c, 0 <= c < NC -> zero (mr n (HCell Tend) [c; k])) /\ (forall e, 0 <= e < 3 * NC -> zero (mr n (VnEdge Tend) [e; k])).
Lemma hb_top : (T <= bpow radix2 900)%R. Proof. destruct T_rng as [_ H]. eapply Rle_trans; [exact H|]. now apply bpow_le. Qed.
Lemma upd_le dst base (dt b : F A) (beta xb tb : R) n : (bpow radix2 (-10) <= beta <= 2)%R -> (M <= tb <= 10 * M)%R -> fin_le Db dt -> fin_le beta b ->
  fbd xb base n -> (forall c, 0 <= c < NC -> fin_le tb (mr n (TrCell Tend) [l; c; k])) -> zV n ->
  (xb + q64 * (q64 * (Db * beta) * tb) <= T)%R ->
  fbd (xb + q64 * (q64 * (Db * beta) * tb) + eps64 * T) dst (axpy S dst base dt b n).
Proof.
  intros Hbeta Htb Hdt Hbb (B1 & B2 & B3) HT [Z1 Z2] Hs. pose proof q1 as Q1. pose proof q_ub as Q2. pose proof M_lo as m1. pose proof M_up as m2. destruct HD as [d1 d2].
  pose proof (bpow_gt_0 radix2 (-100)) as z1. pose proof (bpow_gt_0 radix2 (-700)) as z2. pose proof (bpow_gt_0 radix2 (-10)) as z3.
  assert (w1 : (bpow radix2 (-110) <= Db * beta)%R).
  { change (-110) with (-100 + -10). rewrite bpow_plus. apply Rmult_le_compat; lra. }
  assert (w2 : (Db * beta <= bpow radix2 101)%R).
  { change 101 with (100 + 1). rewrite bpow_plus. change (bpow radix2 1) with 2%R. apply Rmult_le_compat; lra. }
  assert (W : fin_le (q64 * (Db * beta)) (dt * b)%fp).
  { apply mul_le; auto; [eapply Rle_trans; [|exact w1]|eapply Rle_trans; [exact w2|]]; now apply bpow_le. }
  assert (w3 : (bpow radix2 (-110) <= q64 * (Db * beta))%R) by (pose proof (bpow_gt_0 radix2 (-110)); apply Rle_trans with (1 * (Db * beta))%R; [lra|apply Rmult_le_compat_r; lra]).
  assert (w4 : (q64 * (Db * beta) <= bpow radix2 102)%R).
  { change 102 with (1 + 101). rewrite bpow_plus. change (bpow radix2 1) with 2%R. apply Rmult_le_compat; try lra. pose proof (bpow_gt_0 radix2 (-110)). lra. }
  split; [|split]; intros i Hi.
  - rewrite (axpy_hv cc ss pp S) by assumption. destruct (B1 i Hi) as [F1 L1].
    destruct (add_z cc ss pp (mr n (HCell base) [i; k]) (dt * b * mr n (HCell Tend) [i; k])%fp F1) as [G1 G2]; [apply z_mul_r; [apply W|now apply Z1]|].
    split; [exact G1|]. now rewrite G2.
  - rewrite (axpy_vv cc ss pp S) by assumption. apply add_zv; [now apply B2|]. apply z_mul_r; [apply W|now apply Z2].
  - rewrite (TrRun.axpy_h cc ss pp S l k Hl Hk Hb HH' K2 K4 E2 E4) by exact Hi. apply (add_le cc ss pp); auto using hb_top. apply (mul_le cc ss pp); auto.
    + apply Rle_trans with (bpow radix2 (-110) * bpow radix2 (-700))%R; [rewrite <- bpow_plus; now apply bpow_le|].
      apply Rmult_le_compat; try apply bpow_ge_0; lra.
    + apply Rle_trans with (bpow radix2 102 * bpow radix2 713)%R; [|rewrite <- bpow_plus; now apply bpow_le].
      pose proof (bpow_gt_0 radix2 (-110)). apply Rmult_le_compat; try lra. apply Rle_trans with (10 * M)%R; [lra|].
      change 713 with (4 + 709). rewrite bpow_plus. change (bpow radix2 4) with 16%R. pose proof (bpow_gt_0 radix2 709). lra.
Qed.
Lemma zV_other n n' : (forall a ix, is_st Tend a = true -> mr n' a ix = mr n a ix) -> zV n -> zV n'.
Proof. intros E [H1 H2]. split; intros; rewrite E by reflexivity; auto. Qed.
Lemma zV_tend s time md n : s <> Tend -> ready S n -> zV n -> zV (tendency_fn S Tend s time md n).
Proof.
  intros Hs Hr [H1 H2]. split; intros i Hi.
  - rewrite (val_h S) by assumption. unfold hk_h. rewrite Ek, Eh. now apply H1.
  - rewrite (val_v S); auto using ok_wfd; [|now apply ready_wfm]. unfold hk_v. rewrite Ek, Ev. now apply H2.
Qed.
Lemma bnd_other s n n' (a : R) : (forall x ix, is_st s x = true -> mr n' x ix = mr n x ix) -> fbd a s n -> fbd a s n'.
Proof.
  intros E (B1 & B2 & B3). assert (Ts : (if sid_eq_dec s s then true else false) = true) by (destruct (sid_eq_dec s s); congruence).
  split; [|split]; intros; rewrite E by exact Ts; auto.
Qed.
Lemma bnd_weak s n (a b : R) : (a <= b)%R -> fbd a s n -> fbd b s n.
Proof. intros H (B1 & B2 & B3). split; [exact B1|]. split; [exact B2|]. intros c Hc. apply (le_weak cc ss pp a); auto. Qed.
Local Notation other_axpy := (other_axpy cc ss pp S).
Local Notation other_tend := (other_tend cc ss pp S).
Lemma save_bnd n (a : R) : fbd a St n -> fbd a Old (save_fn S n).
Proof.
  intros (H1 & H2 & H3). unfold save_fn. cbv zeta. split; [|split]; intros.
  - rewrite !(upd_other _ (TrCell Old)), !(upd_other _ (VnEdge Old)) by discriminate.
    rewrite upd_same by (cbn [rext]; apply inb2; split; assumption). auto.
  - rewrite (upd_other _ (TrCell Old)) by discriminate. rewrite upd_same by (cbn [rext]; apply inb2; split; assumption).
    rewrite upd_other by discriminate. auto.
  - rewrite upd_same by (cbn [rext]; apply inb3; rewrite (d_ntr S); repeat split; tauto || lia). rewrite !upd_other by discriminate. auto.
Qed.
Local Notation good0 := (fun m : mem A => fbd T St m /\ fbd T Provis m).
Local Notation good := (fun m : mem A => tbounded S l k Hb Vb Rb St m /\ tbounded S l k Hb Vb Rb Provis m).
Lemma mix_good : mixes good0.
Proof.
  intros m1 m2 m E ((a1 & a2 & a3) & b1 & b2 & b3) ((p1 & p2 & p3) & q1 & q2 & q3). repeat split;
    match goal with |- context [mr m ?x ?ix] => destruct (E x ix) as [-> | ->]; [auto| |] end;
    try (now apply a1 || apply a2 || apply a3 || apply b1 || apply b2 || apply b3 || apply p1 || apply p2 || apply p3 || apply q1 || apply q2 || apply q3).
Qed.
Lemma along_weak Ls m (Q Q' : mem A -> Prop) : (forall m, Q m -> Q' m) -> along D Ls m Q -> along D Ls m Q'.
Proof. intros H HA ls ls' m1 E Hx. apply H. now apply (HA ls ls'). Qed.

(** ** The classical method *)
Local Notation J := (q64 ^ 53 * (Db * w) + 4 * (eps64 * T))%R.
Definition K (hb : R) n : Prop := ready S n /\ fbd hb St n /\ fbd T Provis n /\ zV n.
Lemma q3M : (q64 * (q64 * (Db * q64) * M) = q64 ^ 53 * (Db * w))%R.
Proof. replace (q64 ^ 53)%R with (q64 * q64 * q64 * q64 ^ 50)%R by (cbn [pow]; ring). ring. Qed.
Lemma DU_pos : (0 < q64 ^ 53 * (Db * w))%R.
Proof. pose proof w_posit. destruct HD as [d1 _]. pose proof (bpow_gt_0 radix2 (-100)). apply Rmult_lt_0_compat; [apply qk0|]. apply Rmult_lt_0_compat; lra. Qed.
Lemma T_pos : (0 < T)%R. Proof. destruct T_rng as [t1 _]. pose proof (bpow_gt_0 radix2 (-200)). lra. Qed.
Lemma Et : 0 < ntracers P. Proof. lia. Qed.
Lemma rkb_le i : fin_le (q64 * rk4_beta i) (rk4_b i : F A).
Proof. unfold rk4_b, rk4_beta. destruct (_ || _); [apply (b_quot cc ss pp 1 6)|apply (b_quot cc ss pp 1 3)]; lia. Qed.
Lemma rka_le i : fin_le q64 (rk4_a i : F A).
Proof.
  pose proof q1. unfold rk4_a. destruct (_ =? _).
  - destruct (ofZ_val cc ss pp 1 ltac:(reflexivity)) as [G1 G2]. split; [exact G1|]. rewrite G2, Rabs_R1. lra.
  - apply quot_le; [lia|lia|lia|cbn [Z.abs]; lra].
Qed.
Definition K1 (h0 hb : R) n : Prop := ready S n /\ fbd hb St n /\ fbd h0 Old n /\ fbd T Provis n /\ zV n /\
  forall c, 0 <= c < NC -> fin_le M (mr n (TrCell Tend) [l; c; k]).
Lemma adv_tend (h0 hb : R) s time n : (hb <= T)%R -> s = St \/ s = Provis ->
  ready S n -> fbd hb St n -> fbd h0 Old n -> fbd T Provis n -> zV n ->
  along D (compute_tendency S Tend s time Replace) n good0 /\ K1 h0 hb (tendency_fn S Tend s time Replace n).
Proof.
  intros Hh0 Hs Hr B1 B2 B3 HZ. assert (Ns : s <> Tend) by (destruct Hs as [-> | ->]; discriminate).
  assert (B1' : fbd T St n) by now apply (bnd_weak St n hb).
  split; [apply (TrAlong.along_tend S Hok En Ev Eh Et Ek); auto; apply mixes_about, mix_good|].
  split; [eapply ready_cst; [apply cst_tendency|exact Hr]|].
  split; [eapply bnd_other; [|exact B1]; intros; now apply (other_tend St)|]. split; [eapply bnd_other; [|exact B2]; intros; now apply (other_tend Old)|].
  split; [eapply bnd_other; [|exact B3]; intros; now apply (other_tend Provis)|]. split; [now apply zV_tend|].
  intros c Hc. apply (tend_le T); [lra|exact Ns|exact Hr| |exact Hc]. destruct Hs as [-> | ->]; assumption.
Qed.
Lemma beta_rng i : (bpow radix2 (-10) <= q64 * rk4_beta i <= 2)%R.
Proof. split; [apply (rk4_b_low i)|]. pose proof q_ub. unfold rk4_beta. destruct (_ || _); lra. Qed.
Lemma M_M : (M <= M <= 10 * M)%R. Proof. pose proof M_lo as u. pose proof (bpow_gt_0 radix2 (-700)). lra. Qed.
Lemma q3b i : (q64 * (q64 * (Db * (q64 * rk4_beta i)) * M) = rk4_beta i * (q64 ^ 53 * (Db * w)))%R.
Proof. rewrite <- q3M. ring. Qed.
Lemma adv_stage (h0 hb : R) (t dt : F A) i n : fin_le Db dt -> i < 3 -> (h0 + J <= T)%R ->
  (hb + rk4_beta i * (q64 ^ 53 * (Db * w)) + eps64 * T <= T)%R -> K1 h0 hb n ->
  along D (rk4_stage S t dt i) n good0 /\ K1 h0 (hb + rk4_beta i * (q64 ^ 53 * (Db * w)) + eps64 * T) (rk4_stage_fn S t dt i n).
Proof.
  intros Hdt Hi L1 L2 (Hr & B1 & B2 & B3 & HZ & HT). pose proof (ok_wfd S Hok) as Hw. pose proof (ok_ntr S Hok) as Hnt. unfold rk4_stage, rk4_stage_fn. cbv zeta.
  replace (i <? 4 - 1) with true by (symmetry; apply Z.ltb_lt; lia). cbn [whenL].
  pose proof T_pos as HP. pose proof eps_pos as EP. pose proof DU_pos as DP. assert (EH : (0 < eps64 * T)%R) by (apply Rmult_lt_0_compat; lra).
  pose proof (upd_le St St dt (rk4_b i) (q64 * rk4_beta i) hb M n (beta_rng i) M_M Hdt (rkb_le i) B1 HT HZ) as U1.
  rewrite q3b in U1. specialize (U1 ltac:(lra)). set (n1 := axpy S St St dt (rk4_b i) n) in *.
  set (hb1 := (hb + rk4_beta i * (q64 ^ 53 * (Db * w)) + eps64 * T)%R) in *.
  assert (BP : (0 < rk4_beta i)%R) by (unfold rk4_beta; destruct (_ || _); lra).
  assert (BD : (0 < rk4_beta i * (q64 ^ 53 * (Db * w)))%R) by (apply Rmult_lt_0_compat; lra).
  assert (G0 : good0 n) by (split; [apply (bnd_weak St n hb); [unfold hb1 in *; lra|exact B1]|exact B3]).
  assert (R1 : ready S n1) by (eapply ready_cst; [apply cst_axpy|exact Hr]).
  assert (C2 : fbd h0 Old n1) by (eapply bnd_other; [|exact B2]; intros; now apply (other_axpy Old)).
  assert (C3 : fbd T Provis n1) by (eapply bnd_other; [|exact B3]; intros; now apply (other_axpy Provis)).
  assert (CZ : zV n1) by (eapply zV_other; [|exact HZ]; intros; now apply (other_axpy Tend)).
  assert (CT : forall c, 0 <= c < NC -> fin_le M (mr n1 (TrCell Tend) [l; c; k])) by (intros c Hc; unfold n1; rewrite (other_axpy Tend) by (discriminate || reflexivity); auto).
  assert (G1 : good0 n1) by (split; [apply (bnd_weak St n1 hb1); [lra|exact U1]|exact C3]).
  assert (Qr : (bpow radix2 (-10) <= q64 <= 2)%R).
  { pose proof q1. pose proof q_ub. split; [|lra]. replace (bpow radix2 (-10)) with (/ 1024)%R by reflexivity. lra. }
  pose proof (upd_le Provis Old dt (rk4_a i) q64 h0 M n1 Qr M_M Hdt (rka_le i) C2 CT CZ) as U2.
  rewrite q3M in U2. specialize (U2 ltac:(lra)). set (n2 := axpy S Provis Old dt (rk4_a i) n1) in *.
  assert (R2 : ready S n2) by (eapply ready_cst; [apply cst_axpy|exact R1]).
  assert (V3 : fbd T Provis n2) by (eapply bnd_weak; [|exact U2]; lra).
  assert (V1 : fbd hb1 St n2) by (eapply bnd_other; [|exact U1]; intros; now apply (other_axpy St)).
  assert (V2 : fbd h0 Old n2) by (eapply bnd_other; [|exact C2]; intros; now apply (other_axpy Old)).
  assert (VZ : zV n2) by (eapply zV_other; [|exact CZ]; intros; now apply (other_axpy Tend)).
  destruct (adv_tend h0 hb1 Provis (t + rk4_c i * dt)%fp n2 ltac:(lra) (or_intror eq_refl) R2 V1 V2 V3 VZ) as [A3 K3].
  split; [|exact K3]. apply (along_fn D _ _ n good0 (axpy S St St dt (rk4_b i)) (hs_accumulate S dt (rk4_b i) n)); [now apply (TrAlong.along_acc S En Ev Eh Et); [apply mix_good| |]|].
  apply (along_fn D _ _ n1 good0 (axpy S Provis Old dt (rk4_a i)) (hs_provis S dt (rk4_a i) n1)); [|exact A3].
  apply (TrAlong.along_prov S En Ev Eh Et); [apply mix_good|exact G1|]. split; [|exact V3]. eapply bnd_weak; [|exact V1]. lra.
Qed.
Lemma adv_rk4 (hb : R) (t dt : F A) n : fin_le Db dt -> (hb + J <= T)%R -> K hb n ->
  along D (rk4_step S t dt) n good0 /\ K (hb + J) (rk4_fn S t dt n).
Proof.
  intros Hdt L1 (Hr & B1 & B3 & HZ). pose proof (ok_wfd S Hok) as Hw. pose proof (ok_ntr S Hok) as Hnt.
  pose proof T_pos as HP. pose proof eps_pos as EP. pose proof DU_pos as DP. assert (EH : (0 < eps64 * T)%R) by (apply Rmult_lt_0_compat; lra).
  assert (G0 : good0 n) by (split; [apply (bnd_weak St n hb); [lra|exact B1]|exact B3]).
  unfold rk4_step, rk4_fn. set (n0 := save_fn S n).
  assert (R0 : ready S n0) by (eapply ready_cst; [apply cst_save|exact Hr]).
  assert (C1 : fbd hb St n0) by (eapply bnd_other; [|exact B1]; intros; apply save_other; apply (is_st_ne St); congruence).
  assert (C3 : fbd T Provis n0) by (eapply bnd_other; [|exact B3]; intros; apply save_other; apply (is_st_ne Provis); congruence).
  assert (CZ : zV n0) by (eapply zV_other; [|exact HZ]; intros; apply save_other; apply (is_st_ne Tend); congruence).
  pose proof (save_bnd n hb B1) as C2. fold n0 in C2.
  destruct (adv_tend hb hb St t n0 ltac:(lra) (or_introl eq_refl) R0 C1 C2 C3 CZ) as [A1 K1'].
  set (m0 := tendency_fn S Tend St t Replace n0) in *.
  change (zseq 4) with [0; 1; 2; 3]. cbn [flat_map fold_left].
  assert (e0 : rk4_beta 0 = (1 / 6)%R) by reflexivity. assert (e1 : rk4_beta 1 = (1 / 3)%R) by reflexivity. assert (e2 : rk4_beta 2 = (1 / 3)%R) by reflexivity. assert (e3 : rk4_beta 3 = (1 / 6)%R) by reflexivity.
  set (ww := (q64 ^ 53 * (Db * w))%R) in *.
  destruct (adv_stage hb hb t dt 0 m0 Hdt ltac:(lia) L1 ltac:(fold ww; rewrite e0; lra) K1') as [S0 I0]. fold ww in I0. rewrite e0 in I0. set (m1 := rk4_stage_fn S t dt 0 m0) in *.
  match type of I0 with K1 _ ?b _ => set (b0 := b) in * end.
  destruct (adv_stage hb b0 t dt 1 m1 Hdt ltac:(lia) L1 ltac:(fold ww; rewrite e1; unfold b0; lra) I0) as [S1 I1]. fold ww in I1. rewrite e1 in I1. set (m2 := rk4_stage_fn S t dt 1 m1) in *.
  match type of I1 with K1 _ ?b _ => set (b1 := b) in * end.
  destruct (adv_stage hb b1 t dt 2 m2 Hdt ltac:(lia) L1 ltac:(fold ww; rewrite e2; unfold b1, b0; lra) I1) as [S2 I2]. fold ww in I2. rewrite e2 in I2. set (m3 := rk4_stage_fn S t dt 2 m2) in *.
  match type of I2 with K1 _ ?b _ => set (b2 := b) in * end.
  destruct I2 as (Hr3 & D1 & D2 & D3 & DZ & DT). unfold rk4_stage at 4. unfold rk4_stage_fn. cbv zeta. change (3 <? 4 - 1) with false. cbn [whenL]. rewrite !app_nil_r.
  pose proof (upd_le St St dt (rk4_b 3) (q64 * rk4_beta 3) b2 M m3 (beta_rng 3) M_M Hdt (rkb_le 3) D1 DT DZ) as U1.
  rewrite q3b, e3 in U1. fold ww in U1. specialize (U1 ltac:(unfold b2, b1, b0; lra)). set (m4 := axpy S St St dt (rk4_b 3) m3) in *.
  assert (F1 : fbd (hb + (ww + 4 * (eps64 * T))) St m4) by (eapply bnd_weak; [|exact U1]; unfold b2, b1, b0; lra).
  assert (F3 : fbd T Provis m4) by (eapply bnd_other; [|exact D3]; intros; now apply (other_axpy Provis)).
  split.
  - apply (along_fn D _ _ n good0 (save_fn S) (hs_save cc ss pp S n)); [apply along_save; [apply mixes_about, mix_good|exact G0]|]. fold n0.
    apply (along_fn D _ _ n0 good0 (tendency_fn S Tend St t Replace) (rd_tendency S Hok Tend St t Replace n0 R0 ltac:(discriminate)) A1). fold m0.
    assert (hst : forall i m, ready S m -> hsafe D (rk4_stage S t dt i) m (fun M' => meq M' (rk4_stage_fn S t dt i m))).
    { intros i m Hrm. unfold rk4_stage, rk4_stage_fn. cbv zeta. eapply hsafe_seq; [apply hs_accumulate|].
      apply hsafe_when with (f := fun m1 => tendency_fn S Tend Provis _ Replace (axpy S Provis Old _ _ m1)).
      eapply hsafe_seq; [apply hs_provis|]. apply hs_tendency; auto; [discriminate|]. apply wfm_axpy, wfm_axpy. now apply ready_wfm. }
    apply (along_fn D _ _ m0 good0 (rk4_stage_fn S t dt 0) (hst 0 m0 (proj1 K1')) S0). fold m1.
    apply (along_fn D _ _ m1 good0 (rk4_stage_fn S t dt 1) (hst 1 m1 (proj1 I0)) S1). fold m2.
    apply (along_fn D _ _ m2 good0 (rk4_stage_fn S t dt 2) (hst 2 m2 (proj1 I1)) S2). fold m3.
    apply (TrAlong.along_acc S En Ev Eh Et); [apply mix_good| |].
    + split; [eapply bnd_weak; [|exact D1]; unfold b2, b1, b0; lra|exact D3].
    + split; [eapply bnd_weak; [|exact F1]; lra|exact F3].
  - split; [eapply ready_cst; [apply cst_axpy|exact Hr3]|]. split; [exact F1|]. split; [exact F3|].
    eapply zV_other; [|exact DZ]. intros. now apply (other_axpy Tend).
Qed.
Lemma adv_rk4_run (steps : list (F A * F A)) (hb : R) n : (forall x, In x steps -> fin_le Db (snd x)) -> (hb + INR (length steps) * J <= T)%R -> K hb n ->
  along D (rk4_run S steps) n good0.
Proof.
  revert hb n. induction steps as [|x ls IH]; intros hb n Hx L HK.
  - destruct HK as (Hr & B1 & B3 & _). apply along_nil. split; [|exact B3]. eapply bnd_weak; [|exact B1]. cbn [length INR] in L. lra.
  - change (rk4_run S (x :: ls)) with (rk4_step S (fst x) (snd x) ++ rk4_run S ls). change (length (x :: ls)) with (Datatypes.S (length ls)) in L. rewrite S_INR in L.
    assert (JP : (0 < J)%R).
    { pose proof DU_pos. pose proof T_pos. pose proof eps_pos. assert (0 < eps64 * T)%R by (apply Rmult_lt_0_compat; lra). lra. }
    pose proof (pos_INR (length ls)) as LP. assert (LJ : (0 <= INR (length ls) * J)%R) by (apply Rmult_le_pos; lra).
    destruct (adv_rk4 hb (fst x) (snd x) n (Hx x (or_introl eq_refl)) ltac:(lra) HK) as [A1 kk2].
    apply (along_fn D _ _ n good0 (rk4_fn S (fst x) (snd x)) (hs_rk4 S (ok_wfd S Hok) (ok_ntr S Hok) (fst x) (snd x) n (ready_wfm S Hok n (proj1 HK))) A1).
    apply (IH (hb + J)%R); [intros y Hy; apply Hx; now right|lra|exact kk2].
Qed.

(** ** The low storage method *)
Local Notation St_ok := (fun m : mem A => fbd T St m).
Lemma mix_St : mixes St_ok.
Proof.
  intros m1 m2 m E (a1 & a2 & a3) (b1 & b2 & b3). split; [|split]; intros;
    match goal with |- context [mr m ?x ?ix] => destruct (E x ix) as [-> | ->]; [auto| |] end; try (now apply a1 || apply a2 || apply a3 || apply b1 || apply b2 || apply b3).
Qed.
Local Notation LI mu sg := (TrRun.TJ cc ss pp S l k (mu * M) (sg * (eps64 * M))).
Local Notation J5 := (8.3 * (q64 ^ 52 * (Db * w)) + 5 * (eps64 * T))%R.
Definition K5 (hb : R) n : Prop := ready S n /\ fbd hb St n /\ zV n /\ forall c, 0 <= c < NC -> fin_le (10 * M) (mr n (TrCell Tend) [l; c; k]).
Lemma other_scale r (x : F A) n a ix : r <> Tend -> is_st r a = true -> mr (scale_fn S x n) a ix = mr n a ix.
Proof. intros Hr Ha. apply scale_other. now apply (is_st_ne r). Qed.
Lemma scale_z (x : F A) n : fin x -> zV n -> zV (scale_fn S x n).
Proof.
  intros Fx [H1 H2]. split; intros i Hi; unfold scale_fn; cbv zeta; rewrite (proj2 (Z.ltb_lt _ _) Et).
  - rewrite !upd_other by discriminate. rewrite upd_same by (cbn [rext]; apply inb2; split; assumption). cbn [on2]. apply z_mul_l; [now apply H1|exact Fx].
  - rewrite upd_other by discriminate. rewrite upd_same by (cbn [rext]; apply inb2; split; assumption). cbn [on2]. rewrite upd_other by discriminate.
    apply z_mul_l; [now apply H2|exact Fx].
Qed.
Lemma adv_ls (hb beta mu sg : R) (t dt : F A) i n : fin_le Db dt -> fin_le beta (lsrk_b 5 i : F A) -> (1 / 1000 <= beta <= 2)%R -> (1 <= mu <= 10)%R -> K5 hb n ->
  (hb + beta * mu * (q64 ^ 52 * (Db * w)) + eps64 * T <= T)%R ->
  (tbounded S l k Hb Vb Rb St (scale_fn S (lsrk_a 5 i) n) ->
   LI mu sg (tendency_fn S Tend St (t + lsrk_c 5 i * dt)%fp Increment (scale_fn S (lsrk_a 5 i) n))) ->
  let n' := lsrk_stage_fn S 5 t dt i n in
  along D (lsrk_stage S 5 t dt i) n St_ok /\ K5 (hb + beta * mu * (q64 ^ 52 * (Db * w)) + eps64 * T) n' /\ LI mu sg n'.
Proof.
  intros Hdt Hbb Hbe Hmu (Hr & B1 & HZ & HT) L1 HL. cbv zeta. pose proof (ok_wfd S Hok) as Hw. pose proof (ok_ntr S Hok) as Hnt.
  pose proof T_pos as HP. pose proof eps_pos as EP. assert (EH : (0 < eps64 * T)%R) by (apply Rmult_lt_0_compat; lra).
  pose proof M_lo as m1. pose proof M_up as m2. pose proof (bpow_gt_0 radix2 (-700)) as z2.
  assert (Eq : (q64 * (q64 * (Db * beta) * (mu * M)) = beta * mu * (q64 ^ 52 * (Db * w)))%R).
  { replace (q64 ^ 52)%R with (q64 * q64 * q64 ^ 50)%R by (cbn [pow]; ring). ring. }
  assert (W0 : (0 < beta * mu * (q64 ^ 52 * (Db * w)))%R).
  { pose proof w_posit. destruct HD as [d1 _]. pose proof (bpow_gt_0 radix2 (-100)).
    apply Rmult_lt_0_compat; [apply Rmult_lt_0_compat; lra|]. apply Rmult_lt_0_compat; [apply qk0|]. apply Rmult_lt_0_compat; lra. }
  set (hb1 := (hb + beta * mu * (q64 ^ 52 * (Db * w)) + eps64 * T)%R) in *.
  assert (G0 : St_ok n) by (apply (bnd_weak St n hb); [unfold hb1 in *; lra|exact B1]).
  unfold lsrk_stage, lsrk_stage_fn. set (n1 := scale_fn S (lsrk_a 5 i) n) in *.
  assert (R1 : ready S n1) by (eapply ready_cst; [apply cst_scale|exact Hr]).
  assert (C1 : fbd hb St n1) by (eapply bnd_other; [|exact B1]; intros; now apply (other_scale St)).
  assert (G1 : St_ok n1) by (apply (bnd_weak St n1 hb); [unfold hb1 in *; lra|exact C1]).
  assert (CZ : zV n1) by (apply scale_z; [apply (bd_fin _ _ (bd_lsa cc ss pp 5 i))|exact HZ]).
  assert (CT : forall c, 0 <= c < NC -> bd 714 (mr n1 (TrCell Tend) [l; c; k])).
  { intros c Hc. unfold n1. rewrite (TrRun.scale_h cc ss pp S l k Hl Hk Hb HH' K2 K4 E2 E4) by exact Hc. apply (bd_mul cc ss pp 713 1); [|apply bd_lsa|okk].
    destruct (HT c Hc) as [F1 F2]. split; [exact F1|]. change 713 with (4 + 709). rewrite bpow_plus. change (bpow radix2 4) with 16%R. pose proof (bpow_gt_0 radix2 709). lra. }
  specialize (HL (fbd_tb T St n1 (Rle_refl T) G1)). set (tm := (t + lsrk_c 5 i * dt)%fp) in *. set (n2 := tendency_fn S Tend St tm Increment n1) in *.
  assert (R2 : ready S n2) by (eapply ready_cst; [apply cst_tendency|exact R1]).
  assert (V1 : fbd hb St n2) by (eapply bnd_other; [|exact C1]; intros; now apply (other_tend St)).
  assert (G2 : St_ok n2) by (apply (bnd_weak St n2 hb); [unfold hb1 in *; lra|exact V1]).
  assert (VZ : zV n2) by (apply zV_tend; auto; discriminate).
  assert (VT : forall c, 0 <= c < NC -> fin_le (mu * M) (mr n2 (TrCell Tend) [l; c; k])).
  { assert (F : forall c, 0 <= c < NC -> fin (mr n2 (TrCell Tend) [l; c; k])).
    { intros c Hc. unfold n2. rewrite (val_tr S (ok_wfd S Hok)); auto; [|discriminate|now apply ready_wfm]. apply (rate_fin T); auto; [lra|now apply CT]. }
    intros c Hc. split; [now apply F|]. now apply (proj2 HL F). }
  assert (MM : (M <= mu * M <= 10 * M)%R).
  { split; [apply Rle_trans with (1 * M)%R; [lra|]|]; apply Rmult_le_compat_r; lra. }
  assert (Br : (bpow radix2 (-10) <= beta <= 2)%R) by (split; [replace (bpow radix2 (-10)) with (/ 1024)%R by reflexivity; lra|lra]).
  pose proof (upd_le St St dt (lsrk_b 5 i) beta hb (mu * M) n2 Br MM Hdt Hbb V1 VT VZ) as U1.
  rewrite Eq in U1. specialize (U1 ltac:(unfold hb1 in *; lra)). fold hb1 in U1. set (n3 := axpy S St St dt (lsrk_b 5 i) n2) in *.
  split; [|split].
  - apply (along_fn D _ _ n St_ok (scale_fn S (lsrk_a 5 i)) (hs_scale S (lsrk_a 5 i) n)); [apply (TrAlong.along_scale S En Ev Eh Et); [apply mixes_about, mix_St|exact G0]|]. fold n1.
    apply (along_fn D _ _ n1 St_ok (tendency_fn S Tend St tm Increment) (rd_tendency S Hok Tend St tm Increment n1 R1 ltac:(discriminate)));
      [apply (TrAlong.along_tend S Hok En Ev Eh Et Ek); auto; [apply mixes_about, mix_St|discriminate]|]. fold n2.
    apply (TrAlong.along_acc S En Ev Eh Et); [apply mix_St|exact G2|]. eapply bnd_weak; [|exact U1]. exact L1.
  - split; [eapply ready_cst; [apply cst_axpy|exact R2]|]. split; [exact U1|].
    split; [eapply zV_other; [|exact VZ]; intros; now apply (other_axpy Tend)|].
    intros c Hc. unfold n3. rewrite (other_axpy Tend) by (discriminate || reflexivity). apply (le_weak cc ss pp (mu * M)); [now apply VT|lra].
  - apply (TrRun.TI_other cc ss pp S l k _ _ n2); [|exact HL]. intros. now apply (other_axpy Tend).
Qed.
Ltac ql := apply quot_le; [lia|lia|lia|cbn [Z.abs]; pose proof q_ub; lra].
Lemma adv_lsrk (hb : R) (t dt : F A) n : fin_le Db dt -> (hb + J5 <= T)%R -> K5 hb n ->
  along D (lsrk_step S 5 t dt) n St_ok /\ K5 (hb + J5) (lsrk_fn S 5 t dt n).
Proof.
  intros Hdt L1 HK. pose proof q_ub as Q1. pose proof q2_ub as Q2. pose proof q0 as Q0. pose proof T_pos as HP. pose proof eps_pos as EP.
  assert (EH : (0 < eps64 * T)%R) by (apply Rmult_lt_0_compat; lra).
  assert (Q4 : (q64 ^ 4 <= 1.00001)%R).
  { replace (q64 ^ 4)%R with (q64 * q64 * (q64 * q64))%R by ring. assert (0 < q64 * q64)%R by (apply Rmult_lt_0_compat; lra).
    assert (q64 * q64 * (q64 * q64) <= (1 + 3 / 1000000) * (1 + 3 / 1000000))%R by (apply Rmult_le_compat; lra). lra. }
  unfold lsrk_step, lsrk_fn. change (zseq 5) with [0; 1; 2; 3; 4]. cbn [flat_map fold_left].
  set (ww := (q64 ^ 52 * (Db * w))%R) in *.
  assert (W0 : (0 < ww)%R).
  { pose proof w_posit. destruct HD as [d1 _]. pose proof (bpow_gt_0 radix2 (-100)). apply Rmult_lt_0_compat; [apply qk0|]. apply Rmult_lt_0_compat; lra. }
  destruct (adv_ls hb 0.15 1 9 t dt 0 n Hdt ltac:(ql) ltac:(lra) ltac:(lra) HK ltac:(fold ww; lra)) as (A0 & k0 & I0).
  { intros G1. destruct HK as (Hr & _ & _ & HT).
    apply (TrRun.lsrk_incr0 cc ss pp S Hok HX HY d fin_dc eq_refl rngd l k Hl Hk Hb Vb Rb HH' (proj1 HV) (proj1 HR) K2 K4 (proj1 P2) (proj1 P4) E2 E4); auto. intros c Hc. now apply fin_dbl, HT. }
  pose proof (hs_ls_stage cc ss pp S Hok t dt 0 n (proj1 HK)) as H0.
  fold ww in k0. set (n0 := lsrk_stage_fn S 5 t dt 0 n) in *. match type of k0 with K5 ?b _ => set (b0 := b) in * end.
  destruct (adv_ls b0 0.38 1.419 14.44 t dt 1 n0 Hdt ltac:(ql) ltac:(lra) ltac:(lra) k0 ltac:(fold ww; unfold b0; lra)) as (A1 & k1 & I1).
  { intros G1. apply (TrRun.lsrk_incr cc ss pp S Hok HX HY d fin_dc eq_refl rngd l k Hl Hk Hb Vb Rb HH' (proj1 HV) (proj1 HR) K2 K4 (proj1 P2) (proj1 P4) E2 E4 (lsrk_a 5 1) 0.418 1 9); auto; [ql|lra|lra|lra|lra|apply k0]. }
  pose proof (hs_ls_stage cc ss pp S Hok t dt 1 n0 (proj1 k0)) as H1.
  fold ww in k1. set (n1 := lsrk_stage_fn S 5 t dt 1 n0) in *. match type of k1 with K5 ?b _ => set (b1 := b) in * end.
  destruct (adv_ls b1 0.823 2.694 33.01 t dt 2 n1 Hdt ltac:(ql) ltac:(lra) ltac:(lra) k1 ltac:(fold ww; unfold b1, b0; lra)) as (A2 & k2 & I2).
  { intros G1. apply (TrRun.lsrk_incr cc ss pp S Hok HX HY d fin_dc eq_refl rngd l k Hl Hk Hb Vb Rb HH' (proj1 HV) (proj1 HR) K2 K4 (proj1 P2) (proj1 P4) E2 E4 (lsrk_a 5 2) 1.193 1.419 14.44); auto; [ql|lra|lra|lra|lra|apply k1]. }
  pose proof (hs_ls_stage cc ss pp S Hok t dt 2 n1 (proj1 k1)) as H2.
  fold ww in k2. set (n2 := lsrk_stage_fn S 5 t dt 2 n1) in *. match type of k2 with K5 ?b _ => set (b2 := b) in * end.
  destruct (adv_ls b2 0.6995 5.576 83.36 t dt 3 n2 Hdt ltac:(ql) ltac:(lra) ltac:(lra) k2 ltac:(fold ww; unfold b2, b1, b0; lra)) as (A3 & k3 & I3).
  { intros G1. apply (TrRun.lsrk_incr cc ss pp S Hok HX HY d fin_dc eq_refl rngd l k Hl Hk Hb Vb Rb HH' (proj1 HV) (proj1 HR) K2 K4 (proj1 P2) (proj1 P4) E2 E4 (lsrk_a 5 3) 1.698 2.694 33.01); auto; [ql|lra|lra|lra|lra|apply k2]. }
  pose proof (hs_ls_stage cc ss pp S Hok t dt 3 n2 (proj1 k2)) as H3.
  fold ww in k3. set (n3 := lsrk_stage_fn S 5 t dt 3 n2) in *. match type of k3 with K5 ?b _ => set (b3 := b) in * end.
  destruct (adv_ls b3 0.1531 9.449 169.1 t dt 4 n3 Hdt ltac:(ql) ltac:(lra) ltac:(lra) k3 ltac:(fold ww; unfold b3, b2, b1, b0; lra)) as (A4 & k4 & I4).
  { intros G1. apply (TrRun.lsrk_incr cc ss pp S Hok HX HY d fin_dc eq_refl rngd l k Hl Hk Hb Vb Rb HH' (proj1 HV) (proj1 HR) K2 K4 (proj1 P2) (proj1 P4) E2 E4 (lsrk_a 5 4) 1.515 5.576 83.36); auto; [ql|lra|lra|lra|lra|apply k3]. }
  fold ww in k4. set (n4 := lsrk_stage_fn S 5 t dt 4 n3) in *. match type of k4 with K5 ?b _ => set (b4 := b) in * end.
  split.
  - rewrite app_nil_r. apply (along_fn D _ _ n St_ok (lsrk_stage_fn S 5 t dt 0) H0 A0). apply (along_fn D _ _ n0 St_ok (lsrk_stage_fn S 5 t dt 1) H1 A1).
    apply (along_fn D _ _ n1 St_ok (lsrk_stage_fn S 5 t dt 2) H2 A2). apply (along_fn D _ _ n2 St_ok (lsrk_stage_fn S 5 t dt 3) H3 A3). exact A4.
  - destruct k4 as (Hr & B & Z4 & T4). split; [exact Hr|]. split; [|split; [exact Z4|exact T4]]. eapply bnd_weak; [|exact B]. unfold b4, b3, b2, b1, b0. lra.
Qed.
Lemma adv_lsrk_run (steps : list (F A * F A)) (hb : R) n : (forall x, In x steps -> fin_le Db (snd x)) -> (hb + INR (length steps) * J5 <= T)%R -> K5 hb n ->
  along D (lsrk_run S 5 steps) n St_ok.
Proof.
  revert hb n. induction steps as [|x ls IH]; intros hb n Hx L HK.
  - destruct HK as (Hr & B1 & _). apply along_nil. eapply bnd_weak; [|exact B1]. cbn [length INR] in L. lra.
  - change (lsrk_run S 5 (x :: ls)) with (lsrk_step S 5 (fst x) (snd x) ++ lsrk_run S 5 ls). change (length (x :: ls)) with (Datatypes.S (length ls)) in L. rewrite S_INR in L.
    assert (JP : (0 < J5)%R).
    { pose proof w_posit as UP. destruct HD as [d1 _]. pose proof (bpow_gt_0 radix2 (-100)). pose proof T_pos. pose proof eps_pos. assert (0 < eps64 * T)%R by (apply Rmult_lt_0_compat; lra).
      assert (0 < q64 ^ 52 * (Db * w))%R by (apply Rmult_lt_0_compat; [apply qk0|]; apply Rmult_lt_0_compat; lra). lra. }
    pose proof (pos_INR (length ls)) as LP. assert (LJ : (0 <= INR (length ls) * J5)%R) by (apply Rmult_le_pos; lra).
    destruct (adv_lsrk hb (fst x) (snd x) n (Hx x (or_introl eq_refl)) ltac:(lra) HK) as [A1 kk2].
    apply (along_fn D _ _ n St_ok (lsrk_fn S 5 (fst x) (snd x)) (hs_lsrk S (ok_wfd S Hok) (ok_ntr S Hok) 5 (fst x) (snd x) n (ready_wfm S Hok n (proj1 HK))) A1).
    apply (IH (hb + J5)%R); [intros y Hy; apply Hx; now right|lra|exact kk2].
Qed.
End Adv.
