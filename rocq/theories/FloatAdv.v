(** Binary64 runs that advect the thickness with a velocity that does not change: every number stays finite
    and within known bounds. *)
From Coq Require Import ZArith Reals List Bool Lia Lra.
From Coq Require Import Floats.SpecFloat.
From Flocq Require Import Core.Core IEEE754.BinarySingleNaN.
From Verif Require Import Arith Arrays Prog Conc Launch Mesh AuxVars Tend Model Hex MeshProof MeshMem Over Formulas KernBase Terms KernAux KernTend TendFn StepFn Ready Rel RelRun Relate TendVal StepVal StepRun RSum FloatFacts FloatMass FloatRun FloatRest FloatAlong.
Import ListNotations.
Open Scope Z_scope.

Section Num.
Context (cc ss : spec_float -> spec_float) (pp : spec_float).
Local Notation A := (SFA cc ss pp).
Lemma bd_sub a b (x y : F A) : bd a x -> bd b y -> okz (Z.max a b + 1) -> bd (Z.max a b + 1) (x - y)%fp.
Proof.
  intros [Fx Bx] [Fy By] Hk.
  assert (B : (Rabs (val x - val y) <= bpow radix2 (Z.max a b + 1))%R).
  { eapply Rle_trans; [apply Rabs_triang|]. rewrite Rabs_Ropp, bpow_plus_1. change (IZR radix2) with 2%R.
    pose proof (bpow_le radix2 a (Z.max a b) ltac:(lia)). pose proof (bpow_le radix2 b (Z.max a b) ltac:(lia)). lra. }
  destruct (sub_ok cc ss pp x y Fx Fy) as [G1 G2]; [now apply (small_bd _ _ Hk)|]. split; [exact G1|]. rewrite G2. now apply rnd_bd.
Qed.
Lemma mul_le (x y : F A) (xb yb : R) : fin_le xb x -> fin_le yb y -> (tiny <= xb * yb)%R -> (xb * yb <= bpow radix2 900)%R -> fin_le (q64 * (xb * yb)) (x * y)%fp.
Proof.
  intros [Fx Bx] [Fy By] H1 H2.
  assert (B : (Rabs (val x * val y) <= xb * yb)%R) by (rewrite Rabs_mult; apply Rmult_le_compat; auto using Rabs_pos).
  destruct (mul_ok cc ss pp x y Fx Fy) as [G1 G2]; [apply (small_bd 900); [split; lia|lra]|]. split; [exact G1|]. rewrite G2. now apply rnd_le.
Qed.
Lemma add_le (x y : F A) (xb yb Hb : R) : fin_le xb x -> fin_le yb y -> (xb + yb <= Hb)%R -> (Hb <= bpow radix2 900)%R -> fin_le (xb + yb + eps64 * Hb) (x + y)%fp.
Proof.
  intros [Fx Bx] [Fy By] H1 H2.
  assert (B : (Rabs (val x + val y) <= xb + yb)%R) by (eapply Rle_trans; [apply Rabs_triang|]; lra).
  destruct (add_ok cc ss pp x y Fx Fy) as [G1 G2]; [apply (small_bd 900); [split; lia|lra]|]. split; [exact G1|].
  pose proof (add_err x y (fin_dbl _ Fx) (fin_dbl _ Fy)) as E1. pose proof eps_pos as EP.
  assert (E2 : (eps64 * Rabs (val x + val y) <= eps64 * Hb)%R) by (apply Rmult_le_compat_l; lra).
  rewrite G2. replace (rnd (val x + val y)) with ((rnd (val x + val y) - (val x + val y)) + (val x + val y))%R by ring.
  eapply Rle_trans; [apply Rabs_triang|]. lra.
Qed.
Lemma add_zv (x y : F A) (b : R) : fin_le b x -> zero y -> fin_le b (x + y)%fp.
Proof.
  intros [Fx Bx] [Fy Ey]. pose proof (rnd_val x (fin_dbl _ Fx)) as E. destruct (add_ok cc ss pp x y Fx Fy) as [G1 G2].
  - rewrite Ey, Rplus_0_r. unfold small. rewrite E. apply fin_ex in Fx as (z & -> & Fz). rewrite val_B. apply abs_B2R_lt_emax.
  - split; [exact G1|]. rewrite G2, Ey, Rplus_0_r, E. exact Bx.
Qed.
Lemma le_weak (a b : R) (x : F A) : fin_le a x -> (a <= b)%R -> fin_le b x.
Proof. intros [F1 B] H. split; [exact F1|lra]. Qed.
End Num.

Section Adv.
Context (cc ss : spec_float -> spec_float) (pp : spec_float).
Local Notation A := (SFA cc ss pp).
Context (S : setup A) (Hok : setup_ok S).
Local Notation cf := (cfg_of S).
Local Notation P := (par_of S).
Local Notation D := (sdims S).
Local Notation h := (mesh_of_setup S).
Local Notation NC := (nx h * ny h).
Implicit Types (m n : mem A).
Context (HX : 2 <= nx h) (HY : 2 <= ny h).
Context (Hdc : ps (-100) 100 (dc h)).
Context (En : noif cf = false) (Ev : disable_vn P = true) (Eh : disable_h P = false) (Et : ntracers P = 0) (Ek : hook S = None).
Context (k : Z) (Hk : 0 <= k < d_nlayers D).
Local Notation d := (val (dc h)).
Context (Hb Vb Db : R) (HH : (bpow radix2 (-100) <= Hb <= bpow radix2 100)%R) (HV : (bpow radix2 (-100) <= Vb <= bpow radix2 100)%R) (HD : (bpow radix2 (-100) <= Db <= bpow radix2 100)%R).
Local Notation U := (4 * Hb * Vb / d)%R.
Local Notation M := (q64 ^ 19 * U)%R.
Lemma rng_d : rng d (-200) 200.
Proof. destruct Hdc as [_ [H1 H2]]. split; [eapply Rle_trans; [|exact H1]|eapply Rle_trans; [exact H2|]]; now apply bpow_le. Qed.
Lemma fin_d : fin (dc h). Proof. apply Hdc. Qed.
Lemma d0 : (0 < d)%R. Proof. exact (rng_pos _ _ _ rng_d). Qed.
Lemma HH2 : (bpow radix2 (-200) <= Hb)%R. Proof. destruct HH as [H _]. eapply Rle_trans; [|exact H]. now apply bpow_le. Qed.
Lemma HV2 : (bpow radix2 (-200) <= Vb)%R. Proof. destruct HV as [H _]. eapply Rle_trans; [|exact H]. now apply bpow_le. Qed.
Lemma HD2 : (bpow radix2 (-200) <= Db)%R. Proof. destruct HD as [H _]. eapply Rle_trans; [|exact H]. now apply bpow_le. Qed.
Lemma U_rng : (bpow radix2 (-298) <= U <= bpow radix2 302)%R.
Proof.
  destruct Hdc as [_ [H1 H2]]. pose proof d0 as Dp. destruct HH as [a1 a2], HV as [b1 b2].
  pose proof (bpow_gt_0 radix2 (-100)) as z1. pose proof (bpow_gt_0 radix2 100) as z2.
  assert (I1 : (bpow radix2 (-100) <= / d)%R). { change (-100) with (- (100)). rewrite bpow_opp. apply Rinv_le_contravar; assumption. }
  assert (I2 : (/ d <= bpow radix2 100)%R). { change 100 with (- (-100)). rewrite bpow_opp. apply Rinv_le_contravar; assumption. }
  replace U with (bpow radix2 2 * (Hb * Vb * / d))%R by (change (bpow radix2 2) with 4%R; field; lra).
  change (-298) with (2 + (-100 + -100 + -100)). change 302 with (2 + (100 + 100 + 100)). rewrite !(bpow_plus radix2 2).
  split; (apply Rmult_le_compat_l; [apply bpow_ge_0|]); rewrite !bpow_plus;
    repeat (apply Rmult_le_compat; try assumption; try apply bpow_ge_0; try (apply Rmult_le_pos; (apply bpow_ge_0 || lra)); try lra).
Qed.
Lemma q19 : (1 <= q64 ^ 19 <= 2)%R. Proof. split; [apply qk1|apply qk_2; lia]. Qed.
Lemma M_rng : (bpow radix2 (-298) <= M <= bpow radix2 303)%R.
Proof.
  pose proof U_rng as [u1 u2]. pose proof q19 as [a b]. pose proof (bpow_gt_0 radix2 (-298)) as z. split.
  - apply Rle_trans with (1 * U)%R; [lra|]. apply Rmult_le_compat_r; lra.
  - change 303 with (1 + 302). rewrite bpow_plus. change (bpow radix2 1) with 2%R. apply Rmult_le_compat; lra.
Qed.

(** ** Finite tendencies *)
Ltac okk := split; lia.
Lemma fold_fin s n c : ready S n -> bounded S k Hb Vb s n -> 0 <= c < NC -> bd 507 (fold_h cc ss pp S s k n c).
Proof.
  intros Hr [B1 B2] Hc. pose proof (ready_hex S Hok n Hr) as Hm.
  assert (Hh : forall c, 0 <= c < NC -> bd 100 (mr n (HCell s) [c; k])) by (intros c' Hc'; destruct (B1 c' Hc') as [f1 f2]; split; [exact f1|]; destruct HH; lra).
  assert (Hv : forall e, 0 <= e < 3 * NC -> bd 100 (mr n (VnEdge s) [e; k])) by (intros c' Hc'; destruct (B2 c' Hc') as [f1 f2]; split; [exact f1|]; destruct HV; lra).
  assert (PC : forall j, 0 <= j < 6 -> bd 501 (pc cc ss pp S s k n c j)).
  { intros j Hj. unfold pc, gg. assert (He : 0 <= hE (nx h) (ny h) c j < 3 * NC) by (apply hE_range; lia).
    apply (bd_mul cc ss pp 401 100); [|now apply Hv|okk]. apply (bd_mul cc ss pp 301 100); [| |okk].
    - apply (bd_mul cc ss pp 301 0); [|apply bd_sign; unfold hesc; destruct (_ =? _); auto|okk].
      apply (bd_mul cc ss pp 100 201); [apply (ps_bd _ _ _ (psx_dve cc ss pp S Hdc))|apply (ps_bd _ _ _ (psx_ia cc ss pp S Hdc))|okk].
    - unfold f_mean. rewrite !(hm_coe _ _ _ Hm) by lia.
      apply (bd_mul cc ss pp (-1) 101); [apply (ps_bd _ _ _ (ps_half cc ss pp))| |okk]. apply (bd_add cc ss pp 100 100); [apply Hh, hcoe_range; lia|apply Hh, hcoe_range; lia|okk]. }
  unfold fold_h. set (p := pc cc ss pp S s k n c) in *.
  change (iterZ 6 (fun j (a : F A) => (a - p j)%fp) (#0)%fp) with ((#0 - p 0 - p 1 - p 2 - p 3 - p 4 - p 5) : F A)%fp.
  apply (bd_sub cc ss pp 506 501); [|apply PC; lia|okk]. apply (bd_sub cc ss pp 505 501); [|apply PC; lia|okk].
  apply (bd_sub cc ss pp 504 501); [|apply PC; lia|okk]. apply (bd_sub cc ss pp 503 501); [|apply PC; lia|okk].
  apply (bd_sub cc ss pp 502 501); [|apply PC; lia|okk]. apply (bd_sub cc ss pp 501 501); [|apply PC; lia|okk].
  apply zero_bd, z0.
Qed.
Lemma tend_le s time n c : ready S n -> bounded S k Hb Vb s n -> 0 <= c < NC -> fin_le M (mr (tendency_fn S Tend s time Replace n) (HCell Tend) [c; k]).
Proof.
  intros Hr HB Hc. destruct (TI_tend cc ss pp S Hok HX HY d fin_d eq_refl rng_d Eh Ek k Hk Hb Vb HH2 HV2 s time n Hr HB) as [T1 T2].
  assert (G : forall c, 0 <= c < NC -> fin (mr (tendency_fn S Tend s time Replace n) (HCell Tend) [c; k])).
  { intros c' Hc'. rewrite (tend_val cc ss pp S Hok HX HY) by assumption. apply (bd_fin (Z.max 507 507 + 1)).
    apply (bd_add cc ss pp 507 507); [apply zero_bd, z0|now apply fold_fin|okk]. }
  split; [now apply G|]. now apply T2.
Qed.

(** ** One update *)
Definition zV n : Prop := forall e, 0 <= e < 3 * NC -> zero (mr n (VnEdge Tend) [e; k]).
Lemma hb_top : (Hb <= bpow radix2 900)%R. Proof. destruct HH as [_ H]. eapply Rle_trans; [exact H|]. now apply bpow_le. Qed.
Lemma upd_le dst base (dt b : F A) (beta xb tb : R) n : (bpow radix2 (-10) <= beta <= 2)%R -> (M <= tb <= 10 * M)%R -> fin_le Db dt -> fin_le beta b ->
  bounded S k xb Vb base n -> (forall c, 0 <= c < NC -> fin_le tb (mr n (HCell Tend) [c; k])) -> zV n ->
  (xb + q64 * (q64 * (Db * beta) * tb) <= Hb)%R ->
  bounded S k (xb + q64 * (q64 * (Db * beta) * tb) + eps64 * Hb) Vb dst (axpy S dst base dt b n).
Proof.
  intros Hbeta Htb Hdt Hbb [B1 B2] HT HZ Hs. pose proof q1 as Q1. pose proof q_ub as Q2. pose proof M_rng as [m1 m2]. destruct HD as [d1 d2].
  pose proof (bpow_gt_0 radix2 (-100)) as z1. pose proof (bpow_gt_0 radix2 (-298)) as z2. pose proof (bpow_gt_0 radix2 (-10)) as z3.
  assert (w1 : (bpow radix2 (-110) <= Db * beta)%R).
  { change (-110) with (-100 + -10). rewrite bpow_plus. apply Rmult_le_compat; lra. }
  assert (w2 : (Db * beta <= bpow radix2 101)%R).
  { change 101 with (100 + 1). rewrite bpow_plus. change (bpow radix2 1) with 2%R. apply Rmult_le_compat; lra. }
  assert (W : fin_le (q64 * (Db * beta)) (dt * b)%fp).
  { apply mul_le; auto; [eapply Rle_trans; [|exact w1]|eapply Rle_trans; [exact w2|]]; now apply bpow_le. }
  assert (w3 : (bpow radix2 (-110) <= q64 * (Db * beta))%R) by (pose proof (bpow_gt_0 radix2 (-110)); apply Rle_trans with (1 * (Db * beta))%R; [lra|apply Rmult_le_compat_r; lra]).
  assert (w4 : (q64 * (Db * beta) <= bpow radix2 102)%R).
  { change 102 with (1 + 101). rewrite bpow_plus. change (bpow radix2 1) with 2%R. apply Rmult_le_compat; try lra. pose proof (bpow_gt_0 radix2 (-110)). lra. }
  split; intros i Hi.
  - rewrite (axpy_h cc ss pp S k Hk) by exact Hi. apply (add_le cc ss pp); auto using hb_top. apply (mul_le cc ss pp); auto.
    + apply Rle_trans with (bpow radix2 (-110) * bpow radix2 (-298))%R; [rewrite <- bpow_plus; now apply bpow_le|].
      apply Rmult_le_compat; try apply bpow_ge_0; lra.
    + apply Rle_trans with (bpow radix2 102 * bpow radix2 307)%R; [|rewrite <- bpow_plus; now apply bpow_le].
      pose proof (bpow_gt_0 radix2 (-110)). apply Rmult_le_compat; try lra. apply Rle_trans with (10 * M)%R; [lra|].
      change 307 with (4 + 303). rewrite bpow_plus. change (bpow radix2 4) with 16%R. pose proof (bpow_gt_0 radix2 303). lra.
  - rewrite (axpy_vv cc ss pp S) by assumption. apply add_zv; [now apply B2|]. apply z_mul_r; [apply W|now apply HZ].
Qed.
Lemma zV_other n n' : (forall a ix, is_st Tend a = true -> mr n' a ix = mr n a ix) -> zV n -> zV n'.
Proof. intros E HT e He. rewrite E by reflexivity. auto. Qed.
Lemma zV_tend s time md n : s <> Tend -> ready S n -> zV n -> zV (tendency_fn S Tend s time md n).
Proof.
  intros Hs Hr HZ e He. rewrite (val_v S); auto using ok_wfd; [|now apply ready_wfm]. unfold hk_v. rewrite Ek, Ev. now apply HZ.
Qed.
Lemma bnd_other s n n' (a b : R) : (forall x ix, is_st s x = true -> mr n' x ix = mr n x ix) -> bounded S k a b s n -> bounded S k a b s n'.
Proof.
  intros E [B1 B2]. assert (T : (if sid_eq_dec s s then true else false) = true) by (destruct (sid_eq_dec s s); congruence).
  split; intros; rewrite E by exact T; auto.
Qed.
Lemma bnd_weak s n (a b : R) : (a <= b)%R -> bounded S k a Vb s n -> bounded S k b Vb s n.
Proof. intros H [B1 B2]. split; [|exact B2]. intros c Hc. apply (le_weak cc ss pp a); auto. Qed.
Lemma other_axpy r dst base (dt b : F A) n a ix : r <> dst -> is_st r a = true -> mr (axpy S dst base dt b n) a ix = mr n a ix.
Proof. intros Hr Ha. apply axpy_other. now apply (is_st_ne r). Qed.
Lemma other_tend r s time md n a ix : r <> Tend -> is_st r a = true -> mr (tendency_fn S Tend s time md n) a ix = mr n a ix.
Proof.
  intros Hr Ha. assert (N : is_st Tend a = false) by now apply (is_st_ne r).
  apply tend_other; try (intros ->; discriminate); destruct a; try discriminate Ha; reflexivity.
Qed.
Lemma save_bnd n (a b : R) : bounded S k a b St n -> bounded S k a b Old (save_fn S n).
Proof.
  intros [H1 H2]. unfold save_fn. cbv zeta. split; intros.
  - rewrite !(upd_other _ (TrCell Old)), !(upd_other _ (VnEdge Old)) by discriminate.
    rewrite upd_same by (cbn [rext]; apply inb2; split; assumption). auto.
  - rewrite (upd_other _ (TrCell Old)) by discriminate. rewrite upd_same by (cbn [rext]; apply inb2; split; assumption).
    rewrite upd_other by discriminate. auto.
Qed.
Local Notation good := (fun m : mem A => bounded S k Hb Vb St m /\ bounded S k Hb Vb Provis m).
Lemma mix_good : mixes good.
Proof.
  intros m1 m2 m E [[a1 a2] [a3 a4]] [[b1 b2] [b3 b4]]. repeat split;
    match goal with |- context [mr m ?x ?ix] => destruct (E x ix) as [-> | ->]; [auto| |] end; try (now apply a1 || apply a2 || apply a3 || apply a4 || apply b1 || apply b2 || apply b3 || apply b4).
Qed.

(** ** The classical method *)
Local Notation J := (q64 ^ 22 * (Db * U) + 4 * (eps64 * Hb))%R.
Definition K (hb : R) n : Prop := ready S n /\ bounded S k hb Vb St n /\ bounded S k Hb Vb Provis n /\ zV n.
Lemma q3M : (q64 * (q64 * (Db * q64) * M) = q64 ^ 22 * (Db * U))%R.
Proof. pose proof d0. replace (q64 ^ 22)%R with (q64 * q64 * q64 * q64 ^ 19)%R by (cbn [pow]; ring). field. lra. Qed.
Lemma U_pos : (0 < U)%R. Proof. pose proof U_rng as [u _]. pose proof (bpow_gt_0 radix2 (-298)). lra. Qed.
Lemma DU_pos : (0 < q64 ^ 22 * (Db * U))%R.
Proof. pose proof U_pos. destruct HD as [d1 _]. pose proof (bpow_gt_0 radix2 (-100)). apply Rmult_lt_0_compat; [apply qk0|]. apply Rmult_lt_0_compat; lra. Qed.
Lemma Hb_pos : (0 < Hb)%R. Proof. destruct HH as [d1 _]. pose proof (bpow_gt_0 radix2 (-100)). lra. Qed.
Lemma rka_le i : fin_le q64 (rk4_a i : F A).
Proof.
  pose proof q1. unfold rk4_a. destruct (_ =? _).
  - destruct (ofZ_val cc ss pp 1 ltac:(reflexivity)) as [G1 G2]. split; [exact G1|]. rewrite G2, Rabs_R1. lra.
  - apply quot_le; [lia|lia|lia|cbn [Z.abs]; lra].
Qed.
Definition K1 (h0 hb : R) n : Prop := ready S n /\ bounded S k hb Vb St n /\ bounded S k h0 Vb Old n /\ bounded S k Hb Vb Provis n /\ zV n /\
  forall c, 0 <= c < NC -> fin_le M (mr n (HCell Tend) [c; k]).
Lemma adv_tend (h0 hb : R) s time n : (hb <= Hb)%R -> s = St \/ s = Provis ->
  ready S n -> bounded S k hb Vb St n -> bounded S k h0 Vb Old n -> bounded S k Hb Vb Provis n -> zV n ->
  along D (compute_tendency S Tend s time Replace) n good /\ K1 h0 hb (tendency_fn S Tend s time Replace n).
Proof.
  intros Hh0 Hs Hr B1 B2 B3 HZ. assert (Ns : s <> Tend) by (destruct Hs as [-> | ->]; discriminate).
  assert (B1' : bounded S k Hb Vb St n) by now apply (bnd_weak St n hb).
  split; [apply (along_tend S Hok En Ev Eh Et Ek); auto; apply mixes_about, mix_good|].
  split; [eapply ready_cst; [apply cst_tendency|exact Hr]|].
  split; [eapply bnd_other; [|exact B1]; intros; now apply (other_tend St)|]. split; [eapply bnd_other; [|exact B2]; intros; now apply (other_tend Old)|].
  split; [eapply bnd_other; [|exact B3]; intros; now apply (other_tend Provis)|]. split; [now apply zV_tend|].
  intros c Hc. apply tend_le; auto. destruct Hs as [-> | ->]; assumption.
Qed.
Lemma beta_rng i : (bpow radix2 (-10) <= q64 * rk4_beta i <= 2)%R.
Proof. split; [apply (rk4_b_low i)|]. pose proof q_ub. unfold rk4_beta. destruct (_ || _); lra. Qed.
Lemma M_M : (M <= M <= 10 * M)%R. Proof. pose proof M_rng as [u _]. pose proof (bpow_gt_0 radix2 (-298)). lra. Qed.
Lemma q3b i : (q64 * (q64 * (Db * (q64 * rk4_beta i)) * M) = rk4_beta i * (q64 ^ 22 * (Db * U)))%R.
Proof. rewrite <- q3M. ring. Qed.
Lemma adv_stage (h0 hb : R) (t dt : F A) i n : fin_le Db dt -> i < 3 -> (h0 + J <= Hb)%R ->
  (hb + rk4_beta i * (q64 ^ 22 * (Db * U)) + eps64 * Hb <= Hb)%R -> K1 h0 hb n ->
  along D (rk4_stage S t dt i) n good /\ K1 h0 (hb + rk4_beta i * (q64 ^ 22 * (Db * U)) + eps64 * Hb) (rk4_stage_fn S t dt i n).
Proof.
  intros Hdt Hi L1 L2 (Hr & B1 & B2 & B3 & HZ & HT). pose proof (ok_wfd S Hok) as Hw. pose proof (ok_ntr S Hok) as Hnt. unfold rk4_stage, rk4_stage_fn. cbv zeta.
  replace (i <? 4 - 1) with true by (symmetry; apply Z.ltb_lt; lia). cbn [whenL].
  pose proof Hb_pos as HP. pose proof eps_pos as EP. pose proof DU_pos as DP. assert (EH : (0 < eps64 * Hb)%R) by (apply Rmult_lt_0_compat; lra).
  pose proof (upd_le St St dt (rk4_b i) (q64 * rk4_beta i) hb M n (beta_rng i) M_M Hdt (rk4_b_le cc ss pp S Eh i) B1 HT HZ) as U1.
  rewrite q3b in U1. specialize (U1 ltac:(lra)). set (n1 := axpy S St St dt (rk4_b i) n) in *.
  set (hb1 := (hb + rk4_beta i * (q64 ^ 22 * (Db * U)) + eps64 * Hb)%R) in *.
  assert (BP : (0 < rk4_beta i)%R) by (unfold rk4_beta; destruct (_ || _); lra).
  assert (BD : (0 < rk4_beta i * (q64 ^ 22 * (Db * U)))%R) by (apply Rmult_lt_0_compat; lra).
  assert (G0 : good n) by (split; [apply (bnd_weak St n hb); [unfold hb1 in *; lra|exact B1]|exact B3]).
  assert (R1 : ready S n1) by (eapply ready_cst; [apply cst_axpy|exact Hr]).
  assert (C2 : bounded S k h0 Vb Old n1) by (eapply bnd_other; [|exact B2]; intros; now apply (other_axpy Old)).
  assert (C3 : bounded S k Hb Vb Provis n1) by (eapply bnd_other; [|exact B3]; intros; now apply (other_axpy Provis)).
  assert (CZ : zV n1) by (eapply zV_other; [|exact HZ]; intros; now apply (other_axpy Tend)).
  assert (CT : forall c, 0 <= c < NC -> fin_le M (mr n1 (HCell Tend) [c; k])) by (intros c Hc; unfold n1; rewrite (other_axpy Tend) by (discriminate || reflexivity); auto).
  assert (G1 : good n1) by (split; [apply (bnd_weak St n1 hb1); [lra|exact U1]|exact C3]).
  assert (Qr : (bpow radix2 (-10) <= q64 <= 2)%R).
  { pose proof q1. pose proof q_ub. split; [|lra]. replace (bpow radix2 (-10)) with (/ 1024)%R by reflexivity. lra. }
  pose proof (upd_le Provis Old dt (rk4_a i) q64 h0 M n1 Qr M_M Hdt (rka_le i) C2 CT CZ) as U2.
  rewrite q3M in U2. specialize (U2 ltac:(lra)). set (n2 := axpy S Provis Old dt (rk4_a i) n1) in *.
  assert (R2 : ready S n2) by (eapply ready_cst; [apply cst_axpy|exact R1]).
  assert (V3 : bounded S k Hb Vb Provis n2) by (eapply bnd_weak; [|exact U2]; lra).
  assert (V1 : bounded S k hb1 Vb St n2) by (eapply bnd_other; [|exact U1]; intros; now apply (other_axpy St)).
  assert (V2 : bounded S k h0 Vb Old n2) by (eapply bnd_other; [|exact C2]; intros; now apply (other_axpy Old)).
  assert (VZ : zV n2) by (eapply zV_other; [|exact CZ]; intros; now apply (other_axpy Tend)).
  destruct (adv_tend h0 hb1 Provis (t + rk4_c i * dt)%fp n2 ltac:(lra) (or_intror eq_refl) R2 V1 V2 V3 VZ) as [A3 K3].
  split; [|exact K3]. apply (along_fn D _ _ n good (axpy S St St dt (rk4_b i)) (hs_accumulate S dt (rk4_b i) n)); [now apply (along_acc S En Ev Eh Et); [apply mix_good| |]|].
  apply (along_fn D _ _ n1 good (axpy S Provis Old dt (rk4_a i)) (hs_provis S dt (rk4_a i) n1)); [|exact A3].
  apply (along_prov S En Ev Eh Et); [apply mix_good|exact G1|]. split; [|exact V3]. eapply bnd_weak; [|exact V1]. lra.
Qed.
Lemma adv_rk4 (hb : R) (t dt : F A) n : fin_le Db dt -> (hb + J <= Hb)%R -> K hb n ->
  along D (rk4_step S t dt) n good /\ K (hb + J) (rk4_fn S t dt n).
Proof.
  intros Hdt L1 (Hr & B1 & B3 & HZ). pose proof (ok_wfd S Hok) as Hw. pose proof (ok_ntr S Hok) as Hnt.
  pose proof Hb_pos as HP. pose proof eps_pos as EP. pose proof DU_pos as DP. assert (EH : (0 < eps64 * Hb)%R) by (apply Rmult_lt_0_compat; lra).
  assert (G0 : good n) by (split; [apply (bnd_weak St n hb); [lra|exact B1]|exact B3]).
  unfold rk4_step, rk4_fn. set (n0 := save_fn S n).
  assert (R0 : ready S n0) by (eapply ready_cst; [apply cst_save|exact Hr]).
  assert (C1 : bounded S k hb Vb St n0) by (eapply bnd_other; [|exact B1]; intros; apply save_other; apply (is_st_ne St); congruence).
  assert (C3 : bounded S k Hb Vb Provis n0) by (eapply bnd_other; [|exact B3]; intros; apply save_other; apply (is_st_ne Provis); congruence).
  assert (CZ : zV n0) by (eapply zV_other; [|exact HZ]; intros; apply save_other; apply (is_st_ne Tend); congruence).
  pose proof (save_bnd n hb Vb B1) as C2. fold n0 in C2.
  destruct (adv_tend hb hb St t n0 ltac:(lra) (or_introl eq_refl) R0 C1 C2 C3 CZ) as [A1 K1'].
  set (m0 := tendency_fn S Tend St t Replace n0) in *.
  change (zseq 4) with [0; 1; 2; 3]. cbn [flat_map fold_left].
  assert (E0 : rk4_beta 0 = (1 / 6)%R) by reflexivity. assert (E1 : rk4_beta 1 = (1 / 3)%R) by reflexivity. assert (E2 : rk4_beta 2 = (1 / 3)%R) by reflexivity. assert (E3 : rk4_beta 3 = (1 / 6)%R) by reflexivity.
  set (w := (q64 ^ 22 * (Db * U))%R) in *.
  destruct (adv_stage hb hb t dt 0 m0 Hdt ltac:(lia) L1 ltac:(fold w; rewrite E0; lra) K1') as [S0 I0]. fold w in I0. rewrite E0 in I0. set (m1 := rk4_stage_fn S t dt 0 m0) in *.
  match type of I0 with K1 _ ?b _ => set (b0 := b) in * end.
  destruct (adv_stage hb b0 t dt 1 m1 Hdt ltac:(lia) L1 ltac:(fold w; rewrite E1; unfold b0; lra) I0) as [S1 I1]. fold w in I1. rewrite E1 in I1. set (m2 := rk4_stage_fn S t dt 1 m1) in *.
  match type of I1 with K1 _ ?b _ => set (b1 := b) in * end.
  destruct (adv_stage hb b1 t dt 2 m2 Hdt ltac:(lia) L1 ltac:(fold w; rewrite E2; unfold b1, b0; lra) I1) as [S2 I2]. fold w in I2. rewrite E2 in I2. set (m3 := rk4_stage_fn S t dt 2 m2) in *.
  match type of I2 with K1 _ ?b _ => set (b2 := b) in * end.
  destruct I2 as (Hr3 & D1 & D2 & D3 & DZ & DT). unfold rk4_stage at 4. unfold rk4_stage_fn. cbv zeta. change (3 <? 4 - 1) with false. cbn [whenL]. rewrite !app_nil_r.
  pose proof (upd_le St St dt (rk4_b 3) (q64 * rk4_beta 3) b2 M m3 (beta_rng 3) M_M Hdt (rk4_b_le cc ss pp S Eh 3) D1 DT DZ) as U1.
  rewrite q3b, E3 in U1. fold w in U1. specialize (U1 ltac:(unfold b2, b1, b0; lra)). set (m4 := axpy S St St dt (rk4_b 3) m3) in *.
  assert (F1 : bounded S k (hb + (w + 4 * (eps64 * Hb))) Vb St m4) by (eapply bnd_weak; [|exact U1]; unfold b2, b1, b0; lra).
  assert (F3 : bounded S k Hb Vb Provis m4) by (eapply bnd_other; [|exact D3]; intros; now apply (other_axpy Provis)).
  split.
  - apply (along_fn D _ _ n good (save_fn S) (hs_save cc ss pp S n)); [apply along_save; [apply mixes_about, mix_good|exact G0]|]. fold n0.
    apply (along_fn D _ _ n0 good (tendency_fn S Tend St t Replace) (rd_tendency S Hok Tend St t Replace n0 R0 ltac:(discriminate)) A1). fold m0.
    assert (hst : forall i m, ready S m -> hsafe D (rk4_stage S t dt i) m (fun M' => meq M' (rk4_stage_fn S t dt i m))).
    { intros i m Hm. unfold rk4_stage, rk4_stage_fn. cbv zeta. eapply hsafe_seq; [apply hs_accumulate|].
      apply hsafe_when with (f := fun m1 => tendency_fn S Tend Provis _ Replace (axpy S Provis Old _ _ m1)).
      eapply hsafe_seq; [apply hs_provis|]. apply hs_tendency; auto; [discriminate|]. apply wfm_axpy, wfm_axpy. now apply ready_wfm. }
    apply (along_fn D _ _ m0 good (rk4_stage_fn S t dt 0) (hst 0 m0 (proj1 K1')) S0). fold m1.
    apply (along_fn D _ _ m1 good (rk4_stage_fn S t dt 1) (hst 1 m1 (proj1 I0)) S1). fold m2.
    apply (along_fn D _ _ m2 good (rk4_stage_fn S t dt 2) (hst 2 m2 (proj1 I1)) S2). fold m3.
    apply (along_acc S En Ev Eh Et); [apply mix_good| |].
    + split; [eapply bnd_weak; [|exact D1]; unfold b2, b1, b0; lra|exact D3].
    + split; [eapply bnd_weak; [|exact F1]; lra|exact F3].
  - split; [eapply ready_cst; [apply cst_axpy|exact Hr3]|]. split; [exact F1|]. split; [exact F3|].
    eapply zV_other; [|exact DZ]. intros. now apply (other_axpy Tend).
Qed.
Lemma adv_rk4_run (steps : list (F A * F A)) (hb : R) n : (forall x, In x steps -> fin_le Db (snd x)) -> (hb + INR (length steps) * J <= Hb)%R -> K hb n ->
  along D (rk4_run S steps) n good.
Proof.
  revert hb n. induction steps as [|x l IH]; intros hb n Hx L HK.
  - destruct HK as (Hr & B1 & B3 & _). apply along_nil. split; [|exact B3]. eapply bnd_weak; [|exact B1]. cbn [length INR] in L. lra.
  - change (rk4_run S (x :: l)) with (rk4_step S (fst x) (snd x) ++ rk4_run S l). change (length (x :: l)) with (Datatypes.S (length l)) in L. rewrite S_INR in L.
    assert (JP : (0 < J)%R).
    { pose proof DU_pos. pose proof Hb_pos. pose proof eps_pos. assert (0 < eps64 * Hb)%R by (apply Rmult_lt_0_compat; lra). lra. }
    pose proof (pos_INR (length l)) as LP. assert (LJ : (0 <= INR (length l) * J)%R) by (apply Rmult_le_pos; lra).
    destruct (adv_rk4 hb (fst x) (snd x) n (Hx x (or_introl eq_refl)) ltac:(lra) HK) as [A1 K2].
    apply (along_fn D _ _ n good (rk4_fn S (fst x) (snd x)) (hs_rk4 S (ok_wfd S Hok) (ok_ntr S Hok) (fst x) (snd x) n (ready_wfm S Hok n (proj1 HK))) A1).
    apply (IH (hb + J)%R); [intros y Hy; apply Hx; now right|lra|exact K2].
Qed.

(** ** The low storage method *)
Local Notation St_ok := (fun m : mem A => bounded S k Hb Vb St m).
Lemma mix_St : mixes St_ok.
Proof.
  intros m1 m2 m E [a1 a2] [b1 b2]. split; intros;
    match goal with |- context [mr m ?x ?ix] => destruct (E x ix) as [-> | ->]; [auto| |] end; try (now apply a1 || apply a2 || apply b1 || apply b2).
Qed.
Local Notation LI mu sg := (TJ cc ss pp S k (mu * M) (sg * (eps64 * M))).
Local Notation J5 := (8.3 * (q64 ^ 21 * (Db * U)) + 5 * (eps64 * Hb))%R.
Definition K5 (hb : R) n : Prop := ready S n /\ bounded S k hb Vb St n /\ zV n /\ forall c, 0 <= c < NC -> fin_le (10 * M) (mr n (HCell Tend) [c; k]).
Lemma other_scale r (x : F A) n a ix : r <> Tend -> is_st r a = true -> mr (scale_fn S x n) a ix = mr n a ix.
Proof. intros Hr Ha. apply scale_other. now apply (is_st_ne r). Qed.
Lemma scale_v (x : F A) n e : 0 <= e < 3 * NC -> mr (scale_fn S x n) (VnEdge Tend) [e; k] = (mr n (VnEdge Tend) [e; k] * x)%fp.
Proof.
  intros He. unfold scale_fn. cbv zeta. rewrite Et. change (0 <? 0) with false. cbv iota.
  rewrite (upd_same _ (VnEdge Tend)) by (cbn [rext]; apply inb2; split; assumption). cbn [on2]. now rewrite upd_other by discriminate.
Qed.
Lemma adv_ls (hb beta mu sg : R) (t dt : F A) i n : fin_le Db dt -> fin_le beta (lsrk_b 5 i : F A) -> (1 / 1000 <= beta <= 2)%R -> (1 <= mu <= 10)%R -> K5 hb n ->
  (hb + beta * mu * (q64 ^ 21 * (Db * U)) + eps64 * Hb <= Hb)%R ->
  (bounded S k Hb Vb St n -> bounded S k Hb Vb St (scale_fn S (lsrk_a 5 i) n) ->
   LI mu sg (tendency_fn S Tend St (t + lsrk_c 5 i * dt)%fp Increment (scale_fn S (lsrk_a 5 i) n))) ->
  let n' := lsrk_stage_fn S 5 t dt i n in
  along D (lsrk_stage S 5 t dt i) n St_ok /\ K5 (hb + beta * mu * (q64 ^ 21 * (Db * U)) + eps64 * Hb) n' /\ LI mu sg n'.
Proof.
  intros Hdt Hbb Hbe Hmu (Hr & B1 & HZ & HT) L1 HL. cbv zeta. pose proof (ok_wfd S Hok) as Hw. pose proof (ok_ntr S Hok) as Hnt.
  pose proof Hb_pos as HP. pose proof eps_pos as EP. assert (EH : (0 < eps64 * Hb)%R) by (apply Rmult_lt_0_compat; lra).
  pose proof M_rng as [m1 m2]. pose proof (bpow_gt_0 radix2 (-298)) as z2.
  assert (Eq : (q64 * (q64 * (Db * beta) * (mu * M)) = beta * mu * (q64 ^ 21 * (Db * U)))%R).
  { pose proof d0. replace (q64 ^ 21)%R with (q64 * q64 * q64 ^ 19)%R by (cbn [pow]; ring). field. lra. }
  assert (W0 : (0 < beta * mu * (q64 ^ 21 * (Db * U)))%R).
  { pose proof U_pos. destruct HD as [d1 _]. pose proof (bpow_gt_0 radix2 (-100)).
    apply Rmult_lt_0_compat; [apply Rmult_lt_0_compat; lra|]. apply Rmult_lt_0_compat; [apply qk0|]. apply Rmult_lt_0_compat; lra. }
  set (hb1 := (hb + beta * mu * (q64 ^ 21 * (Db * U)) + eps64 * Hb)%R) in *.
  assert (G0 : St_ok n) by (apply (bnd_weak St n hb); [unfold hb1 in *; lra|exact B1]).
  unfold lsrk_stage, lsrk_stage_fn. set (n1 := scale_fn S (lsrk_a 5 i) n) in *.
  assert (R1 : ready S n1) by (eapply ready_cst; [apply cst_scale|exact Hr]).
  assert (C1 : bounded S k hb Vb St n1) by (eapply bnd_other; [|exact B1]; intros; now apply (other_scale St)).
  assert (G1 : St_ok n1) by (apply (bnd_weak St n1 hb); [unfold hb1 in *; lra|exact C1]).
  assert (CZ : zV n1) by (intros e He; unfold n1; rewrite scale_v by exact He; apply z_mul_l; [now apply HZ|apply (bd_fin _ _ (bd_lsa cc ss pp 5 i))]).
  assert (CT : forall c, 0 <= c < NC -> bd 308 (mr n1 (HCell Tend) [c; k])).
  { intros c Hc. unfold n1. rewrite (scale_h cc ss pp S k Hk) by exact Hc. apply (bd_mul cc ss pp 307 1); [|apply bd_lsa|okk].
    destruct (HT c Hc) as [F1 F2]. split; [exact F1|]. change 307 with (4 + 303). rewrite bpow_plus. change (bpow radix2 4) with 16%R. pose proof (bpow_gt_0 radix2 303). lra. }
  specialize (HL G0 G1). set (tm := (t + lsrk_c 5 i * dt)%fp) in *. set (n2 := tendency_fn S Tend St tm Increment n1) in *.
  assert (R2 : ready S n2) by (eapply ready_cst; [apply cst_tendency|exact R1]).
  assert (V1 : bounded S k hb Vb St n2) by (eapply bnd_other; [|exact C1]; intros; now apply (other_tend St)).
  assert (G2 : St_ok n2) by (apply (bnd_weak St n2 hb); [unfold hb1 in *; lra|exact V1]).
  assert (VZ : zV n2) by (apply zV_tend; auto; discriminate).
  assert (VT : forall c, 0 <= c < NC -> fin_le (mu * M) (mr n2 (HCell Tend) [c; k])).
  { assert (F : forall c, 0 <= c < NC -> fin (mr n2 (HCell Tend) [c; k])).
    { intros c Hc. unfold n2. rewrite (tend_val cc ss pp S Hok HX HY) by assumption. apply (bd_fin (Z.max 308 507 + 1)). apply (bd_add cc ss pp 308 507); [now apply CT|now apply fold_fin|okk]. }
    intros c Hc. split; [now apply F|]. now apply (proj2 HL F). }
  assert (MM : (M <= mu * M <= 10 * M)%R).
  { split; [apply Rle_trans with (1 * M)%R; [lra|]|]; apply Rmult_le_compat_r; lra. }
  assert (Br : (bpow radix2 (-10) <= beta <= 2)%R) by (split; [replace (bpow radix2 (-10)) with (/ 1024)%R by reflexivity; lra|lra]).
  pose proof (upd_le St St dt (lsrk_b 5 i) beta hb (mu * M) n2 Br MM Hdt Hbb V1 VT VZ) as U1.
  rewrite Eq in U1. specialize (U1 ltac:(unfold hb1 in *; lra)). fold hb1 in U1. set (n3 := axpy S St St dt (lsrk_b 5 i) n2) in *.
  split; [|split].
  - apply (along_fn D _ _ n St_ok (scale_fn S (lsrk_a 5 i)) (hs_scale S (lsrk_a 5 i) n)); [apply (along_scale S En Ev Eh Et); [apply mixes_about, mix_St|exact G0]|]. fold n1.
    apply (along_fn D _ _ n1 St_ok (tendency_fn S Tend St tm Increment) (rd_tendency S Hok Tend St tm Increment n1 R1 ltac:(discriminate)));
      [apply (along_tend S Hok En Ev Eh Et Ek); auto; [apply mixes_about, mix_St|discriminate]|]. fold n2.
    apply (along_acc S En Ev Eh Et); [apply mix_St|exact G2|]. eapply bnd_weak; [|exact U1]. exact L1.
  - split; [eapply ready_cst; [apply cst_axpy|exact R2]|]. split; [exact U1|].
    split; [eapply zV_other; [|exact VZ]; intros; now apply (other_axpy Tend)|].
    intros c Hc. unfold n3. rewrite (other_axpy Tend) by (discriminate || reflexivity). apply (le_weak cc ss pp (mu * M)); [now apply VT|lra].
  - apply (TI_other cc ss pp S k _ _ n2); [|exact HL]. intros. now apply (other_axpy Tend).
Qed.
Ltac ql := apply quot_le; [lia|lia|lia|cbn [Z.abs]; pose proof q_ub; lra].
Lemma hs_ls_stage (t dt : F A) i n : ready S n -> hsafe D (lsrk_stage S 5 t dt i) n (fun m' => meq m' (lsrk_stage_fn S 5 t dt i n)).
Proof.
  intros Hr. pose proof (ok_wfd S Hok) as Hw. pose proof (ok_ntr S Hok) as Hnt. pose proof (ready_wfm S Hok n Hr) as Hm. unfold lsrk_stage, lsrk_stage_fn.
  eapply hsafe_seq; [apply hs_scale|]. eapply hsafe_seq; [apply hs_tendency; auto; [discriminate|now apply wfm_scale]|]. apply hs_accumulate.
Qed.
Lemma adv_lsrk (hb : R) (t dt : F A) n : fin_le Db dt -> (hb + J5 <= Hb)%R -> K5 hb n ->
  along D (lsrk_step S 5 t dt) n St_ok /\ K5 (hb + J5) (lsrk_fn S 5 t dt n).
Proof.
  intros Hdt L1 HK. pose proof q_ub as Q1. pose proof q2_ub as Q2. pose proof q0 as Q0. pose proof Hb_pos as HP. pose proof eps_pos as EP.
  assert (EH : (0 < eps64 * Hb)%R) by (apply Rmult_lt_0_compat; lra).
  unfold lsrk_step, lsrk_fn. change (zseq 5) with [0; 1; 2; 3; 4]. cbn [flat_map fold_left].
  set (w := (q64 ^ 21 * (Db * U))%R) in *.
  assert (W0 : (0 < w)%R).
  { pose proof U_pos. destruct HD as [d1 _]. pose proof (bpow_gt_0 radix2 (-100)). apply Rmult_lt_0_compat; [apply qk0|]. apply Rmult_lt_0_compat; lra. }
  destruct (adv_ls hb 0.15 1.001 7 t dt 0 n Hdt ltac:(ql) ltac:(lra) ltac:(lra) HK ltac:(fold w; lra)) as (A0 & K0 & I0).
  { intros G0 G1. replace 1.001%R with (1001 / 1000)%R by lra. destruct HK as (Hr & _ & _ & HT).
    apply (lsrk_incr0 cc ss pp S Hok HX HY d fin_d eq_refl rng_d Eh Ek k Hk Hb Vb HH2 HV2); auto. intros c Hc. now apply fin_dbl, HT. }
  pose proof (hs_ls_stage t dt 0 n (proj1 HK)) as H0.
  fold w in K0. set (n0 := lsrk_stage_fn S 5 t dt 0 n) in *. match type of K0 with K5 ?b _ => set (b0 := b) in * end.
  destruct (adv_ls b0 0.38 1.42 10.78 t dt 1 n0 Hdt ltac:(ql) ltac:(lra) ltac:(lra) K0 ltac:(fold w; unfold b0; lra)) as (A1 & K1' & I1).
  { intros G0 G1. apply (lsrk_incr cc ss pp S Hok HX HY d fin_d eq_refl rng_d Eh Ek k Hk Hb Vb HH2 HV2 (lsrk_a 5 1) 0.418 1.001 7); auto; [ql|lra|lra|lra|lra|apply K0]. }
  pose proof (hs_ls_stage t dt 1 n0 (proj1 K0)) as H1.
  fold w in K1'. set (n1 := lsrk_stage_fn S 5 t dt 1 n0) in *. match type of K1' with K5 ?b _ => set (b1 := b) in * end.
  destruct (adv_ls b1 0.823 2.7 23.26 t dt 2 n1 Hdt ltac:(ql) ltac:(lra) ltac:(lra) K1' ltac:(fold w; unfold b1, b0; lra)) as (A2 & K2 & I2).
  { intros G0 G1. apply (lsrk_incr cc ss pp S Hok HX HY d fin_d eq_refl rng_d Eh Ek k Hk Hb Vb HH2 HV2 (lsrk_a 5 2) 1.193 1.42 10.78); auto; [ql|lra|lra|lra|lra|apply K1']. }
  pose proof (hs_ls_stage t dt 2 n1 (proj1 K1')) as H2.
  fold w in K2. set (n2 := lsrk_stage_fn S 5 t dt 2 n1) in *. match type of K2 with K5 ?b _ => set (b2 := b) in * end.
  destruct (adv_ls b2 0.6995 5.59 55.7 t dt 3 n2 Hdt ltac:(ql) ltac:(lra) ltac:(lra) K2 ltac:(fold w; unfold b2, b1, b0; lra)) as (A3 & K3 & I3).
  { intros G0 G1. apply (lsrk_incr cc ss pp S Hok HX HY d fin_d eq_refl rng_d Eh Ek k Hk Hb Vb HH2 HV2 (lsrk_a 5 3) 1.698 2.7 23.26); auto; [ql|lra|lra|lra|lra|apply K2]. }
  pose proof (hs_ls_stage t dt 3 n2 (proj1 K2)) as H3.
  fold w in K3. set (n3 := lsrk_stage_fn S 5 t dt 3 n2) in *. match type of K3 with K5 ?b _ => set (b3 := b) in * end.
  destruct (adv_ls b3 0.1531 9.48 108.4 t dt 4 n3 Hdt ltac:(ql) ltac:(lra) ltac:(lra) K3 ltac:(fold w; unfold b3, b2, b1, b0; lra)) as (A4 & K4 & I4).
  { intros G0 G1. apply (lsrk_incr cc ss pp S Hok HX HY d fin_d eq_refl rng_d Eh Ek k Hk Hb Vb HH2 HV2 (lsrk_a 5 4) 1.515 5.59 55.7); auto; [ql|lra|lra|lra|lra|apply K3]. }
  fold w in K4. set (n4 := lsrk_stage_fn S 5 t dt 4 n3) in *. match type of K4 with K5 ?b _ => set (b4 := b) in * end.
  split.
  - rewrite app_nil_r. apply (along_fn D _ _ n St_ok (lsrk_stage_fn S 5 t dt 0) H0 A0). apply (along_fn D _ _ n0 St_ok (lsrk_stage_fn S 5 t dt 1) H1 A1).
    apply (along_fn D _ _ n1 St_ok (lsrk_stage_fn S 5 t dt 2) H2 A2). apply (along_fn D _ _ n2 St_ok (lsrk_stage_fn S 5 t dt 3) H3 A3). exact A4.
  - destruct K4 as (Hr & B & Z4 & T4). split; [exact Hr|]. split; [|split; [exact Z4|exact T4]]. eapply bnd_weak; [|exact B]. unfold b4, b3, b2, b1, b0. lra.
Qed.
Lemma adv_lsrk_run (steps : list (F A * F A)) (hb : R) n : (forall x, In x steps -> fin_le Db (snd x)) -> (hb + INR (length steps) * J5 <= Hb)%R -> K5 hb n ->
  along D (lsrk_run S 5 steps) n St_ok.
Proof.
  revert hb n. induction steps as [|x l IH]; intros hb n Hx L HK.
  - destruct HK as (Hr & B1 & _). apply along_nil. eapply bnd_weak; [|exact B1]. cbn [length INR] in L. lra.
  - change (lsrk_run S 5 (x :: l)) with (lsrk_step S 5 (fst x) (snd x) ++ lsrk_run S 5 l). change (length (x :: l)) with (Datatypes.S (length l)) in L. rewrite S_INR in L.
    assert (JP : (0 < J5)%R).
    { pose proof U_pos as UP. destruct HD as [d1 _]. pose proof (bpow_gt_0 radix2 (-100)). pose proof Hb_pos. pose proof eps_pos. assert (0 < eps64 * Hb)%R by (apply Rmult_lt_0_compat; lra).
      assert (0 < q64 ^ 21 * (Db * U))%R by (apply Rmult_lt_0_compat; [apply qk0|]; apply Rmult_lt_0_compat; lra). lra. }
    pose proof (pos_INR (length l)) as LP. assert (LJ : (0 <= INR (length l) * J5)%R) by (apply Rmult_le_pos; lra).
    destruct (adv_lsrk hb (fst x) (snd x) n (Hx x (or_introl eq_refl)) ltac:(lra) HK) as [A1 K2].
    apply (along_fn D _ _ n St_ok (lsrk_fn S 5 (fst x) (snd x)) (hs_lsrk S (ok_wfd S Hok) (ok_ntr S Hok) 5 (fst x) (snd x) n (ready_wfm S Hok n (proj1 HK))) A1).
    apply (IH (hb + J5)%R); [intros y Hy; apply Hx; now right|lra|exact K2].
Qed.
End Adv.
