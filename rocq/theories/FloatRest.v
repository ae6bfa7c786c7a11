(** Zeros and ranges in binary64, and the model at rest. *)
From Coq Require Import ZArith Reals List Bool Lia Lra.
From Coq Require Import Floats.SpecFloat.
From Flocq Require Import Core.Core.
From Verif Require Import Arith Arrays Prog Conc Launch Mesh AuxVars Tend Model Hex MeshProof MeshMem Over Formulas KernBase Terms KernAux KernTend TendFn StepFn Ready Rel RelRun Relate TendVal StepVal StepRun RSum FloatFacts FloatMass FloatRun.
Import ListNotations.
Open Scope Z_scope.

(** ** Zeros of either sign, bounded numbers, positive numbers *)
Definition zero (x : spec_float) : Prop := fin x /\ val x = 0%R.
Definition bd (n : Z) (x : spec_float) : Prop := fin x /\ (Rabs (val x) <= bpow radix2 n)%R.
Definition ps (a b : Z) (x : spec_float) : Prop := fin x /\ (bpow radix2 a <= val x <= bpow radix2 b)%R.
Definition okz (n : Z) : Prop := -1000 <= n <= 1000.
Lemma zero_cases x : zero x -> exists s, x = S754_zero s.
Proof.
  intros [[V Fi] E]. destruct x as [s|s| |s m e]; try discriminate Fi; [now exists s|]. exfalso. unfold val in E. cbn in E.
  apply eq_0_F2R in E. destruct s; discriminate E.
Qed.
Lemma ps_bd a b x : ps a b x -> bd b x.
Proof. intros [F [H1 H2]]. split; [exact F|]. rewrite Rabs_pos_eq; [exact H2|]. pose proof (bpow_gt_0 radix2 a). lra. Qed.
Lemma zero_bd n x : zero x -> bd n x.
Proof. intros [F E]. split; [exact F|]. rewrite E, Rabs_R0. apply bpow_ge_0. Qed.
Lemma bd_weak a b x : a <= b -> bd a x -> bd b x.
Proof. intros H [F B]. split; [exact F|]. eapply Rle_trans; [exact B|]. now apply bpow_le. Qed.
Lemma ps_fin a b x : ps a b x -> fin x. Proof. intros [H _]; exact H. Qed.
Lemma bd_fin a x : bd a x -> fin x. Proof. intros [H _]; exact H. Qed.
Lemma zero_fin x : zero x -> fin x. Proof. intros [H _]; exact H. Qed.
Lemma rnd_top n r : okz n -> (r <= bpow radix2 n)%R -> (rnd r <= bpow radix2 n)%R.
Proof. intros Hn H. rewrite <- (rnd_bpow n) by (unfold okz in Hn; lia). now apply rnd_mono. Qed.
Lemma rnd_bot n r : okz n -> (bpow radix2 n <= r)%R -> (bpow radix2 n <= rnd r)%R.
Proof. intros Hn H. rewrite <- (rnd_bpow n) by (unfold okz in Hn; lia). now apply rnd_mono. Qed.
Lemma rnd_bd n r : okz n -> (Rabs r <= bpow radix2 n)%R -> (Rabs (rnd r) <= bpow radix2 n)%R.
Proof.
  intros Hn H. apply Rabs_le in H || idtac. apply Rabs_le. destruct (Rabs_le_inv _ _ H) as [H1 H2]. split.
  - rewrite <- (Ropp_involutive r), rnd_opp. apply Ropp_le_contravar, rnd_top; [exact Hn|lra].
  - now apply rnd_top.
Qed.
Lemma small_bd n r : okz n -> (Rabs r <= bpow radix2 n)%R -> small r.
Proof. intros Hn H. unfold small. eapply Rle_lt_trans; [apply (rnd_bd n); eassumption|]. apply bpow_lt. unfold okz in Hn. apply Z.le_lt_trans with 1000; [lia|reflexivity]. Qed.

Section Ops.
Context (cc ss : spec_float -> spec_float) (pp : spec_float).
Local Notation A := (SFA cc ss pp).
Implicit Types x y : F A.
Lemma z0 : zero (@fofZ A 0). Proof. apply (ofZ_val cc ss pp 0). reflexivity. Qed.
Lemma z_add x y : zero x -> zero y -> zero (x + y)%fp.
Proof.
  intros [Fx Ex] [Fy Ey]. destruct (add_ok cc ss pp x y Fx Fy) as [G1 G2].
  - rewrite Ex, Ey, Rplus_0_r. apply (small_bd 0); [split; discriminate|]. rewrite Rabs_R0. apply bpow_ge_0.
  - split; [exact G1|]. rewrite G2, Ex, Ey, Rplus_0_r. apply rnd_0.
Qed.
Lemma z_sub x y : zero x -> zero y -> zero (x - y)%fp.
Proof.
  intros [Fx Ex] [Fy Ey]. destruct (sub_ok cc ss pp x y Fx Fy) as [G1 G2].
  - rewrite Ex, Ey, Rminus_0_r. apply (small_bd 0); [split; discriminate|]. rewrite Rabs_R0. apply bpow_ge_0.
  - split; [exact G1|]. rewrite G2, Ex, Ey, Rminus_0_r. apply rnd_0.
Qed.
Lemma z_self x : fin x -> zero (x - x)%fp.
Proof.
  intros Fx. destruct (sub_ok cc ss pp x x Fx Fx) as [G1 G2].
  - rewrite Rminus_diag_eq by reflexivity. apply (small_bd 0); [split; discriminate|]. rewrite Rabs_R0. apply bpow_ge_0.
  - split; [exact G1|]. rewrite G2, Rminus_diag_eq by reflexivity. apply rnd_0.
Qed.
Lemma z_mul_l x y : zero x -> fin y -> zero (x * y)%fp.
Proof.
  intros [Fx Ex] Fy. destruct (mul_ok cc ss pp x y Fx Fy) as [G1 G2].
  - rewrite Ex, Rmult_0_l. apply (small_bd 0); [split; discriminate|]. rewrite Rabs_R0. apply bpow_ge_0.
  - split; [exact G1|]. rewrite G2, Ex, Rmult_0_l. apply rnd_0.
Qed.
Lemma z_mul_r x y : fin x -> zero y -> zero (x * y)%fp.
Proof.
  intros Fx [Fy Ey]. destruct (mul_ok cc ss pp x y Fx Fy) as [G1 G2].
  - rewrite Ey, Rmult_0_r. apply (small_bd 0); [split; discriminate|]. rewrite Rabs_R0. apply bpow_ge_0.
  - split; [exact G1|]. rewrite G2, Ey, Rmult_0_r. apply rnd_0.
Qed.
(** Adding a zero changes no number but a zero. *)
Lemma add_z x y : fin x -> val x <> 0%R -> zero y -> (x + y)%fp = x.
Proof.
  intros [Vx Fx] Nx Hy. destruct (zero_cases y Hy) as [s ->]. destruct x as [sx|sx| |sx m e]; try discriminate Fx; [now elim Nx|]. reflexivity.
Qed.
Lemma bd_mul a b x y : bd a x -> bd b y -> okz (a + b) -> bd (a + b) (x * y)%fp.
Proof.
  intros [Fx Bx] [Fy By] Hk.
  assert (T : (Rabs (val x * val y) <= bpow radix2 (a + b))%R) by (rewrite Rabs_mult, bpow_plus; apply Rmult_le_compat; auto using Rabs_pos).
  destruct (mul_ok cc ss pp x y Fx Fy (small_bd _ _ Hk T)) as [G1 G2]. split; [exact G1|]. rewrite G2. now apply rnd_bd.
Qed.
Lemma bd_add a b x y : bd a x -> bd b y -> okz (Z.max a b + 1) -> bd (Z.max a b + 1) (x + y)%fp.
Proof.
  intros [Fx Bx] [Fy By] Hk.
  assert (T : (Rabs (val x + val y) <= bpow radix2 (Z.max a b + 1))%R).
  { eapply Rle_trans; [apply Rabs_triang|]. rewrite bpow_plus. change (bpow radix2 1) with 2%R.
    pose proof (bpow_le radix2 a (Z.max a b) ltac:(lia)). pose proof (bpow_le radix2 b (Z.max a b) ltac:(lia)). lra. }
  destruct (add_ok cc ss pp x y Fx Fy (small_bd _ _ Hk T)) as [G1 G2]. split; [exact G1|]. rewrite G2. now apply rnd_bd.
Qed.
Lemma ps_mul a b c d x y : ps a b x -> ps c d y -> okz (a + c) -> okz (b + d) -> ps (a + c) (b + d) (x * y)%fp.
Proof.
  intros Hx Hy K1 K2. destruct (bd_mul b d x y (ps_bd _ _ _ Hx) (ps_bd _ _ _ Hy) K2) as [G1 _]. destruct Hx as [Fx Bx], Hy as [Fy By].
  pose proof (bpow_ge_0 radix2 a) as Za. pose proof (bpow_ge_0 radix2 c) as Zc.
  destruct (fin_mul cc ss pp x y (fin_dbl _ Fx) (fin_dbl _ Fy) G1) as (_ & _ & G2). split; [exact G1|]. rewrite G2. split.
  - apply rnd_bot; [exact K1|]. rewrite bpow_plus. apply Rmult_le_compat; lra.
  - apply rnd_top; [exact K2|]. rewrite bpow_plus. apply Rmult_le_compat; lra.
Qed.
Lemma ps_div a b c d x y : ps a b x -> ps c d y -> okz (a - d) -> okz (b - c) -> ps (a - d) (b - c) (x / y)%fp.
Proof.
  intros [Fx Bx] [Fy By] K1 K2. pose proof (bpow_gt_0 radix2 a) as Za. pose proof (bpow_gt_0 radix2 c) as Zc. pose proof (bpow_gt_0 radix2 d) as Zd.
  destruct (rng_div (val x) (val y) a b c d Bx By) as [T1 T2]. pose proof (bpow_gt_0 radix2 (a - d)) as Zq.
  destruct (div_ok cc ss pp x y Fx Fy ltac:(lra)) as [G1 G2]; [apply (small_bd (b - c)); [exact K2|rewrite Rabs_pos_eq; lra]|].
  split; [exact G1|]. rewrite G2. split; [now apply rnd_bot|now apply rnd_top].
Qed.
Lemma ps_add a b c d x y : ps a b x -> ps c d y -> okz a -> okz (Z.max b d + 1) -> ps a (Z.max b d + 1) (x + y)%fp.
Proof.
  intros Hx Hy K1 K2. destruct (bd_add b d x y (ps_bd _ _ _ Hx) (ps_bd _ _ _ Hy) K2) as [G1 G3]. destruct Hx as [Fx Bx], Hy as [Fy By].
  pose proof (bpow_gt_0 radix2 a) as Za. pose proof (bpow_gt_0 radix2 c) as Zc.
  destruct (fin_add cc ss pp x y (fin_dbl _ Fx) (fin_dbl _ Fy) G1) as (_ & _ & G2). split; [exact G1|]. rewrite G2 in *. split.
  - apply rnd_bot; [exact K1|lra].
  - eapply Rle_trans; [apply Rle_abs|exact G3].
Qed.
Lemma ps_add0 a b x y : zero x -> ps a b y -> okz a -> okz b -> ps a b (x + y)%fp.
Proof.
  intros [Fx Ex] [Fy By] K1 K2. pose proof (bpow_gt_0 radix2 a) as Za.
  destruct (add_ok cc ss pp x y Fx Fy) as [G1 G2]; rewrite ?Ex, ?Rplus_0_l in *.
  - apply (small_bd b); [exact K2|]. rewrite Rabs_pos_eq; lra.
  - split; [exact G1|]. rewrite G2. split; [now apply rnd_bot|now apply rnd_top].
Qed.
Lemma ps_Z z a b : 0 <= a -> 0 <= b <= 53 -> 2 ^ a <= z <= 2 ^ b -> Z.abs z < 2 ^ 53 -> ps a b (@fofZ A z).
Proof.
  intros Ha Hb Hz Hz'. destruct (ofZ_val cc ss pp z Hz') as [G1 G2]. split; [exact G1|]. rewrite G2. now apply rng_Z; [|lia|].
Qed.
Lemma ps_s3 : ps 0 1 (@fsqrt A (#3)%fp).
Proof.
  destruct (ofZ_val cc ss pp 3 ltac:(reflexivity)) as [H1 H2].
  destruct (sqrt_ok cc ss pp (#3)%fp H1 ltac:(rewrite H2; lra)) as [M1 M2]. split; [exact M1|]. rewrite M2, H2. destruct rng_sqrt3 as [L1 L2].
  split; [apply rnd_bot|apply rnd_top]; try assumption; split; discriminate.
Qed.
Lemma ps_1 : ps 0 0 (@fofZ A 1). Proof. apply ps_Z; lia. Qed.
Lemma ps_half : ps (-1) (-1) (@fhalf A).
Proof. apply (ps_div 0 0 1 1 (#1)%fp (#2)%fp); [apply ps_1|apply ps_Z; lia| |]; split; discriminate. Qed.
Lemma ps_quarter : ps (-2) (-2) (@fquarter A).
Proof. apply (ps_div 0 0 2 2 (#1)%fp (#4)%fp); [apply ps_1|apply ps_Z; lia| |]; split; discriminate. Qed.
Lemma bd_sign z : z = 1 \/ z = -1 -> bd 0 (@fofZ A z).
Proof.
  intros H. destruct (ofZ_val cc ss pp z ltac:(destruct H as [-> | ->]; reflexivity)) as [G1 G2]. split; [exact G1|]. rewrite G2.
  rewrite <- abs_IZR. destruct H as [-> | ->]; cbn; lra.
Qed.
Lemma z_iter n (f : Z -> F A -> F A) x : 0 <= n -> zero x -> (forall j y, 0 <= j < n -> zero y -> zero (f j y)) -> zero (iterZ n f x).
Proof.
  intros Hn Hx Hf. assert (G : forall i, 0 <= i -> i <= n -> zero (iterZ i f x)).
  { apply (natlike_ind (fun i => i <= n -> zero (iterZ i f x))); [intros _; exact Hx|]. intros i Hi IH Hle. unfold Z.succ in *. rewrite iterZ_succ by exact Hi.
    apply Hf; [lia|]. apply IH. lia. }
  apply G; lia.
Qed.
End Ops.

Section Rest.
Context (cc ss : spec_float -> spec_float) (pp : spec_float).
Local Notation A := (SFA cc ss pp).
Context (S : setup A) (Hok : setup_ok S).
Local Notation cf := (cfg_of S).
Local Notation P := (par_of S).
Local Notation D := (sdims S).
Local Notation h := (mesh_of_setup S).
Local Notation X := (nx h).
Local Notation Y := (ny h).
Local Notation NC := (X * Y).
Local Notation nl := (d_nlayers D).
Local Notation aux := (aux_fn cf D).
Implicit Types (m n : mem A).
Context (Hdc : ps (-100) 100 (dc h)) (Hf0 : bd 100 (f0 P)) (Hg : bd 100 (grav P)) (Hn2 : bd 100 (visc_del2 P)) (Hn4 : bd 100 (visc_del4 P)).
Context (Ek : hook S = None).
Context (Hh : Z -> F A) (HHh : forall k, 0 <= k < nl -> ps (-100) 100 (Hh k)).

(** ** Constants of the mesh *)
Ltac okk := split; lia.
Lemma psx_dd : ps (-200) 200 (dc h * dc h)%fp.
Proof. apply (ps_mul cc ss pp (-100) 100 (-100) 100); auto; okk. Qed.
Lemma psx_dds : ps (-200) 201 (dc h * dc h * fsqrt #3)%fp.
Proof. apply (ps_mul cc ss pp (-200) 200 0 1); [apply psx_dd|apply ps_s3| |]; okk. Qed.
Lemma psx_dve : ps (-102) 100 (hdve h).
Proof.
  apply (ps_div cc ss pp (-100) 101 1 2); [|apply ps_Z; lia|okk|okk].
  apply (ps_mul cc ss pp (-100) 100 0 1); [apply Hdc|apply ps_s3| |]; okk.
Qed.
Lemma psx_area : ps (-201) 200 (hareac h).
Proof. apply (ps_div cc ss pp (-200) 201 1 1); [apply psx_dds|apply ps_Z; lia|okk|okk]. Qed.
Lemma psx_atri : ps (-202) 199 (hatri h).
Proof. apply (ps_div cc ss pp (-200) 201 2 2); [apply psx_dds|apply ps_Z; lia|okk|okk]. Qed.
Lemma psx_kite : ps (-204) 198 (hkite h).
Proof. apply (ps_div cc ss pp (-200) 201 3 4); [apply psx_dds|apply ps_Z; lia|okk|okk]. Qed.
Lemma psx_ia : ps (-200) 201 (#1 / hareac h)%fp.
Proof. apply (ps_div cc ss pp 0 0 (-201) 200); [apply ps_1|apply psx_area|okk|okk]. Qed.
Lemma psx_it : ps (-199) 202 (#1 / hatri h)%fp.
Proof. apply (ps_div cc ss pp 0 0 (-202) 199); [apply ps_1|apply psx_atri|okk|okk]. Qed.
Lemma psx_idc : ps (-100) 100 (#1 / dc h)%fp.
Proof. apply (ps_div cc ss pp 0 0 (-100) 100); [apply ps_1|apply Hdc|okk|okk]. Qed.
Lemma psx_idv : ps (-100) 102 (#1 / hdve h)%fp.
Proof. apply (ps_div cc ss pp 0 0 (-102) 100); [apply ps_1|apply psx_dve|okk|okk]. Qed.
Lemma bdx_w e j : bd 1 (hw e j : F A).
Proof.
  assert (Q : forall a b, (a = 1 \/ a = -1) -> (b = 3 \/ b = 6) -> bd 0 (fofZ a / fofZ b : F A)%fp).
  { intros a b Ha Hb0. destruct (b_quot cc ss pp a b) as [F1 F2]; try (destruct Ha as [-> | ->]; destruct Hb0 as [-> | ->]; lia).
    split; [exact F1|]. eapply Rle_trans; [exact F2|]. replace (Z.abs a) with 1 by (destruct Ha as [-> | ->]; reflexivity).
    pose proof q_ub as Qu. pose proof q0 as Q0. change (bpow radix2 0) with 1%R. destruct Hb0 as [-> | ->]; lra. }
  assert (Z1 : bd 0 (@fofZ A 0)) by apply zero_bd, z0.
  assert (I : ps (-1) 0 (#1 / fsqrt #3 : F A)%fp) by (apply (ps_div cc ss pp 0 0 0 1); [apply ps_1|apply ps_s3|okk|okk]).
  apply (bd_weak (0 + 0)); [lia|]. apply bd_mul; [|apply (ps_bd _ _ _ I)|okk].
  unfold hw0. repeat match goal with |- bd _ (if ?b then _ else _) => destruct b end; auto.
Qed.
Lemma psx_max : ps (-102) 100 (fmax (hdve h) (fquarter * dc h)%fp).
Proof.
  unfold fmax. destruct (flt _ _); [|apply psx_dve].
  destruct (ps_mul cc ss pp (-2) (-2) (-100) 100 fquarter (dc h) (ps_quarter cc ss pp) Hdc) as [F1 [F2 F3]]; [okk|okk|].
  split; [exact F1|]. split; [exact F2|]. eapply Rle_trans; [exact F3|]. now apply bpow_le.
Qed.
Lemma psx_imax : ps (-100) 102 (#1 / fmax (hdve h) (fquarter * dc h))%fp.
Proof. apply (ps_div cc ss pp 0 0 (-102) 100); [apply ps_1|apply psx_max|okk|okk]. Qed.

(** ** Auxiliary variables *)
Definition resting (s : sid) n : Prop := forall k, 0 <= k < nl ->
  (forall c, 0 <= c < NC -> mr n (HCell s) [c; k] = Hh k) /\ (forall e, 0 <= e < 3 * NC -> zero (mr n (VnEdge s) [e; k])).
Ltac zz := repeat first [ apply z_add | apply z_sub | (apply z_mul_r; [|now auto]) | (apply z_mul_l; [now auto|]) ].
Section AtRest.
Context (s : sid) (n : mem A) (Hr : ready S n) (HR : resting s n) (k : Z) (Hk : 0 <= k < nl).
Local Lemma Hm : hexmem h nl n. Proof. exact (ready_hex S Hok n Hr). Qed.
Local Lemma XY : 1 <= X /\ 1 <= Y. Proof. destruct Hok as ((Hx & Hy & _) & _). lia. Qed.
Local Lemma vz e : 0 <= e < 3 * NC -> zero (mr n (VnEdge s) [e; k]). Proof. apply HR. exact Hk. Qed.
Local Lemma hv c : 0 <= c < NC -> mr n (HCell s) [c; k] = Hh k. Proof. apply HR. exact Hk. Qed.
Lemma zx_rvort v : 0 <= v < 2 * NC -> zero (f_rvort n s v k).
Proof.
  intros Hv. pose proof XY. apply z_iter; [lia|apply z0|]. intros j y Hj Hy. unfold s_rvort. cbv zeta.
  rewrite (hm_eov _ _ _ Hm), (hm_atri _ _ _ Hm), (hm_esv _ _ _ Hm) by lia. assert (He : 0 <= heov X Y v j < 3 * NC) by (apply heov_range; lia).
  rewrite (hm_dce _ _ _ Hm) by exact He. apply z_add; [exact Hy|]. apply z_mul_r; [|now apply vz].
  apply (bd_fin (302 + 0)). apply bd_mul; [|apply bd_sign; unfold hesv; destruct (_ =? _); auto|okk].
  apply (bd_mul cc ss pp 100 202); [apply (ps_bd _ _ _ Hdc)|apply (ps_bd _ _ _ psx_it)|okk].
Qed.
Lemma fx_ga j (c : Z) : fin (hdve h * (#1 / hareac h) * fofZ (hesc h c j))%fp.
Proof.
  apply (bd_fin (301 + 0)). apply bd_mul; [|apply bd_sign; unfold hesc; destruct (_ =? _); auto|okk].
  apply (bd_mul cc ss pp 100 201); [apply (ps_bd _ _ _ psx_dve)|apply (ps_bd _ _ _ psx_ia)|okk].
Qed.
Lemma fx_ga' j (c : Z) : fin ((#1 / hareac h) * hdve h * fofZ (hesc h c j))%fp.
Proof.
  apply (bd_fin (301 + 0)). apply bd_mul; [|apply bd_sign; unfold hesc; destruct (_ =? _); auto|okk].
  apply (bd_mul cc ss pp 201 100); [apply (ps_bd _ _ _ psx_ia)|apply (ps_bd _ _ _ psx_dve)|okk].
Qed.
Lemma zx_div c : 0 <= c < NC -> zero (f_div n s c k).
Proof.
  intros Hc. pose proof XY. unfold f_div. rewrite (hm_noc _ _ _ Hm) by exact Hc. apply z_iter; [lia|apply z0|]. intros j y Hj Hy. unfold s_div. cbv zeta.
  rewrite (hm_eoc _ _ _ Hm), (hm_area _ _ _ Hm), (hm_esc _ _ _ Hm) by lia. assert (He : 0 <= hE X Y c j < 3 * NC) by (apply hE_range; lia).
  rewrite (hm_dve _ _ _ Hm) by exact He. apply z_add; [exact Hy|]. apply z_mul_r; [apply fx_ga'|now apply vz].
Qed.
Lemma zx_ke c : 0 <= c < NC -> zero (f_ke n s c k).
Proof.
  intros Hc. pose proof XY. unfold f_ke. rewrite (hm_noc _ _ _ Hm) by exact Hc. apply z_iter; [lia|apply z0|]. intros j y Hj Hy. unfold s_ke. cbv zeta.
  rewrite (hm_eoc _ _ _ Hm), (hm_area _ _ _ Hm) by lia. assert (He : 0 <= hE X Y c j < 3 * NC) by (apply hE_range; lia).
  rewrite (hm_dve _ _ _ Hm), (hm_dce _ _ _ Hm) by exact He. apply z_add; [exact Hy|]. apply z_mul_l; [|apply (ps_fin _ _ _ (ps_quarter cc ss pp))].
  apply z_mul_r; [|now apply vz]. apply (bd_fin (401 + 0)). apply bd_mul; [|apply zero_bd; now apply vz|okk].
  apply (bd_mul cc ss pp 201 200); [apply (ps_bd _ _ _ psx_ia)| |okk].
  apply (bd_mul cc ss pp 100 100); [apply (ps_bd _ _ _ psx_dve)|apply (ps_bd _ _ _ Hdc)|okk].
Qed.
Lemma psx_mean e : 0 <= e < 3 * NC -> ps (-101) 100 (f_mean n s e k).
Proof.
  intros He. pose proof XY. unfold f_mean. rewrite !(hm_coe _ _ _ Hm) by lia. rewrite !hv by (apply hcoe_range; lia).
  apply (ps_mul cc ss pp (-1) (-1) (-100) 101); [apply ps_half| |okk|okk]. apply (ps_add cc ss pp (-100) 100 (-100) 100); auto; okk.
Qed.
Lemma psx_hvert v : 0 <= v < 2 * NC -> ps (-503) 502 (f_hvert n s v k).
Proof.
  intros Hv. pose proof XY.
  assert (T : forall j, 0 <= j < 3 -> ps (-503) 500 (mr n KiteareasOnVertex [v; j] * (#1 / mr n AreaTriangle [v]) * mr n (HCell s) [mi n CellsOnVertex [v; j]; k])%fp).
  { intros j Hj. rewrite (hm_kite _ _ _ Hm), (hm_atri _ _ _ Hm), (hm_cov _ _ _ Hm) by lia. rewrite hv by (apply hcov_range; lia).
    apply (ps_mul cc ss pp (-403) 400 (-100) 100); auto; [|okk|okk]. apply (ps_mul cc ss pp (-204) 198 (-199) 202); [apply psx_kite|apply psx_it|okk|okk]. }
  unfold f_hvert. change (iterZ 3 (s_hvert n s v k) (#0)%fp) with (s_hvert n s v k 2 (s_hvert n s v k 1 (s_hvert n s v k 0 (#0)%fp))).
  unfold s_hvert. cbv zeta.
  apply (ps_add cc ss pp (-503) 501 (-503) 500); [|apply T; lia|okk|okk]. apply (ps_add cc ss pp (-503) 500 (-503) 500); [|apply T; lia|okk|okk].
  apply ps_add0; [apply z0|apply T; lia|okk|okk].
Qed.
Lemma psx_ih v : 0 <= v < 2 * NC -> ps (-502) 503 (#1 / f_hvert n s v k)%fp.
Proof. intros Hv. apply (ps_div cc ss pp 0 0 (-503) 502); [apply ps_1|now apply psx_hvert|okk|okk]. Qed.
Lemma zx_nrv v : 0 <= v < 2 * NC -> zero (f_nrv n (ksimd cf) s v k).
Proof.
  intros Hv. unfold f_nrv. destruct (ksimd cf); [apply z_mul_l|apply z_mul_r]; auto using zx_rvort; apply (ps_fin _ _ _ (psx_ih v Hv)).
Qed.
Lemma bdx_npv v : 0 <= v < 2 * NC -> bd 603 (f_npv n s v k).
Proof.
  intros Hv. unfold f_npv. rewrite (ready_fv S Hok n v Hr Hv). apply (bd_mul cc ss pp 503 100); [apply (ps_bd _ _ _ (psx_ih v Hv))|exact Hf0|okk].
Qed.

(** The memory the tendencies are computed from. *)
Local Notation a := (aux s n).
Local Notation Hw := (ok_wfd S Hok).
Lemma voe e i : 0 <= e < 3 * NC -> 0 <= i < 2 -> 0 <= mi n VerticesOnEdge [e; i] < 2 * NC.
Proof. intros He Hi. pose proof XY. rewrite (hm_voe _ _ _ Hm) by lia. apply hvoe_range; lia. Qed.
Lemma coe e i : 0 <= e < 3 * NC -> 0 <= i < 2 -> 0 <= mi n CellsOnEdge [e; i] < NC.
Proof. intros He Hi. pose proof XY. rewrite (hm_coe _ _ _ Hm) by lia. apply hcoe_range; lia. Qed.
Lemma eoe e j : 0 <= e < 3 * NC -> 0 <= j < 12 -> 0 <= mi n EdgesOnEdge [e; j] < 3 * NC.
Proof. intros He Hj. pose proof XY. rewrite (hm_eoe _ _ _ Hm) by lia. apply heoe_range; lia. Qed.
Lemma zx_nre e : 0 <= e < 3 * NC -> zero (mr a NormRvortEdge [e; k]).
Proof.
  intros He. rewrite (av_nre S Hw s n k Hk e He); [|apply voe; lia|apply voe; lia]. apply z_mul_r; [apply (ps_fin _ _ _ (ps_half cc ss pp))|].
  apply z_add; apply zx_nrv, voe; lia.
Qed.
Lemma bdx_npe e : 0 <= e < 3 * NC -> bd 603 (mr a NormPvortEdge [e; k]).
Proof.
  intros He. rewrite (av_npe S Hw s n k Hk e He); [|apply voe; lia|apply voe; lia]. apply (bd_mul cc ss pp (-1) 604); [apply (ps_bd _ _ _ (ps_half cc ss pp))| |okk].
  apply (bd_add cc ss pp 603 603); [apply bdx_npv, voe; lia|apply bdx_npv, voe; lia|okk].
Qed.
End AtRest.

(** ** Tendencies *)
Section Zero.
Context (s : sid) (n : mem A) (Hr : ready S n) (HR : resting s n).
Local Notation a := (aux s n).
Local Notation p := (hyp_fn S (aux s n)).
Local Notation Hw := (ok_wfd S Hok).
Local Lemma Ra : ready S a. Proof. eapply ready_cst; [apply cst_aux|exact Hr]. Qed.
Local Lemma Rp : ready S p. Proof. eapply ready_cst; [apply cst_hyp|exact Ra]. Qed.
Local Lemma Ha : hexmem h nl a. Proof. exact (ready_hex S Hok a Ra). Qed.
Local Lemma Hp : hexmem h nl p. Proof. exact (ready_hex S Hok p Rp). Qed.
Lemma pmi b ix : mi p b ix = mi n b ix. Proof. unfold hyp_fn. destruct (vel_hyperdiff_enabled P); reflexivity. Qed.
Lemma fz (x : spec_float) : zero x -> fin x. Proof. apply zero_fin. Qed.
Lemma za_div c k : 0 <= k < nl -> 0 <= c < NC -> zero (mr a VelDivCell [c; k]).
Proof. intros Hk Hc. rewrite (av_div S Hw s n k Hk c Hc). now apply zx_div. Qed.
Lemma za_rv v k : 0 <= k < nl -> 0 <= v < 2 * NC -> zero (mr a RvortVertex [v; k]).
Proof. intros Hk Hv. rewrite (av_rvort S Hw s n k Hk v Hv). now apply zx_rvort. Qed.
Lemma za_del2 e k : 0 <= k < nl -> 0 <= e < 3 * NC -> zero (f_del2 a e k).
Proof.
  intros Hk He. unfold f_del2. rewrite (hm_dce _ _ _ Ha), (hm_dve _ _ _ Ha) by exact He. rewrite !aux_mi.
  apply z_sub; apply z_mul_l.
  - apply z_sub; apply za_div; auto; apply (coe n); auto; lia.
  - apply (ps_fin _ _ _ psx_idc).
  - apply z_sub; apply za_rv; auto; apply (voe n); auto; lia.
  - apply (ps_fin _ _ _ psx_imax).
Qed.
Local Notation a1 := (del2_fn S a).
Local Notation a2 := (del2r_fn S a1).
Lemma a1_del2 e k : 0 <= k < nl -> 0 <= e < 3 * NC -> mr a1 VelDel2Edge [e; k] = f_del2 a e k.
Proof. intros Hk He. unfold del2_fn. rewrite upd_same by (cbn [rext]; apply inb2; split; assumption). reflexivity. Qed.
Local Lemma H1 : hexmem h nl a1.
Proof. apply (ready_hex S Hok). eapply ready_cst; [|exact Ra]. unfold del2_fn. now apply cst_upd. Qed.
Local Lemma H2 : hexmem h nl a2.
Proof. apply (ready_hex S Hok). eapply ready_cst; [|exact Ra]. unfold del2r_fn, del2_fn. eapply cst_trans; now apply cst_upd. Qed.
Lemma za_del2r v k : 0 <= k < nl -> 0 <= v < 2 * NC -> zero (f_del2r a1 v k).
Proof.
  intros Hk Hv. pose proof XY. apply z_iter; [lia|apply z0|]. intros j y Hj Hy. unfold s_del2r. cbv zeta.
  rewrite (hm_eov _ _ _ H1), (hm_atri _ _ _ H1), (hm_esv _ _ _ H1) by lia. assert (He : 0 <= heov X Y v j < 3 * NC) by (apply heov_range; lia).
  rewrite (hm_dce _ _ _ H1) by exact He. apply z_add; [exact Hy|]. rewrite a1_del2 by assumption. apply z_mul_r; [|now apply za_del2].
  apply (bd_fin (302 + 0)). apply bd_mul; [|apply bd_sign; unfold hesv; destruct (_ =? _); auto|okk].
  apply (bd_mul cc ss pp 100 202); [apply (ps_bd _ _ _ Hdc)|apply (ps_bd _ _ _ psx_it)|okk].
Qed.
Lemma za_del2d c k : 0 <= k < nl -> 0 <= c < NC -> zero (f_del2d a2 c k).
Proof.
  intros Hk Hc. pose proof XY. unfold f_del2d. rewrite (hm_noc _ _ _ H2) by exact Hc. apply z_iter; [lia|apply z0|]. intros j y Hj Hy. unfold s_del2d. cbv zeta.
  rewrite (hm_eoc _ _ _ H2), (hm_area _ _ _ H2), (hm_esc _ _ _ H2) by lia. assert (He : 0 <= hE X Y c j < 3 * NC) by (apply hE_range; lia).
  rewrite (hm_dve _ _ _ H2) by exact He. apply z_add; [exact Hy|].
  replace (mr a2 VelDel2Edge [hE X Y c j; k]) with (mr a1 VelDel2Edge [hE X Y c j; k]) by (unfold del2r_fn at 1; now rewrite upd_other).
  rewrite a1_del2 by assumption. apply z_mul_r; [apply fx_ga|now apply za_del2].
Qed.
Lemma zp_vel md e k (x : F A) : 0 <= k < nl -> 0 <= e < 3 * NC -> zero (zr md x) -> zero (g_vn S Tend s md p e k x).
Proof.
  intros Hk He Hx. pose proof XY as HXY. unfold g_vn. cbv zeta. generalize dependent (zr md x). clear x. intros x Hx.
  assert (Ep : forall b ix, b <> VelDel2Edge -> b <> VelDel2RvortVertex -> b <> VelDel2DivCell -> mr p b ix = mr a b ix) by (intros; now apply hyp_other).
  assert (C0 : forall i, 0 <= i < 2 -> 0 <= mi n CellsOnEdge [e; i] < NC) by (intros; apply (coe n); auto).
  assert (V0 : forall i, 0 <= i < 2 -> 0 <= mi n VerticesOnEdge [e; i] < 2 * NC) by (intros; apply (voe n); auto).
  assert (X1 : zero (t_pv p (ksimd cf) s e k x)).
  { unfold t_pv. apply z_add; [exact Hx|]. rewrite (hm_noe _ _ _ Hp) by exact He. apply z_iter; [lia|apply z0|]. intros j y Hj Hy. unfold s_pv. cbv zeta.
    rewrite pmi. assert (He' : 0 <= mi n EdgesOnEdge [e; j] < 3 * NC) by (apply (eoe n); auto; lia). set (e' := mi n EdgesOnEdge [e; j]) in *.
    rewrite (hm_w _ _ _ Hp) by lia. rewrite !Ep by discriminate. apply z_add; [exact Hy|].
    assert (Q : bd 606 (mr a NormRvortEdge [e; k] + mr a NormPvortEdge [e; k] + mr a NormRvortEdge [e'; k] + mr a NormPvortEdge [e'; k])%fp).
    { apply (bd_add cc ss pp 605 603); [|now apply bdx_npe|okk]. apply (bd_add cc ss pp 604 0); [|apply zero_bd; now apply zx_nre|okk].
      apply (bd_add cc ss pp 0 603); [apply zero_bd; now apply zx_nre|now apply bdx_npe|okk]. }
    apply z_mul_l.
    - rewrite (aux_other S s n (VnEdge s)) by reflexivity. apply z_mul_r; [|now apply HR]. rewrite (av_flux S Hw s n k Hk e' He').
      apply (bd_fin 101). apply (bd_mul cc ss pp 1 100); [apply bdx_w|apply (ps_bd _ _ _ (psx_mean s n Hr HR k Hk e' He'))|okk].
    - pose proof (ps_bd _ _ _ (ps_half cc ss pp)) as HF. destruct (ksimd cf); apply (bd_fin 605); [apply (bd_mul cc ss pp (-1) 606)|apply (bd_mul cc ss pp 606 (-1))]; auto; okk. }
  set (x1 := t_pv p (ksimd cf) s e k x) in *. clearbody x1. clear x Hx.
  assert (X2 : zero (t_kegrad p e k x1)).
  { unfold t_kegrad. rewrite !pmi, !Ep by discriminate. rewrite (hm_dce _ _ _ Ha) by exact He.
    apply z_sub; [exact X1|]. apply z_mul_l; [|apply (ps_fin _ _ _ psx_idc)].
    rewrite !(av_ke S Hw s n k Hk) by (apply C0; lia). apply z_sub; apply zx_ke; auto; apply C0; lia. }
  set (x2 := t_kegrad p e k x1) in *. clearbody x2. clear x1 X1.
  assert (X3 : zero (t_sshgrad p (grav P) s e k x2)).
  { unfold t_sshgrad. rewrite !pmi, !Ep by discriminate. rewrite (hm_dce _ _ _ Ha) by exact He. rewrite !(aux_other S s n (HCell s)) by reflexivity.
    apply z_sub; [exact X2|]. apply z_mul_l; [|apply (ps_fin _ _ _ psx_idc)]. apply z_mul_r; [apply (bd_fin _ _ Hg)|].
    destruct (HR k Hk) as [Eh _]. rewrite !Eh by (apply C0; lia). apply z_self. now apply (ps_fin _ _ _ (HHh k Hk)). }
  set (x3 := t_sshgrad p (grav P) s e k x2) in *. clearbody x3. clear x2 X2.
  assert (M1 : bd 0 (@fofZ A 1)) by apply (ps_bd _ _ _ (ps_1 cc ss pp)).
  assert (X4 : zero (if vel_diff_enabled P then t_vdiff p (ksimd cf) (visc_del2 P) e k x3 else x3)).
  { destruct (vel_diff_enabled P); [|exact X3]. unfold t_vdiff. cbv zeta. rewrite !pmi, !Ep by discriminate.
    rewrite (hm_dce _ _ _ Ha), (hm_dve _ _ _ Ha), (hm_sc2 _ _ _ Ha), (hm_mask _ _ _ Ha) by assumption.
    match goal with |- zero (if _ then (_ + _ * ?d)%fp else _) => assert (Hd : zero d) end.
    { apply z_sub; apply z_mul_l.
      - apply z_sub; apply za_div; auto; apply C0; lia.
      - apply (ps_fin _ _ _ psx_idc).
      - apply z_sub; apply za_rv; auto; apply V0; lia.
      - apply (ps_fin _ _ _ psx_idv). }
    destruct (ksimd cf); (apply z_add; [exact X3|]; apply z_mul_r; [|exact Hd]); apply (bd_fin 100).
    - apply (bd_mul cc ss pp 100 0); auto; [|okk]. apply (bd_mul cc ss pp 100 0); auto; okk.
    - apply (bd_mul cc ss pp 100 0); auto; [|okk]. apply (bd_mul cc ss pp 0 100); auto; okk. }
  destruct (vel_hyperdiff_enabled P) eqn:Eh; [|exact X4].
  enough (V : forall x4, zero x4 -> zero (t_vhyp p (visc_del4 P) e k x4)) by (apply V; exact X4). clear x3 X3 X4. intros x4 X4.
  unfold t_vhyp. rewrite !pmi, !(Ep DcEdge), !(Ep DvEdge), !(Ep EdgeMask), !(Ep MeshScalingDel4) by discriminate.
  rewrite (hm_dce _ _ _ Ha), (hm_dve _ _ _ Ha), (hm_sc4 _ _ _ Ha), (hm_mask _ _ _ Ha) by assumption.
  assert (E2 : forall v, 0 <= v < 2 * NC -> zero (mr p VelDel2RvortVertex [v; k])).
  { intros v Hv. unfold hyp_fn. rewrite Eh. unfold del2d_fn. rewrite upd_other by discriminate. unfold del2r_fn.
    rewrite upd_same by (cbn [rext]; apply inb2; split; assumption). cbn [on2]. apply za_del2r; [|exact Hv]. apply (rv_range S Hw k Hk). }
  assert (E3 : forall c, 0 <= c < NC -> zero (mr p VelDel2DivCell [c; k])).
  { intros c Hc. unfold hyp_fn. rewrite Eh. unfold del2d_fn. rewrite upd_same by (cbn [rext]; apply inb2; split; assumption). cbn [on2]. now apply za_del2d. }
  apply z_sub; [exact X4|]. apply z_mul_r.
  - apply (bd_fin 100). apply (bd_mul cc ss pp 100 0); auto; [|okk]. apply (bd_mul cc ss pp 0 100); auto; okk.
  - apply z_sub; apply z_mul_l.
    + apply z_sub; apply E3, C0; lia.
    + apply (ps_fin _ _ _ psx_idc).
    + apply z_sub; apply E2, V0; lia.
    + apply (ps_fin _ _ _ psx_idv).
Qed.
Lemma zp_h md c k (x : F A) : 0 <= k < nl -> 0 <= c < NC -> zero (zr md x) -> zero (t_hadv a s c k (zr md x)).
Proof.
  intros Hk Hc Hx. pose proof XY. unfold t_hadv. apply z_add; [exact Hx|]. rewrite (hm_noc _ _ _ Ha) by exact Hc. apply z_iter; [lia|apply z0|].
  intros j y Hj Hy. unfold s_hadv. cbv zeta. rewrite (hm_eoc _ _ _ Ha), (hm_area _ _ _ Ha), (hm_esc _ _ _ Ha) by lia.
  assert (He : 0 <= hE X Y c j < 3 * NC) by (apply hE_range; lia). rewrite (hm_dve _ _ _ Ha) by exact He. apply z_sub; [exact Hy|].
  rewrite (aux_other S s n (VnEdge s)) by reflexivity. apply z_mul_r; [|now apply HR]. rewrite (av_flux S Hw s n k Hk _ He).
  apply (bd_fin 401). apply (bd_mul cc ss pp 301 100); [|apply (ps_bd _ _ _ (psx_mean s n Hr HR k Hk _ He))|okk].
  apply (bd_mul cc ss pp 301 0); [|apply bd_sign; unfold hesc; destruct (_ =? _); auto|okk].
  apply (bd_mul cc ss pp 100 201); [apply (ps_bd _ _ _ psx_dve)|apply (ps_bd _ _ _ psx_ia)|okk].
Qed.
End Zero.

(** ** Steps *)
Definition zT n : Prop := forall k, 0 <= k < nl ->
  (forall c, 0 <= c < NC -> zero (mr n (HCell Tend) [c; k])) /\ (forall e, 0 <= e < 3 * NC -> zero (mr n (VnEdge Tend) [e; k])).
(** Tendencies that are not computed. *)
Definition zTd n : Prop := forall k, 0 <= k < nl ->
  (disable_h P = true -> forall c, 0 <= c < NC -> zero (mr n (HCell Tend) [c; k])) /\
  (disable_vn P = true -> forall e, 0 <= e < 3 * NC -> zero (mr n (VnEdge Tend) [e; k])).
Lemma zT_zTd n : zT n -> zTd n. Proof. intros H k Hk. destruct (H k Hk). auto. Qed.
Lemma zT_tend s time md n : s <> Tend -> ready S n -> resting s n -> (md = Increment -> zT n) -> zTd n -> zT (tendency_fn S Tend s time md n).
Proof.
  intros Hs Hr HR Hi Hz k Hk. destruct (Hz k Hk) as [Z1 Z2]. split; intros i Hi'.
  - rewrite (val_h S) by assumption. unfold hk_h. rewrite Ek. destruct (disable_h P) eqn:Eh; [now apply Z1|].
    apply zp_h; auto. destruct md; unfold zr; cbn [is_replace]; [apply z0|]. apply (Hi eq_refl k Hk); assumption.
  - rewrite (val_v S); auto using ok_wfd; [|now apply ready_wfm]. unfold hk_v. rewrite Ek. destruct (disable_vn P) eqn:Eh; [now apply Z2|].
    apply zp_vel; auto. destruct md; unfold zr; cbn [is_replace]; [apply z0|]. apply (Hi eq_refl k Hk); assumption.
Qed.
Lemma axpy_hv dst base (dt b : F A) n c k : 0 <= k < nl -> 0 <= c < NC ->
  mr (axpy S dst base dt b n) (HCell dst) [c; k] = (mr n (HCell base) [c; k] + dt * b * mr n (HCell Tend) [c; k])%fp.
Proof.
  intros Hk Hc. unfold axpy. cbv zeta.
  transitivity (mr (upd D (HCell dst) n (on2 (fun c k x => if sid_eq_dec dst base then x + dt * b * mr n (HCell Tend) [c; k]
                                     else mr n (HCell base) [c; k] + dt * b * mr n (HCell Tend) [c; k])%fp)) (HCell dst) [c; k]).
  - destruct (0 <? ntracers P); rewrite !upd_other by discriminate; reflexivity.
  - rewrite upd_same by (cbn [rext]; apply inb2; split; assumption). cbn [on2]. destruct (sid_eq_dec dst base) as [->|]; reflexivity.
Qed.
Lemma axpy_vv dst base (dt b : F A) n e k : 0 <= k < nl -> 0 <= e < 3 * NC ->
  mr (axpy S dst base dt b n) (VnEdge dst) [e; k] = (mr n (VnEdge base) [e; k] + dt * b * mr n (VnEdge Tend) [e; k])%fp.
Proof.
  intros Hk He. unfold axpy. cbv zeta.
  transitivity (mr (upd D (VnEdge dst) n (on2 (fun e k x => if sid_eq_dec dst base then x + dt * b * mr n (VnEdge Tend) [e; k]
                                     else mr n (VnEdge base) [e; k] + dt * b * mr n (VnEdge Tend) [e; k])%fp)) (VnEdge dst) [e; k]).
  - assert (I : inb (rext D (VnEdge dst)) [e; k] = true) by (cbn [rext]; apply inb2; split; assumption).
    destruct (0 <? ntracers P); rewrite ?(upd_other D (TrCell dst)) by discriminate; rewrite !upd_same by exact I;
        cbn [on2]; rewrite upd_other by discriminate; reflexivity.
  - rewrite upd_same by (cbn [rext]; apply inb2; split; assumption). cbn [on2]. destruct (sid_eq_dec dst base) as [->|]; reflexivity.
Qed.
Lemma rest_axpy dst base (dt b : F A) n : bd 200 dt -> bd 1 b -> resting base n -> zT n -> resting dst (axpy S dst base dt b n).
Proof.
  intros Hdt Hbb HR HT k Hk. destruct (HR k Hk) as [R1 R2], (HT k Hk) as [T1 T2].
  assert (Fw : fin (dt * b)%fp) by (apply (bd_fin 201); apply (bd_mul cc ss pp 200 1); auto; okk).
  split; intros i Hi.
  - rewrite axpy_hv by assumption. rewrite R1 by exact Hi. destruct (HHh k Hk) as [F1 [F2 _]]. pose proof (bpow_gt_0 radix2 (-100)) as Z1.
    apply add_z; [exact F1|lra|]. apply z_mul_r; auto.
  - rewrite axpy_vv by assumption. apply z_add; auto. apply z_mul_r; auto.
Qed.
Lemma rest_other s n n' : (forall a ix, is_st s a = true -> mr n' a ix = mr n a ix) -> resting s n -> resting s n'.
Proof.
  intros E HR k Hk. assert (T : (if sid_eq_dec s s then true else false) = true) by (destruct (sid_eq_dec s s); congruence).
  destruct (HR k Hk) as [R1 R2]. split; intros; rewrite E by exact T; auto.
Qed.
Lemma zT_other n n' : (forall a ix, is_st Tend a = true -> mr n' a ix = mr n a ix) -> zT n -> zT n'.
Proof. intros E HT k Hk. destruct (HT k Hk) as [R1 R2]. split; intros; rewrite E by reflexivity; auto. Qed.
Lemma zTd_other n n' : (forall a ix, is_st Tend a = true -> mr n' a ix = mr n a ix) -> zTd n -> zTd n'.
Proof. intros E HT k Hk. destruct (HT k Hk) as [R1 R2]. split; intros; rewrite E by reflexivity; auto. Qed.
Lemma rest_axpy_other r d b dt x n : r <> d -> resting r n -> resting r (axpy S d b dt x n).
Proof. intros Hr. apply rest_other. intros a ix Ha. apply axpy_other. now apply (is_st_ne r). Qed.
Lemma rest_tend_other r s time md n : r <> Tend -> resting r n -> resting r (tendency_fn S Tend s time md n).
Proof.
  intros Hr. apply rest_other. intros a ix Ha. assert (N : is_st Tend a = false) by now apply (is_st_ne r).
  apply tend_other; try (intros ->; discriminate); destruct a; try discriminate Ha; reflexivity.
Qed.
Lemma rest_save n : resting St n -> resting Old (save_fn S n).
Proof.
  intros H k Hk. destruct (H k Hk) as (H1 & H2). unfold save_fn. cbv zeta. split; intros.
  - rewrite !(upd_other _ (TrCell Old)), !(upd_other _ (VnEdge Old)) by discriminate.
    rewrite upd_same by (cbn [rext]; apply inb2; split; assumption). auto.
  - rewrite (upd_other _ (TrCell Old)) by discriminate. rewrite upd_same by (cbn [rext]; apply inb2; split; assumption).
    rewrite upd_other by discriminate. auto.
Qed.
(** Coefficients of the steppers. *)
Lemma fin_bd (x : F A) (b : R) (n : Z) : fin_le (cc := cc) (ss := ss) (pp := pp) b x -> (b <= bpow radix2 n)%R -> bd n x.
Proof. intros [F1 F2] H. split; [exact F1|lra]. Qed.
Lemma bd0 : bd 1 (@fofZ A 0). Proof. apply zero_bd, z0. Qed.
Lemma bd1 : bd 1 (@fofZ A 1). Proof. apply (bd_weak 0); [lia|]. apply (ps_bd _ _ _ (ps_1 cc ss pp)). Qed.
Ltac bq := apply (fin_bd _ 2%R); [apply quot_le; [lia|lia|lia|cbn [Z.abs]; pose proof q_ub; lra]|cbn; lra].
Lemma bd_rkb i : bd 1 (rk4_b i : F A). Proof. unfold rk4_b. destruct (_ || _); bq. Qed.
Lemma bd_rka i : bd 1 (rk4_a i : F A). Proof. unfold rk4_a. destruct (_ =? _); [apply bd1|bq]. Qed.
Lemma bd_lsa k i : bd 1 (lsrk_a k i : F A).
Proof. unfold lsrk_a. destruct (k =? 5); [|apply bd0]. destruct i as [|[[[]|[]|]|[[]|[]|]|]|]; first [apply bd0|bq]. Qed.
Lemma bd_lsb k i : bd 1 (lsrk_b k i : F A).
Proof. unfold lsrk_b. destruct (k =? 5); [|destruct (k =? 1); [apply bd1|apply bd0]]. destruct i as [|[[[]|[]|]|[[]|[]|]|]|]; bq. Qed.

(** ** The classical method *)
Lemma rest_rk4 (t dt : F A) n : bd 200 dt -> ready S n -> resting St n -> zTd n ->
  let n' := rk4_fn S t dt n in ready S n' /\ resting St n' /\ zTd n'.
Proof.
  intros Hdt Hr HR HZ. cbv zeta. rewrite rk4_eq. cbv zeta.
  assert (Rs : ready S (save_fn S n)) by (eapply ready_cst; [apply cst_save|exact Hr]).
  assert (Rt : resting St (save_fn S n)) by (eapply rest_other; [|exact HR]; intros a ix Ha; apply save_other; apply (is_st_ne St); congruence).
  assert (Zt : zTd (save_fn S n)) by (eapply zTd_other; [|exact HZ]; intros a ix Ha; apply save_other; apply (is_st_ne Tend); congruence).
  pose (I n := ready S n /\ resting St n /\ resting Old n /\ zT n).
  assert (I0 : I (tendency_fn S Tend St t Replace (save_fn S n))).
  { split; [eapply ready_cst; [apply cst_tendency|exact Rs]|]. split; [apply rest_tend_other; [discriminate|exact Rt]|].
    split; [apply rest_tend_other; [discriminate|now apply rest_save]|]. apply zT_tend; auto; discriminate. }
  revert I0. generalize (tendency_fn S Tend St t Replace (save_fn S n)). clear n Hr HR HZ Rs Rt Zt. intros n0 I0.
  assert (step : forall i n, I n -> I (tendency_fn S Tend Provis (t + rk4_c i * dt)%fp Replace (axpy S Provis Old dt (rk4_a i) (axpy S St St dt (rk4_b i) n)))).
  { intros i n (Hr & R1 & R2 & Z1). set (n1 := axpy S St St dt (rk4_b i) n). set (n2 := axpy S Provis Old dt (rk4_a i) n1).
    assert (Q1 : ready S n1) by (eapply ready_cst; [apply cst_axpy|exact Hr]). assert (Q2 : ready S n2) by (eapply ready_cst; [apply cst_axpy|exact Q1]).
    assert (A1 : resting St n1) by (apply rest_axpy; auto using bd_rkb). assert (A2 : resting Old n1) by (apply rest_axpy_other; [discriminate|exact R2]).
    assert (A3 : zT n1) by (eapply zT_other; [|exact Z1]; intros a ix Ha; apply axpy_other; apply (is_st_ne Tend); congruence).
    assert (A4 : resting Provis n2) by (apply rest_axpy; auto using bd_rka). assert (A5 : resting St n2) by (apply rest_axpy_other; [discriminate|exact A1]).
    assert (A6 : resting Old n2) by (apply rest_axpy_other; [discriminate|exact A2]).
    assert (A7 : zT n2) by (eapply zT_other; [|exact A3]; intros a ix Ha; apply axpy_other; apply (is_st_ne Tend); congruence).
    split; [eapply ready_cst; [apply cst_tendency|exact Q2]|]. split; [apply rest_tend_other; [discriminate|exact A5]|].
    split; [apply rest_tend_other; [discriminate|exact A6]|]. apply zT_tend; auto using zT_zTd; discriminate. }
  pose proof (step 2 _ (step 1 _ (step 0 _ I0))) as I3. revert I3. match goal with |- I ?z -> _ => generalize z end. clear - Hok Hdt HHh.
  intros n (Hr & R1 & _ & Z1). split; [eapply ready_cst; [apply cst_axpy|exact Hr]|]. split; [apply rest_axpy; auto using bd_rkb|].
  apply zT_zTd. eapply zT_other; [|exact Z1]. intros a ix Ha. apply axpy_other. apply (is_st_ne Tend); congruence.
Qed.
Lemma rest_rk4_run steps n : (forall x, In x steps -> bd 200 (snd x)) -> ready S n -> resting St n -> zTd n -> resting St (rk4_run_fn S steps n).
Proof.
  revert n. induction steps as [|x l IH]; intros n Hx Hr HR HZ; [exact HR|].
  destruct (rest_rk4 (fst x) (snd x) n (Hx x (or_introl eq_refl)) Hr HR HZ) as (R1 & R2 & R3). apply IH; auto. intros y Hy. apply Hx. now right.
Qed.

(** ** The low storage method *)
Lemma scale_zT (x : F A) n : bd 1 x -> zT n -> zT (scale_fn S x n).
Proof.
  intros Hx HT k Hk. destruct (HT k Hk) as [T1 T2]. unfold scale_fn. cbv zeta. split; intros i Hi.
  - assert (E : mr (if 0 <? ntracers P then upd D (TrCell Tend) (upd D (VnEdge Tend) (upd D (HCell Tend) n (on2 (fun _ _ y => y * x)%fp)) (on2 (fun _ _ y => y * x)%fp)) (on3 (fun _ _ _ y => y * x)%fp)
       else upd D (VnEdge Tend) (upd D (HCell Tend) n (on2 (fun _ _ y => y * x)%fp)) (on2 (fun _ _ y => y * x)%fp)) (HCell Tend) [i; k] = (mr n (HCell Tend) [i; k] * x)%fp).
    { destruct (0 <? ntracers P); rewrite ?(upd_other _ (TrCell Tend)), (upd_other _ (VnEdge Tend)), upd_same by (discriminate || (cbn [rext]; apply inb2; split; assumption)); reflexivity. }
    rewrite E. apply z_mul_l; [auto|apply (bd_fin _ _ Hx)].
  - assert (E : mr (if 0 <? ntracers P then upd D (TrCell Tend) (upd D (VnEdge Tend) (upd D (HCell Tend) n (on2 (fun _ _ y => y * x)%fp)) (on2 (fun _ _ y => y * x)%fp)) (on3 (fun _ _ _ y => y * x)%fp)
       else upd D (VnEdge Tend) (upd D (HCell Tend) n (on2 (fun _ _ y => y * x)%fp)) (on2 (fun _ _ y => y * x)%fp)) (VnEdge Tend) [i; k] = (mr n (VnEdge Tend) [i; k] * x)%fp).
    { destruct (0 <? ntracers P); rewrite ?(upd_other _ (TrCell Tend)), (upd_same _ (VnEdge Tend)) by (discriminate || (cbn [rext]; apply inb2; split; assumption)); cbn [on2]; rewrite upd_other by discriminate; reflexivity. }
    rewrite E. apply z_mul_l; [auto|apply (bd_fin _ _ Hx)].
Qed.
Lemma rest_lsrk_stage k (t dt : F A) i n : bd 200 dt -> ready S n /\ resting St n /\ zT n ->
  let n' := lsrk_stage_fn S k t dt i n in ready S n' /\ resting St n' /\ zT n'.
Proof.
  intros Hdt (Hr & R1 & Z1). unfold lsrk_stage_fn. cbv zeta. set (n1 := scale_fn S (lsrk_a k i) n).
  assert (Q1 : ready S n1) by (eapply ready_cst; [apply cst_scale|exact Hr]).
  assert (S1 : resting St n1) by (eapply rest_other; [|exact R1]; intros a ix Ha; apply scale_other; apply (is_st_ne St); congruence).
  assert (Z2 : zT n1) by (apply scale_zT; auto using bd_lsa).
  set (n2 := tendency_fn S Tend St (t + lsrk_c k i * dt)%fp Increment n1).
  assert (Q2 : ready S n2) by (eapply ready_cst; [apply cst_tendency|exact Q1]).
  assert (S2 : resting St n2) by (apply rest_tend_other; [discriminate|exact S1]).
  assert (Z3 : zT n2) by (apply zT_tend; auto using zT_zTd; discriminate).
  split; [eapply ready_cst; [apply cst_axpy|exact Q2]|]. split; [apply rest_axpy; auto using bd_lsb|].
  eapply zT_other; [|exact Z3]. intros a ix Ha. apply axpy_other. apply (is_st_ne Tend); congruence.
Qed.
Lemma rest_lsrk k (t dt : F A) n : bd 200 dt -> ready S n /\ resting St n /\ zT n ->
  let n' := lsrk_fn S k t dt n in ready S n' /\ resting St n' /\ zT n'.
Proof.
  intros Hdt. unfold lsrk_fn. revert n. generalize (zseq k). induction l as [|i l IH]; intros n H; [exact H|]. cbn [fold_left]. apply IH. now apply rest_lsrk_stage.
Qed.
Lemma rest_lsrk_run k steps n : (forall x, In x steps -> bd 200 (snd x)) -> ready S n -> resting St n -> zT n -> resting St (lsrk_run_fn S k steps n).
Proof.
  revert n. induction steps as [|x l IH]; intros n Hx Hr HR HZ; [exact HR|].
  destruct (rest_lsrk k (fst x) (snd x) n (Hx x (or_introl eq_refl)) (conj Hr (conj HR HZ))) as (R1 & R2 & R3). apply IH; auto. intros y Hy. apply Hx. now right.
Qed.
End Rest.
