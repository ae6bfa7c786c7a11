(** The runs of the tracer diffusion and hyperdiffusion tests. *)
From Coq Require Import ZArith Reals List Bool Lia Lra.
From Verif Require Import Arith Arrays Prog Conc Launch Mesh AuxVars Tend Model Hex HexComb RSum Spec MeshProof MeshMem MeshFacts MeshR MeshCalc Over Formulas RealOps KernBase Terms KernAux KernTend TendFn StepFn Ready Rel RelRun Relate TendVal StepVal StepRun Tableau StepThms RealTend SumParts Diag FieldInv ConsBase ConsThms SteadyThms SuperThms Diffuse DiffuseThms Deriv Stencil Taylor Sample Waves Modes DecayNum DecayNum2 DecayNum3 Driver DriverFn DriverThms WaveRun WaveStab TestFns TestRun.
Import ListNotations.
Open Scope Z_scope.

Definition sinsin (x y : R) : R := (sin (2 * PI * x / 10) * sin (2 * PI * y / (sqrt 3 / 2 * 10)))%R.
Lemma rsum_div n p f : 0 <= n -> 0 < p -> rsum (n * p) (fun i => f (i / p) (i mod p)) = rsum n (fun c => rsum p (fun k => f c k)).
Proof.
  intros Hn Hp. revert n Hn. apply natlike_ind; [now rewrite !rsum_0|]. intros n Hn IH. unfold Z.succ.
  rewrite rsum_succ by exact Hn. rewrite <- IH. replace ((n + 1) * p) with (n * p + p) by ring.
  set (F := fun i => f (i / p) (i mod p)).
  assert (G : forall q, 0 <= q <= p -> rsum (n * p + q) F = (rsum (n * p) F + rsum q (fun k => f n k))%R).
  { intros q [H0 H1]. revert q H0 H1. apply (natlike_ind (fun q => q <= p -> rsum (n * p + q) F = (rsum (n * p) F + rsum q (fun k => f n k))%R)); [intros _; rewrite Z.add_0_r, (rsum_0 (fun k => f n k)); ring|].
    intros q Hq IHq H1. unfold Z.succ. rewrite Z.add_assoc, rsum_succ by nia. rewrite IHq by lia. rewrite (rsum_succ q) by exact Hq. unfold F at 2.
    replace ((n * p + q) / p) with n by (apply Z.div_unique with q; lia). replace ((n * p + q) mod p) with q by (apply Z.mod_unique with n; lia). ring. }
  rewrite G by lia. reflexivity.
Qed.
Lemma gain_loop S g L n dt : 0 <= n -> gain S g L (loop_steps (A:=RA) n dt) = (ampl g (dt * rate S L) ^ Z.to_nat n)%R.
Proof.
  intros Hn. unfold loop_steps, zseq. rewrite map_map. generalize 0%nat at 1. generalize (Z.to_nat n). clear. intros N. induction N as [|N IH]; intros s; [reflexivity|].
  cbn [seq map gain fold_right snd pow]. f_equal. apply (IH (Datatypes.S s)).
Qed.

Section TestRun.
Context (S : setup RA) (Hok : setup_ok S) (n : Z) (Hn : 16 <= n) (Hev : Z.even n = true) (Hf : hook S = None).
Context (Hx : nx (mesh_of_setup S) = n) (Hy : ny (mesh_of_setup S) = n) (Hd : (dc (mesh_of_setup S) : R) = (10 / IZR n)%R).
Local Notation P := (par_of S).
Local Notation h := (mesh_of_setup S).
Local Notation NC := (nx (mesh_of_setup S) * ny (mesh_of_setup S)).
Local Notation NL := (d_nlayers (sdims S)).
Lemma n16 : (16 <= IZR n)%R. Proof. now apply IZR_le. Qed.
Lemma dpos : (0 < (dc h : R))%R. Proof. rewrite Hd. pose proof n16. apply Rdiv_lt_0_compat; lra. Qed.
Lemma X2 : 2 <= nx h. Proof. lia. Qed.
Lemma Hev' : Z.even (ny h) = true. Proof. now rewrite Hy. Qed.
Lemma pxE : (period_x h : R) = 10%R.
Proof. pose proof n16. unfold period_x. rewrite Hx. cbn [F RA fofZ fmul]. change (IZR n * (dc h : R) = 10)%R. rewrite Hd. field. lra. Qed.
Lemma pyE : (period_y h : R) = (sqrt 3 / 2 * 10)%R.
Proof. pose proof n16. unfold period_y. rewrite Hy. cbn [F RA fofZ fmul fdiv fsqrt]. change (IZR n * (dc h : R) * sqrt 3 / 2 = sqrt 3 / 2 * 10)%R. rewrite Hd. field. lra. Qed.
Lemma s3 : (0 < sqrt 3)%R. Proof. apply sqrt_lt_R0. lra. Qed.

Definition kw (i : Z) : R := (2 * PI * IZR i / 10)%R.
Definition lw (j : Z) : R := (2 * PI * IZR j / (sqrt 3 / 2 * 10))%R.
Definition cw (i j : Z) (c : Z) : R := wave 1 (kw i) (lw j) 0 (hxc h c) (hyc h c).
Lemma eig_cw m i j : ready S m -> eig S m (lam (dc h) (kw i) (lw j)) (cw i j).
Proof.
  intros Hr. apply (eig_wave S Hok dpos m Hr X2 Hev' 1 (kw i) (lw j) 0 (cw i j)); [|intros c Hc; reflexivity].
  pose proof s3. rewrite pxE, pyE. apply wave_periodic; lra.
Qed.
Lemma lam_test (s : Z) : s = 1 \/ s = -1 -> lam (dc h) (kw 1) (lw s) = tlam (IZR n).
Proof.
  intros Hs. pose proof n16. pose proof s3. unfold lam, tlam, kw, lw. cbv zeta. rewrite Hd. set (th := (2 * PI / IZR n)%R).
  replace (10 / IZR n * (2 * PI * 1 / 10))%R with th by (unfold th; field; lra).
  replace (10 / IZR n / 2 * (2 * PI * 1 / 10))%R with (th / 2)%R by (unfold th; field; lra).
  replace (- (10 / IZR n / 2) * (2 * PI * 1 / 10))%R with (- (th / 2))%R by (unfold th; field; lra).
  replace (10 / IZR n * (sqrt 3 / 2) * (2 * PI * IZR s / (sqrt 3 / 2 * 10)))%R with (IZR s * th)%R by (unfold th; field; lra).
  destruct Hs as [-> | ->].
  - replace (th / 2 + 1 * th)%R with (3 * th / 2)%R by field. replace (- (th / 2) + 1 * th)%R with (th / 2)%R by field. reflexivity.
  - replace (th / 2 + -1 * th)%R with (- (th / 2))%R by field. replace (- (th / 2) + -1 * th)%R with (- (3 * th / 2))%R by field. rewrite !cos_neg. ring.
Qed.
Lemma wave_args i j c : cw i j c = cos (IZR i * (2 * PI * hxc h c / 10) + IZR j * (2 * PI * hyc h c / (sqrt 3 / 2 * 10))).
Proof. unfold cw, wave, kw, lw. rewrite Rmult_1_l. f_equal. pose proof s3. cbn [F RA]. field. lra. Qed.
Lemma sinsin_cw c : sinsin (hxc h c) (hyc h c) = (1 / 2 * cw 1 (-1) c + - (1 / 2) * cw 1 1 c)%R.
Proof.
  rewrite !wave_args. unfold sinsin. set (a := (2 * PI * hxc h c / 10)%R). set (b := (2 * PI * hyc h c / (sqrt 3 / 2 * 10))%R).
  replace (1 * a + -1 * b)%R with (a - b)%R by ring. replace (1 * a + 1 * b)%R with (a + b)%R by ring. rewrite cos_plus, cos_minus. field.
Qed.
Lemma eig_sinsin m : ready S m -> eig S m (tlam (IZR n)) (fun c => sinsin (hxc h c) (hyc h c)).
Proof.
  intros Hr. apply (eig_lin S Hok dpos m Hr X2 Hev' _ (1 / 2)%R (- (1 / 2))%R (cw 1 (-1)) (cw 1 1)); [| |intros; apply sinsin_cw].
  - rewrite <- (lam_test (-1)) by auto. now apply eig_cw.
  - rewrite <- (lam_test 1) by auto. now apply eig_cw.
Qed.
Lemma cw_sum m i j : ready S m -> 0 < i * i + j * j <= 8 -> rsum NC (cw i j) = 0%R.
Proof.
  intros Hr [H0 H8]. apply (eig_sum S Hok dpos m Hr X2 Hev' _ _ (eig_cw m i j Hr)).
  pose proof (lam_bounds (dc h) (kw i) (lw j) dpos) as [[_ U] _]. cbv zeta in U. set (K := (kw i * kw i + lw j * lw j)%R) in *.
  assert (EK : K = (PI * PI / 25 * IZR (i * i) + 4 / 75 * (PI * PI) * IZR (j * j))%R).
  { unfold K, kw, lw. rewrite !mult_IZR. pose proof s3. pose proof (sqrt_sqrt 3 ltac:(lra)) as S3.
    replace (2 * PI * IZR j / (sqrt 3 / 2 * 10) * (2 * PI * IZR j / (sqrt 3 / 2 * 10)))%R with (4 / 25 * (PI * PI) * (IZR j * IZR j) / (sqrt 3 * sqrt 3))%R by (field; lra).
    rewrite S3. field. }
  pose proof PI_bounds as PB. assert (PP : (9 < PI * PI < 10)%R) by nra.
  assert (I2 : (0 <= IZR (i * i))%R) by (apply IZR_le; nia). assert (J2 : (0 <= IZR (j * j))%R) by (apply IZR_le; nia).
  assert (IJ : (1 <= IZR (i * i) + IZR (j * j) <= 8)%R) by (rewrite <- plus_IZR; split; apply IZR_le; lia).
  assert (K0 : (0 < K <= 5)%R).
  { rewrite EK. set (A := IZR (i * i)) in *. set (B := IZR (j * j)) in *.
    assert (9 * A <= PI * PI * A <= 10 * A)%R by (split; apply Rmult_le_compat_r; lra). assert (9 * B <= PI * PI * B <= 10 * B)%R by (split; apply Rmult_le_compat_r; lra). lra. }
  assert (D1 : (0 < (dc h : R) * dc h <= 1)%R).
  { rewrite Hd. pose proof n16. assert (Q : (0 < 10 / IZR n <= 1)%R). { split; [apply Rdiv_lt_0_compat; lra|]. apply (Rmult_le_reg_r (IZR n)); [lra|]. unfold Rdiv. rewrite Rmult_assoc, Rinv_l by lra. lra. }
    clear - Q. split; nra. }
  assert (KK : ((dc h : R) * dc h * (K * K) <= 1 * (5 * K))%R) by (apply Rmult_le_compat; [lra|nra|lra|apply Rmult_le_compat_r; lra]). lra.
Qed.
Lemma sinsin_sq m : ready S m -> rsum NC (fun c => sinsin (hxc h c) (hyc h c) * sinsin (hxc h c) (hyc h c))%R = (IZR NC / 4)%R.
Proof.
  intros Hr. rewrite (rsum_ext _ _ (fun c => 1 / 4 * 1 + (-(1 / 4) * cw 2 0 c + (-(1 / 4) * cw 0 2 c + (1 / 8 * cw 2 2 c + 1 / 8 * cw 2 (-2) c))))%R).
  - rewrite !rsum_plus, !rsum_scal. rewrite (cw_sum m 2 0 Hr), (cw_sum m 0 2 Hr), (cw_sum m 2 2 Hr), (cw_sum m 2 (-2) Hr) by lia.
    rewrite rsum_const by (rewrite Hx, Hy; nia). field.
  - intros c Hc. rewrite !wave_args. unfold sinsin. set (a := (2 * PI * hxc h c / 10)%R). set (b := (2 * PI * hyc h c / (sqrt 3 / 2 * 10))%R).
    replace (2 * a + 0 * b)%R with (2 * a)%R by ring. replace (0 * a + 2 * b)%R with (2 * b)%R by ring. replace (2 * a + -2 * b)%R with (2 * a - 2 * b)%R by ring.
    rewrite cos_plus, cos_minus, !cos_2a_sin. field.
Qed.

(** The error of a state that is a multiple of the initial one. *)
Lemma error_value m (a E : R) (exact : R -> R -> R) : ready S m -> ntracers P = 1 -> 0 < NL ->
  (forall x y, exact x y = (E * sinsin x y)%R) ->
  (forall k c, 0 <= k < NL -> 0 <= c < NC -> mr m (TrCell St) [0; c; k] = (a * sinsin (mr m XCell [c]) (mr m YCell [c]))%R) ->
  forall r, error_norm S exact m r <-> r = Some (sqrt (IZR NL) / 2 * Rabs (a - E))%R.
Proof.
  intros Hr Ht HL HE HT r. pose proof (ready_hex S Hok m Hr) as Hm. pose proof n16 as N16.
  assert (V : forall errf, reduces (sdims S) m (compute_error S exact) (zseq (d_ncells (sdims S) * NL)) errf -> errf = Some (IZR NL * IZR NC / 4 * ((a - E) * (a - E)))%R).
  { intros errf He. rewrite (reduces_sum _ _ _ _ _ (fun i => (a - E) * (a - E) * (sinsin (hxc h (i / NL)) (hyc h (i / NL)) * sinsin (hxc h (i / NL)) (hyc h (i / NL))))%R) with (2 := He).
    - f_equal. change (d_ncells (sdims S)) with NC. change (Rsum (zseq (NC * NL)) ?f) with (rsum (NC * NL) f). rewrite rsum_scal.
      rewrite (rsum_div NC NL (fun c k => sinsin (hxc h c) (hyc h c) * sinsin (hxc h c) (hyc h c))%R) by (try lia; rewrite Hx, Hy; nia).
      rewrite (rsum_ext _ _ (fun c => IZR NL * (sinsin (hxc h c) (hyc h c) * sinsin (hxc h c) (hyc h c)))%R) by (intros; apply rsum_const; lia).
      rewrite rsum_scal, (sinsin_sq m Hr). field.
    - intros i x Hi. apply in_zseq in Hi. change (d_ncells (sdims S)) with NC in Hi.
      assert (Hc : 0 <= i / NL < NC) by (split; [apply Z.div_pos; lia|apply Z.div_lt_upper_bound; lia]).
      assert (Hk : 0 <= i mod NL < NL) by (apply Z.mod_pos_bound; lia).
      assert (Q : safe (sdims S) (compute_error (A:=RA) S exact i x) m (fun _ => True) (fun _ => True)
         (fun z _ => z = (x + (a - E) * (a - E) * (sinsin (hxc h (i / NL)) (hyc h (i / NL)) * sinsin (hxc h (i / NL)) (hyc h (i / NL))))%R)).
      { unfold compute_error. set (c := i / NL) in *. set (k := i mod NL) in *. apply safe_bind, safe_rdr; [cbn [validb rext]; apply inb1; exact Hc|exact I|]. apply safe_bind, safe_rdr; [cbn [validb rext]; apply inb1; exact Hc|exact I|].
        apply safe_bind, safe_rdr; [cbn [validb rext]; apply inb3; change (d_ntracers (sdims S)) with (ntracers P); rewrite Ht; repeat split; try lia; exact (proj2 Hc)|exact I|].
        apply safe_ret. cbv zeta. rewrite HT by assumption. rewrite (hm_xc _ _ _ Hm), (hm_yc _ _ _ Hm) by exact Hc. rewrite HE. cbn [F RA fadd fsub fmul]. apply Rminus_diag_uniq. ring. }
      destruct (safe_run _ _ _ _ _ _ Q) as (z & m' & Ez & ->). eauto. }
  assert (W : option_map (fun e : R => sqrt (e / IZR NC)) (Some (IZR NL * IZR NC / 4 * ((a - E) * (a - E)))%R) = Some (sqrt (IZR NL) / 2 * Rabs (a - E))%R).
  { cbn [option_map]. f_equal. assert (N0 : (0 < IZR NC)%R) by (apply IZR_lt; rewrite Hx, Hy; nia). assert (L0 : (0 < IZR NL)%R) by (apply IZR_lt; lia).
    replace (IZR NL * IZR NC / 4 * ((a - E) * (a - E)) / IZR NC)%R with (IZR NL * (((a - E) / 2) * ((a - E) / 2)))%R by (field; lra).
    rewrite sqrt_mult by (try lra; apply Rle_0_sqr). fold (Rsqr ((a - E) / 2)). rewrite sqrt_Rsqr_abs. unfold Rdiv at 1. rewrite Rabs_mult, (Rabs_right (/ 2)) by lra. field. }
  split.
  - intros (errf & He & ->). rewrite (V _ He). exact W.
  - intros ->. destruct (reduces_ex (sdims S) m (compute_error S exact) (zseq (d_ncells (sdims S) * NL))) as [errf He]. exists errf. split; [exact He|].
    rewrite (V _ He). symmetry. exact W.
Qed.
End TestRun.
