(** Proofs of the properties of [PropsTestAdv.v]. *)
From Coq Require Import ZArith Reals List Bool Lia Lra.
From Verif Require Import Arith Arrays Prog Conc Launch Mesh AuxVars Tend Model Hex HexComb RSum Spec MeshProof MeshMem MeshFacts MeshR Over KernBase TendFn StepFn Ready Relate TendVal StepVal StepRun Diag Deriv Stencil Taylor Accur Sample Waves Driver DriverFn WaveRun TestFns TestRun TestRunFn DriverThms WaveThms AdvNum AdvThms UTaylor UCompose ConvSpec ConvThms TestAdv.
Import ListNotations.
Open Scope Z_scope.

(** The error of the tests in exact arithmetic, whatever the order of the reduction. *)
Lemma error_rms (S : setup RA) (Hok : setup_ok S) (m : mem RA) (exact : R -> R -> R) : ntracers (par_of S) = 1 -> 0 < d_nlayers (sdims S) ->
  let err c k := (mr m (TrCell St) [0%Z; c; k] - exact (mr m XCell [c]) (mr m YCell [c]))%R in
  forall r, error_norm S exact m r <-> r = Some (sqrt (rsum (d_nlayers (sdims S)) (fun k => rsum (d_ncells (sdims S)) (fun c => err c k * err c k)) / IZR (d_ncells (sdims S)))%R).
Proof.
  intros Ht HL err r. set (NL := d_nlayers (sdims S)) in *. set (NC := d_ncells (sdims S)) in *.
  assert (NC0 : 0 <= NC) by (pose proof (proj1 Hok) as (A1 & A2 & _); unfold NC; cbn; nia).
  pose (sq := fun c k => (err c k * err c k)%R).
  assert (V : forall errf, reduces (sdims S) m (compute_error S exact) (zseq (NC * NL)) errf -> errf = Some (rsum NL (fun k => rsum NC (fun c => err c k * err c k)%R))).
  { intros errf He. rewrite (reduces_sum _ _ _ _ _ (fun i => sq (i / NL) (i mod NL))) with (2 := He).
    - f_equal. change (Rsum (zseq (NC * NL)) ?f) with (rsum (NC * NL) f). rewrite (rsum_div NC NL sq) by lia. apply rsum_swap.
    - intros i x Hi. apply in_zseq in Hi.
      assert (Hc : 0 <= i / NL < NC) by (split; [apply Z.div_pos; lia|apply Z.div_lt_upper_bound; lia]).
      assert (Hk : 0 <= i mod NL < NL) by (apply Z.mod_pos_bound; lia).
      assert (Q : safe (sdims S) (compute_error (A:=RA) S exact i x) m (fun _ => True) (fun _ => True) (fun z _ => z = Rplus x (sq (i / NL) (i mod NL)))).
      { unfold compute_error. fold NL. set (c := i / NL) in *. set (k := i mod NL) in *. apply safe_bind, safe_rdr; [cbn [validb rext]; apply inb1; exact Hc|exact I|]. apply safe_bind, safe_rdr; [cbn [validb rext]; apply inb1; exact Hc|exact I|].
        apply safe_bind, safe_rdr; [cbn [validb rext]; apply inb3; change (d_ntracers (sdims S)) with (ntracers (par_of S)); rewrite Ht; repeat split; try lia; exact (proj2 Hc)|exact I|].
        apply safe_ret. cbv zeta. unfold sq, err. cbn [F RA fadd fsub fmul]. apply Rminus_diag_uniq. ring. }
      destruct (safe_run _ _ _ _ _ _ Q) as (z & m' & Ez & ->). eauto. }
  split.
  - intros (errf & He & ->). rewrite (V _ He). reflexivity.
  - intros ->. destruct (reduces_ex (sdims S) m (compute_error S exact) (zseq (NC * NL))) as [errf He]. exists errf. split; [exact He|]. rewrite (V _ He). reflexivity.
Qed.
Lemma rms_layers NL NC (f : Z -> Z -> R) B : 0 < NL -> (0 <= B)%R -> (forall k, 0 <= k < NL -> (sqrt (rsum NC (fun c => f c k * f c k) / IZR NC) <= B)%R) -> 0 < NC ->
  (sqrt (rsum NL (fun k => rsum NC (fun c => f c k * f c k)) / IZR NC) <= sqrt (IZR NL) * B)%R.
Proof.
  intros HL B0 H HC. assert (N0 : (0 < IZR NC)%R) by now apply IZR_lt. assert (L0 : (0 < IZR NL)%R) by now apply IZR_lt.
  assert (K : forall k, 0 <= k < NL -> (rsum NC (fun c => f c k * f c k) <= IZR NC * (B * B))%R).
  { intros k Hk. specialize (H k Hk). set (s := rsum NC _) in *.
    assert (S0 : (0 <= s / IZR NC)%R) by (apply Rmult_le_pos; [apply rsum_nonneg; intros; apply Rle_0_sqr|left; now apply Rinv_0_lt_compat]).
    pose proof (Rmult_le_compat _ _ _ _ (sqrt_pos (s / IZR NC)) (sqrt_pos (s / IZR NC)) H H) as Q. rewrite sqrt_sqrt in Q by exact S0.
    replace s with (IZR NC * (s / IZR NC))%R by (field; lra). apply Rmult_le_compat_l; lra. }
  rewrite <- (sqrt_square B) by exact B0. rewrite <- sqrt_mult by (try lra; apply Rle_0_sqr). apply sqrt_le_1_alt.
  apply (Rmult_le_reg_r (IZR NC)); [exact N0|]. unfold Rdiv. rewrite Rmult_assoc, Rinv_l, Rmult_1_r by lra.
  eapply Rle_trans; [apply rsum_le; exact K|]. rewrite rsum_const by lia. right. ring.
Qed.
(** The flow of the test. *)
Lemma ta_h_smooth n : smooth n (fun x y => TA.h x y 0).
Proof.
  unfold TA.h, TA.lx. apply smooth_exp. apply (smooth_ext n (wave 1 (2 * PI) 0 0)); [|apply wave_smooth].
  intros x y. unfold wave. rewrite Rmult_1_l. f_equal. field.
Qed.
Lemma s3p : (0 < sqrt 3)%R. Proof. apply sqrt_lt_R0; lra. Qed.
Lemma ta_tr_smooth n : smooth n (fun x y => TA.tr x y 0).
Proof.
  unfold TA.tr, TA.ly, TA.lx. apply smooth_mult.
  - apply (smooth_ext n (wave 1 (2 * PI) 0 (- (PI / 2)))); [|apply wave_smooth].
    intros x y. unfold wave. rewrite Rmult_1_l, <- cos_shift, <- cos_neg. f_equal. field.
  - apply (smooth_ext n (wave 1 0 (2 * PI / (sqrt 3 / 2 * 1)) (- (PI / 2)))); [|apply wave_smooth].
    intros x y. unfold wave. rewrite Rmult_1_l, <- cos_shift, <- cos_neg. f_equal. field. pose proof s3p. lra.
Qed.
Lemma sin_Z x k : sin (x + IZR k * (2 * PI)) = sin x.
Proof. rewrite <- !cos_shift. rewrite <- (cos_Z (PI / 2 - x) (- k)). f_equal. rewrite opp_IZR. ring. Qed.
Lemma ta_per px py : px = 1%R -> py = (sqrt 3 / 2)%R -> periodic px py (fun x y => TA.h x y 0) /\ periodic px py (fun x y => TA.tr x y 0).
Proof.
  intros -> ->. pose proof s3p. split; intros x y; unfold TA.h, TA.tr, TA.ly, TA.lx; split; try reflexivity.
  - f_equal. rewrite <- (cos_Z (2 * PI * x / 1) 1). f_equal. field.
  - f_equal. rewrite <- (sin_Z (2 * PI * (x - 0) / 1) 1). f_equal. field.
  - f_equal. rewrite <- (sin_Z (2 * PI * (y - 0) / (sqrt 3 / 2 * 1)) 1). f_equal. field. lra.
Qed.
Lemma ta_h_range x y : (1 / 3 <= TA.h x y 0 <= 3)%R.
Proof.
  unfold TA.h. pose proof (COS_bound (2 * PI * x / TA.lx)) as B. set (z := cos _) in *. pose proof exp_le_3. pose proof (exp_pos 1).
  assert (E : (exp (-1) <= exp z)%R) by (destruct (Rle_lt_or_eq_dec (-1) z ltac:(lra)) as [L|E]; [left; now apply exp_increasing|rewrite E; lra]).
  assert (E' : (exp z <= exp 1)%R) by (destruct (Rle_lt_or_eq_dec z 1 ltac:(lra)) as [L|E']; [left; now apply exp_increasing|rewrite E'; lra]).
  assert (E1 : exp (-1) = (/ exp 1)%R) by (replace (-1)%R with (- (1))%R by lra; apply exp_Ropp).
  split; [|lra]. eapply Rle_trans; [|exact E]. rewrite E1. unfold Rdiv. rewrite Rmult_1_l. apply Rinv_le_contravar; lra.
Qed.
Lemma ta_ratio d x x' y y' : (0 < d)%R -> (d <= 1 / 8)%R -> ((x' - x) ^ 2 + (y' - y) ^ 2 <= d ^ 2)%R -> (TA.h x' y' 0 <= 4 * TA.h x y 0)%R.
Proof.
  intros D0 D8 H. unfold TA.h, TA.lx. set (a := (2 * PI * x' / 1)%R). set (b := (2 * PI * x / 1)%R).
  assert (X : (Rabs (x' - x) <= d)%R) by (rewrite <- (Rabs_right d) by lra; apply Rsqr_le_abs_0; unfold Rsqr; pose proof (Rle_0_sqr (y' - y)) as Q; unfold Rsqr in Q; cbn [pow] in H; lra).
  assert (C : (cos a <= 1 + cos b)%R).
  { pose proof (cos_lip a b) as L. assert (E : (Rabs (a - b) <= 1)%R).
    { unfold a, b. replace (2 * PI * x' / 1 - 2 * PI * x / 1)%R with (2 * PI * (x' - x))%R by field. rewrite Rabs_mult, (Rabs_right (2 * PI)) by (pose proof PI_RGT_0; lra).
      pose proof PI_RGT_0. pose proof PI_4. assert (2 * PI * Rabs (x' - x) <= 8 * (1 / 8))%R; [|lra]. apply Rmult_le_compat; try lra. apply Rabs_pos. }
    pose proof (Rle_abs (cos a - cos b)). lra. }
  assert (E3 : (exp (cos a) <= exp (1 + cos b))%R) by (destruct C as [C| ->]; [left; now apply exp_increasing|right; reflexivity]).
  rewrite exp_plus in E3. pose proof exp_le_3. pose proof (exp_pos (cos b)). eapply Rle_trans; [exact E3|]. apply Rmult_le_compat_r; lra.
Qed.

Lemma C85_advection_test_error_proof :
  exists us FX FY : nat -> R -> fn2, (forall t x y, us 0%nat t x y = TA.tr x y t) /\
  let U := fun x y => TA.vx x y 0 in let V := fun x y => TA.vy x y 0 in let h := fun x y => TA.h x y 0 in
  transported U V us FX FY ta_timeend /\ (forall x y, 1 / 3 <= h x y <= 3)%R /\
  (exists Cf Cr M : R, forall d : R, d <> 0%R -> transport_bounds d h U V us ta_timeend Cf Cr M) /\
  forall Cf Cr M : R, (forall d : R, d <> 0%R -> transport_bounds d h U V us ta_timeend Cf Cr M) ->
  let C := (3 * error_const (1 / 3) 3 ta_timeend Cf Cr M)%R in
  forall (cf : config) (f0 : R) (n N : Z), let S := ta_setup cf f0 n in setup_ok S -> 8 <= n -> Z.even n = true ->
  (IZR N - 1 < ta_timeend / ta_dt n <= IZR N)%R ->
  always (sdims S) (program S (LSRK 5) ta_init (loop_steps (A:=RA) N (ta_timeend / IZR N)%R)) (mzero RA) (fun m' =>
    (forall k, 0 <= k < d_nlayers (sdims S) ->
      let err c := (mr m' (TrCell St) [0%Z; c; k] - TA.tr (mr m' XCell [c]) (mr m' YCell [c]) ta_timeend)%R in
      (sqrt (rsum (d_ncells (sdims S)) (fun c => err c * err c) / IZR (d_ncells (sdims S))) <= C / (IZR n * IZR n))%R) /\
    exists e : R, (0 <= e <= sqrt (IZR (d_nlayers (sdims S))) * C / (IZR n * IZR n))%R /\
      forall r, error_norm S (fun x y => TA.tr x y ta_timeend) m' r <-> r = Some e).
Proof.
  destruct (C84_uniform_velocity_proof (fun x y => TA.h x y 0) (fun x y => TA.tr x y 0) 1 1 (1 / 3) ta_timeend) as (us & FX & FY & E0 & HF & hm & Cf0 & Cr0 & M0 & _ & B0).
  { apply ta_h_smooth. } { apply ta_tr_smooth. } { lra. } { intros x y. apply ta_h_range. }
  exists us, FX, FY.
  assert (Ut : forall t x y, us 0%nat t x y = TA.tr x y t).
  { intros t x y. rewrite E0. unfold TA.tr. f_equal; f_equal; f_equal; f_equal; ring. }
  split; [exact Ut|]. intros U V h. split; [exact HF|]. split; [exact ta_h_range|]. split; [exists Cf0, Cr0, M0; exact B0|].
  intros Cf Cr M HB C. subst C U V h.
  assert (C00 : (0 <= error_const (1 / 3) 3 ta_timeend Cf Cr M)%R).
  { destruct (HB 1%R ltac:(lra)) as (F0 & R0 & P0 & _). unfold error_const, ta_timeend. cbv zeta. set (g := (Cf / (2 * (1 / 3)))%R). assert (g0 : (0 <= g)%R) by (unfold g; lra).
    set (Y := (5 / 2 + (g + 1) * 1)%R). assert (Y0 : (0 <= Y)%R) by (unfold Y; lra). set (B := (2 * (1 + 2 * Y + 3 * Y ^ 2 + 4 * Y ^ 3 + 5 * Y ^ 4))%R).
    assert (B1 : (0 <= B)%R) by (unfold B; pose proof (pow_le Y 2 Y0); pose proof (pow_le Y 3 Y0); pose proof (pow_le Y 4 Y0); lra).
    apply Rmult_le_pos; [|left; apply exp_pos]. apply Rmult_le_pos; [apply Rmult_le_pos; [apply sqrt_pos|lra]|]. pose proof (Rmult_le_pos B Cr B1 R0). lra. }
  set (C0 := error_const (1 / 3) 3 ta_timeend Cf Cr M) in *.
  intros cf f0 n N S Hok H8 Hev HN.
  assert (N8 : (8 <= IZR n)%R) by now apply IZR_le.
  assert (DT : (ta_timeend / ta_dt n = 2 * IZR n)%R) by (unfold ta_timeend, ta_dt, TA.lx; field; lra).
  assert (EN : N = 2 * n).
  { rewrite DT in HN. assert (A1 : (IZR (N - 1) < IZR (2 * n))%R) by (rewrite minus_IZR, mult_IZR; lra). assert (A2 : (IZR (2 * n) <= IZR N)%R) by (rewrite mult_IZR; lra).
    apply lt_IZR in A1. apply le_IZR in A2. lia. }
  pose proof (proj1 Hok) as HM. assert (MX : n * n <= INT_MAX) by (destruct HM as (_ & _ & M3 & _); change (3 * (n * n) <= INT_MAX) in M3; unfold INT_MAX in *; clear - M3 H8; nia).
  assert (Ed : (dc (mesh_of_setup S) : R) = (1 / IZR n)%R) by reflexivity.
  assert (D1 : (0 < 1 / IZR n <= 1 / 8)%R).
  { split; [apply Rdiv_lt_0_compat; lra|]. apply (Rmult_le_reg_r (IZR n)); [lra|]. unfold Rdiv at 1. rewrite Rmult_assoc, Rinv_l by lra. lra. }
  assert (ET : (ta_timeend / IZR N = 1 / IZR n / 2)%R) by (rewrite EN, mult_IZR; unfold ta_timeend; field; lra).
  rewrite ET. set (d := (1 / IZR n)%R) in *.
  assert (NM : (IZR n * IZR n <= 10 ^ 25)%R) by (rewrite <- mult_IZR; apply Rle_trans with (IZR INT_MAX); [now apply IZR_le|unfold INT_MAX; lra]).
  assert (D2 : (d * d = 1 / (IZR n * IZR n))%R) by (unfold d; field; lra).
  assert (SL : (1 / 10 ^ 25 <= d * d)%R).
  { rewrite D2. unfold Rdiv. rewrite !Rmult_1_l. apply Rinv_le_contravar; [nra|exact NM]. }
  assert (TOT : (C0 * (d ^ 2 + (d / 2) ^ 4 + 1 / 10 ^ 25) <= 3 * C0 / (IZR n * IZR n))%R).
  { replace (3 * C0 / (IZR n * IZR n))%R with (C0 * (3 * (d * d)))%R by (rewrite D2; field; lra).
    assert (0 <= d ^ 2 + (d / 2) ^ 4 + 1 / 10 ^ 25 <= 3 * (d * d))%R.
    { assert (0 <= d * d <= 1)%R by (split; nra). assert (0 <= (d / 2) ^ 4 <= d * d)%R.
      { replace ((d / 2) ^ 4)%R with (d * d * (d * d) / 16)%R by field. split; nra. }
      replace (d ^ 2)%R with (d * d)%R by ring. split; [|lra]. assert (0 < 1 / 10 ^ 25)%R by (apply Rdiv_lt_0_compat; [lra|apply pow_lt; lra]). lra. }
    apply Rmult_le_compat_l; [exact C00|lra]. }
  destruct (ta_per (period_x (mesh_of_setup S)) (period_y (mesh_of_setup S))) as [Ph Pt].
  { unfold period_x. cbn. unfold TA.lx. field. lra. } { unfold period_y. cbn. unfold TA.lx. field. lra. }
  assert (IN : (IZR N * (d / 2) = 1)%R) by (rewrite EN, mult_IZR; unfold d; field; lra).
  eapply always_weaken; [apply (C84_tracer_transport_converges_proof (LSRK 5) (1 / 10 ^ 25)%R ltac:(right; split; reflexivity) S Hok ltac:(cbn; lia) Hev) with (tr := fun _ x y => TA.tr x y 0) (dt := (d / 2)%R) (N := N)
     (h := fun x y => TA.h x y 0) (U := fun x y => TA.vx x y 0) (V := fun x y => TA.vy x y 0) (us := us) (FX := FX) (FY := FY) (hmin := (1 / 3)%R) (hmax := 3%R) (vmax := 2%R) (Te := ta_timeend) (Cf := Cf) (Cr := Cr) (M := M)|]; try reflexivity; try assumption.
  all: try (cbn; lra). all: try lra.
  - exact ta_h_range.
  - intros x y x' y' H. apply (ta_ratio d); [lra|lra|]. rewrite <- Ed. exact H.
  - intros x y. unfold TA.vx, TA.vy. lra.
  - apply HB. rewrite Ed. lra.
  - intros x y. split; reflexivity.
  - intros x y. split; reflexivity.
  - intros t Ht x y. rewrite !E0. replace (x + period_x (mesh_of_setup S) - 1 * t)%R with (x - 1 * t + period_x (mesh_of_setup S))%R by ring.
    replace (y + period_y (mesh_of_setup S) - 1 * t)%R with (y - 1 * t + period_y (mesh_of_setup S))%R by ring. apply Pt.
  - unfold INT_MAX in *. nia.
  - unfold ta_timeend. lra.
  - cbv beta. intros m' G.
    assert (L0 : 0 < d_nlayers (sdims S)) by (apply nl_pos; [exact Hok|reflexivity]).
    assert (Bk : forall k, 0 <= k < d_nlayers (sdims S) ->
      (sqrt (rsum (d_ncells (sdims S)) (fun c => (mr m' (TrCell St) [0%Z; c; k] - TA.tr (mr m' XCell [c]) (mr m' YCell [c]) ta_timeend) * (mr m' (TrCell St) [0%Z; c; k] - TA.tr (mr m' XCell [c]) (mr m' YCell [c]) ta_timeend)) / IZR (d_ncells (sdims S))) <= 3 * C0 / (IZR n * IZR n))%R).
    { intros k Hk. specialize (G 0 k ltac:(cbn; lia) Hk ltac:(intros; now rewrite Ut)). cbv zeta in G. rewrite Ed in G. eapply Rle_trans; [right|eapply Rle_trans; [exact G|exact TOT]].
      do 2 f_equal. apply rsum_ext. intros c Hc. rewrite IN, Ut. reflexivity. }
    split; [exact Bk|]. eexists. split; [|apply (error_rms S Hok m' _ eq_refl L0)]. split; [apply sqrt_pos|]. cbv beta.
    unfold Rdiv at 2. rewrite Rmult_assoc. apply rms_layers; [exact L0| |exact Bk|cbn; nia].
    apply Rmult_le_pos; [apply Rmult_le_pos; [lra|exact C00]|]. left. apply Rinv_0_lt_compat. nra.
Qed.

