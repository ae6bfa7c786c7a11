(** Proofs of the properties of [PropsWaves.v]. *)
From Coq Require Import ZArith Reals List Bool Lia Lra.
From Verif Require Import Arith Arrays Prog Conc Launch Mesh AuxVars Tend Model Hex HexComb RSum Spec MeshProof MeshMem MeshFacts MeshR MeshCalc Over Formulas RealOps KernBase Terms KernAux KernTend TendFn StepFn Ready Rel RelRun Relate TendVal StepVal StepRun Tableau StepThms RealTend SumParts Diag FieldInv ConsBase ConsThms SteadyThms SuperThms Diffuse DiffuseThms Deriv Stencil Taylor Sample Waves Modes DecayNum DecayNum2 DecayNum3 Driver DriverFn DriverThms WaveRun WaveStab TestFns TestRun TestRunFn.
Import ListNotations.
Open Scope Z_scope.

Lemma rate_max (S : setup RA) L : rate S L = (Rmax 0 (eddy_diff2 (par_of S)) * L - Rmax 0 (eddy_diff4 (par_of S)) * (L * L))%R.
Proof.
  unfold rate, tracer_diff_enabled, tracer_hyperdiff_enabled. cbn [flt RA fofZ]. unfold Rmax. cbn [F RA].
  destruct (Rlt_dec 0 (eddy_diff2 (par_of S))), (Rlt_dec 0 (eddy_diff4 (par_of S))), (Rle_dec 0 (eddy_diff2 (par_of S))), (Rle_dec 0 (eddy_diff4 (par_of S))); try lra; try ring.
  all: try (assert (A : (eddy_diff2 (par_of S) : R) = 0%R) by (cbn [F RA] in *; lra); cbn [F RA] in A; rewrite A).
  all: try (assert (B : (eddy_diff4 (par_of S) : R) = 0%R) by (cbn [F RA] in *; lra); cbn [F RA] in B; rewrite B). all: ring.
Qed.
Lemma gain_fold S g L steps v : (gain S g L steps * v)%R = fold_right (fun p x => (ampl g (snd p * rate S L) * x)%R) v steps.
Proof. induction steps as [|p l IH]; [cbn; ring|]. cbn [gain fold_right]. rewrite <- IH. unfold gain. ring. Qed.
Lemma eig_plane (S : setup RA) (Hok : setup_ok S) (Hdc : (0 < (dc (mesh_of_setup S) : R))%R) (HX : 2 <= nx (mesh_of_setup S)) (Hev : Z.even (ny (mesh_of_setup S)) = true) A phi p q m :
  ready S m -> eig S m (lam (dc (mesh_of_setup S)) (2 * PI * IZR p / period_x (mesh_of_setup S)) (2 * PI * IZR q / period_y (mesh_of_setup S)))
    (fun c => A * cos (2 * PI * IZR p / period_x (mesh_of_setup S) * hxc (mesh_of_setup S) c + 2 * PI * IZR q / period_y (mesh_of_setup S) * hyc (mesh_of_setup S) c + phi))%R.
Proof.
  intros Hr. apply (eig_wave S Hok Hdc m Hr HX Hev A _ _ phi); [|intros c Hc; reflexivity].
  pose proof (HY S Hok Hev) as HY2. apply wave_periodic.
  - unfold period_x. cbn [F RA fofZ fmul] in *. assert (0 < IZR (nx (mesh_of_setup S)))%R by (apply IZR_lt; lia). apply Rgt_not_eq. apply Rmult_lt_0_compat; assumption.
  - unfold period_y. cbn [F RA fofZ fmul fdiv fsqrt] in *. assert (0 < IZR (ny (mesh_of_setup S)))%R by (apply IZR_lt; lia).
    assert (0 < sqrt 3)%R by (apply sqrt_lt_R0; lra). apply Rgt_not_eq. unfold Rdiv. repeat apply Rmult_lt_0_compat; try assumption; lra.
Qed.


Lemma nl_pos (S : setup RA) : setup_ok S -> nlayers (mesh_of_setup S) = 1 -> 0 < d_nlayers (sdims S).
Proof.
  intros Hok H1. pose proof (proj1 Hok) as (_ & _ & _ & HL & _). change (d_nlayers (sdims S)) with (zceil (nlayers (mesh_of_setup S)) (vector_length (cfg_of S)) * vector_length (cfg_of S)).
  rewrite H1. assert (V : 1 <= vector_length (cfg_of S)) by (unfold vector_length; destruct (no_simd (cfg_of S)); lia).
  unfold zceil. change (Z.opp 1) with (-1). assert (-1 / vector_length (cfg_of S) <= -1) by (apply Z.lt_succ_r, Z.div_lt_upper_bound; lia). nia.
Qed.
Lemma sinsin_le x y a e : (Rabs a <= e)%R -> (Rabs (a * sinsin x y) <= e)%R.
Proof.
  intros H. rewrite Rabs_mult. apply Rle_trans with (Rabs a * 1)%R; [|lra]. apply Rmult_le_compat_l; [apply Rabs_pos|]. unfold sinsin. rewrite Rabs_mult.
  replace 1%R with (1 * 1)%R by ring. apply Rmult_le_compat; try apply Rabs_pos; apply Rabs_le, SIN_bound.
Qed.
Lemma small_n (S : setup RA) n : setup_ok S -> nx (mesh_of_setup S) = n -> ny (mesh_of_setup S) = n -> 16 <= n -> (16 <= IZR n <= 2147483648)%R.
Proof.
  intros Hok Hx Hy Hn. pose proof (proj1 Hok) as (_ & _ & H3 & _). rewrite Hx, Hy in H3. unfold INT_MAX in H3. split; [now apply IZR_le|].
  apply IZR_le. nia.
Qed.
Lemma steps_n (T dt : R) N : (0 < T)%R -> (0 < dt)%R -> (IZR N - 1 < T / dt <= IZR N)%R ->
  0 <= N /\ (1 <= Z.to_nat N)%nat /\ INR (Z.to_nat N) = IZR N /\ (T / INR (Z.to_nat N) <= dt)%R.
Proof.
  intros HT Hd HN. destruct (C53_time_loop_reaches_the_end_proof T dt N HT Hd HN) as ([_ D] & _). assert (Q : (0 < T / dt)%R) by now apply Rdiv_lt_0_compat.
  assert (N1 : 0 < N) by (apply lt_IZR; lra). assert (E : INR (Z.to_nat N) = IZR N) by (rewrite INR_IZR_INZ, Z2Nat.id by lia; reflexivity).
  rewrite E. repeat split; try lia. exact D.
Qed.

Lemma test_c (l : R) : l = 10%R -> (4 * PI * PI * (1 / (l * l) + 1 / ((sqrt 3 / 2 * l) * (sqrt 3 / 2 * l))) = c0)%R.
Proof.
  intros ->. pose proof (sqrt_sqrt 3 ltac:(lra)) as S3. assert (S0 : (0 < sqrt 3)%R) by (apply sqrt_lt_R0; lra).
  replace (sqrt 3 / 2 * 10 * (sqrt 3 / 2 * 10))%R with (25 * (sqrt 3 * sqrt 3))%R by field. rewrite S3. unfold c0. field.
Qed.
Lemma td_exact x y t : TD.tr x y t = (exp (- (t * c0)) * sinsin x y)%R.
Proof. unfold TD.tr, sinsin. change TD.c with (4 * PI * PI * (1 / (TD.lx * TD.lx) + 1 / ((sqrt 3 / 2 * TD.lx) * (sqrt 3 / 2 * TD.lx))))%R. rewrite (test_c TD.lx eq_refl). unfold TD.ly, TD.lx, TD.diff2. replace (-(1) * c0 * t)%R with (- (t * c0))%R by ring. ring. Qed.
Lemma th_exact x y t : TH.tr x y t = (exp (- (t * (c0 * c0))) * sinsin x y)%R.
Proof. unfold TH.tr, sinsin. change TH.c with (4 * PI * PI * (1 / (TH.lx * TH.lx) + 1 / ((sqrt 3 / 2 * TH.lx) * (sqrt 3 / 2 * TH.lx))))%R. rewrite (test_c TH.lx eq_refl). unfold TH.ly, TH.lx, TH.diff4. replace (-(1) * c0 * c0 * t)%R with (- (t * (c0 * c0)))%R by ring. ring. Qed.

Section Runs.
Context (cf : config) (f0 : R) (n N : Z) (Hn : 16 <= n) (Hev : Z.even n = true).
Definition result (S : setup RA) (a E : R) (exact : R -> R -> R) (m' : mem RA) : Prop :=
  (forall k c, 0 <= k < d_nlayers (sdims S) -> 0 <= c < d_ncells (sdims S) -> mr m' (TrCell St) [0; c; k] = (a * sinsin (mr m' XCell [c]) (mr m' YCell [c]))%R) /\
  forall r, error_norm S exact m' r <-> r = Some (sqrt (IZR (d_nlayers (sdims S))) / 2 * Rabs (a - E))%R.
Definition td_a : R := (ampl g_lsrk5 (2 / INR (Z.to_nat N) * tlam (IZR n)) ^ Z.to_nat N)%R.
Definition th_a : R := (ampl g_lsrk5 (2 / INR (Z.to_nat N) * - (tlam (IZR n) * tlam (IZR n))) ^ Z.to_nat N)%R.
Lemma run_result (S : setup RA) (I : initial RA) (T a E : R) (exact : R -> R -> R) :
  setup_ok S -> hook S = None -> nx (mesh_of_setup S) = n -> ny (mesh_of_setup S) = n -> nlayers (mesh_of_setup S) = 1 -> (dc (mesh_of_setup S) : R) = (10 / IZR n)%R -> ntracers (par_of S) = 1 ->
  0 <= N -> (forall x y, exact x y = (E * sinsin x y)%R) ->
  I = mkInitial (A:=RA) (fun _ _ => 1%R) (fun _ _ => 0%R) (fun _ _ => 0%R) (ini_tr I) -> (forall l x y, ini_tr I l x y = sinsin x y) ->
  a = (ampl g_lsrk5 (T / IZR N * rate S (tlam (IZR n))) ^ Z.to_nat N)%R ->
  always (sdims S) (program S (LSRK 5) I (loop_steps (A:=RA) N (T / IZR N)%R)) (mzero RA) (result S a E exact).
Proof.
  intros Hok Hf Hx Hy H1 Hd Ht HN HE HI HT Ha.
  pose proof (dpos S n Hn Hd) as Hdc. pose proof (Hev' S n Hev Hy) as Hev2. assert (HX : 2 <= nx (mesh_of_setup S)) by lia.
  rewrite HI. eapply always_weaken; [apply (program_eig S Hok Hdc HX Hev2 Hf (LSRK 5) 1 (ini_tr I) _ ltac:(lra))|]. cbv beta. intros m' (Hr & Q).
  assert (V : forall k c, 0 <= k < d_nlayers (sdims S) -> 0 <= c < d_ncells (sdims S) -> mr m' (TrCell St) [0; c; k] = (a * sinsin (mr m' XCell [c]) (mr m' YCell [c]))%R).
  { intros k c Hk Hc. rewrite (Q 0 (tlam (IZR n))); [|lia| |exact Hk|exact Hc].
    - rewrite HT, Ha. rewrite gain_loop by exact HN. reflexivity.
    - intros m Hm c' Hc'. pose proof (eig_sinsin S Hok n Hn Hev Hx Hy Hd m Hm c' Hc') as G. rewrite HT. rewrite <- G.
      apply (lap_ext S Hok Hdc m Hm HX (HY S Hok Hev2)); [|exact Hc']. intros. apply HT. }
  split; [exact V|]. apply (error_value S Hok n Hn Hev Hx Hy Hd m' a E exact Hr Ht (nl_pos S Hok H1) HE V).
Qed.
Lemma td_dt_pos : (0 < td_dt n)%R.
Proof. unfold td_dt, TD.lx, TD.diff2. assert (16 <= IZR n)%R by now apply IZR_le. assert (0 < 10 / IZR n)%R by (apply Rdiv_lt_0_compat; lra). apply Rdiv_lt_0_compat; [apply Rmult_lt_0_compat; lra|lra]. Qed.
Lemma th_dt_pos : (0 < th_dt n)%R.
Proof. unfold th_dt, TH.lx, TH.diff4. assert (16 <= IZR n)%R by now apply IZR_le. assert (0 < 10 / IZR n)%R by (apply Rdiv_lt_0_compat; lra). apply Rdiv_lt_0_compat; [apply pow_lt; lra|lra]. Qed.
Lemma td_run : setup_ok (td_setup cf f0 n) -> (IZR N - 1 < td_timeend / td_dt n <= IZR N)%R ->
  always (sdims (td_setup cf f0 n)) (program (td_setup cf f0 n) (LSRK 5) td_init (loop_steps (A:=RA) N (td_timeend / IZR N)%R)) (mzero RA)
    (result (td_setup cf f0 n) td_a (exp (- (2 * c0))) (fun x y => TD.tr x y td_timeend)).
Proof.
  intros Hok HN. destruct (steps_n td_timeend (td_dt n) N ltac:(unfold td_timeend; lra) td_dt_pos HN) as (N0 & N1 & NE & ND).
  apply run_result; try reflexivity; try assumption.
  - intros x y. apply td_exact.
  - intros l x y. cbn [ini_tr td_init]. rewrite td_exact. rewrite Rmult_0_l, Ropp_0, exp_0. apply Rmult_1_l.
  - unfold td_a. rewrite NE. f_equal. f_equal. f_equal. rewrite rate_max. cbn [par_of td_setup eddy_diff2 eddy_diff4]. unfold TD.diff2. rewrite Rmax_right, Rmax_left by lra. ring.
Qed.
Lemma th_run : setup_ok (th_setup cf f0 n) -> (IZR N - 1 < th_timeend / th_dt n <= IZR N)%R ->
  always (sdims (th_setup cf f0 n)) (program (th_setup cf f0 n) (LSRK 5) th_init (loop_steps (A:=RA) N (th_timeend / IZR N)%R)) (mzero RA)
    (result (th_setup cf f0 n) th_a (exp (- C2)) (fun x y => TH.tr x y th_timeend)).
Proof.
  intros Hok HN. destruct (steps_n th_timeend (th_dt n) N ltac:(unfold th_timeend; lra) th_dt_pos HN) as (N0 & N1 & NE & ND).
  apply run_result; try reflexivity; try assumption.
  - intros x y. apply th_exact.
  - intros l x y. cbn [ini_tr th_init]. rewrite th_exact. rewrite Rmult_0_l, Ropp_0, exp_0. apply Rmult_1_l.
  - unfold th_a. rewrite NE. f_equal. f_equal. f_equal. rewrite rate_max. cbn [par_of th_setup eddy_diff2 eddy_diff4]. unfold TH.diff4. rewrite Rmax_left, Rmax_right by lra. ring.
Qed.
Lemma td_cond : (IZR N - 1 < td_timeend / td_dt n <= IZR N)%R -> (1 <= Z.to_nat N)%nat /\ (2 / INR (Z.to_nat N) <= 10 / IZR n * (10 / IZR n) / 4)%R.
Proof.
  intros HN. destruct (steps_n td_timeend (td_dt n) N ltac:(unfold td_timeend; lra) td_dt_pos HN) as (_ & N1 & _ & ND). split; [exact N1|]. eapply Rle_trans; [exact ND|].
  unfold td_dt, TD.lx, TD.diff2. right. f_equal. ring.
Qed.
Lemma th_cond : (IZR N - 1 < th_timeend / th_dt n <= IZR N)%R -> (1 <= Z.to_nat N)%nat /\ (2 / INR (Z.to_nat N) <= (10 / IZR n) ^ 4 / 8)%R.
Proof.
  intros HN. destruct (steps_n th_timeend (th_dt n) N ltac:(unfold th_timeend; lra) th_dt_pos HN) as (_ & N1 & _ & ND). split; [exact N1|]. eapply Rle_trans; [exact ND|].
  unfold th_dt, TH.lx, TH.diff4. right. f_equal. ring.
Qed.
End Runs.
Lemma result_error (S : setup RA) (a E : R) exact m' (n : Z) (C : R) : setup_ok S -> nlayers (mesh_of_setup S) = 1 -> 16 <= n ->
  (forall x y, exact x y = (E * sinsin x y)%R) -> (0 < a - E <= C / (IZR n * IZR n))%R -> result S a E exact m' ->
  (forall k c, 0 <= k < d_nlayers (sdims S) -> 0 <= c < d_ncells (sdims S) ->
    (Rabs (mr m' (TrCell St) [0%Z; c; k] - exact (mr m' XCell [c]) (mr m' YCell [c])) <= C / (IZR n * IZR n))%R) /\
  exists e : R, (0 < e <= sqrt (IZR (d_nlayers (sdims S))) * (C / 2) / (IZR n * IZR n))%R /\ forall r, error_norm S exact m' r <-> r = Some e.
Proof.
  intros Hok H1 Hn HE B [HT HN]. split.
  - intros k c Hk Hc. rewrite HT by assumption. rewrite HE. set (s := sinsin _ _). replace (a * s - E * s)%R with ((a - E) * s)%R by ring. unfold s.
    apply sinsin_le. rewrite Rabs_right by lra. lra.
  - exists (sqrt (IZR (d_nlayers (sdims S))) / 2 * Rabs (a - E))%R. split; [|exact HN]. rewrite (Rabs_right (a - E)) by lra.
    assert (L0 : (0 < sqrt (IZR (d_nlayers (sdims S))))%R) by (apply sqrt_lt_R0, IZR_lt; exact (nl_pos S Hok H1)).
    set (s := sqrt (IZR (d_nlayers (sdims S)))) in *. split; [apply Rmult_lt_0_compat; lra|].
    replace (s * (C / 2) / (IZR n * IZR n))%R with (s / 2 * (C / (IZR n * IZR n)))%R by (field; apply not_0_IZR; lia). apply Rmult_le_compat_l; lra.
Qed.
Lemma result_rate (S S' : setup RA) (a a' E : R) exact exact' m m' : setup_ok S -> setup_ok S' -> nlayers (mesh_of_setup S) = 1 -> nlayers (mesh_of_setup S') = 1 ->
  d_nlayers (sdims S) = d_nlayers (sdims S') -> (0 < a - E)%R -> (0 < a' - E)%R -> (Rabs (ln ((a - E) / (a' - E)) / ln 2 - 2) < 5 / 100)%R ->
  result S a E exact m -> result S' a' E exact' m' -> forall r r', error_norm S exact m r -> error_norm S' exact' m' r' ->
  exists e e' : R, r = Some e /\ r' = Some e' /\ (0 < e)%R /\ (0 < e')%R /\ check_rate (log2 (e / e')) 2 (5 / 100).
Proof.
  intros Hok Hok' H1 H1' HL A0 A0' HR [_ HN] [_ HN'] r r' Hr Hr'. apply HN in Hr. apply HN' in Hr'. rewrite Rabs_right in Hr, Hr' by lra. rewrite <- HL in Hr'.
  assert (L0 : (0 < sqrt (IZR (d_nlayers (sdims S))))%R) by (apply sqrt_lt_R0, IZR_lt; exact (nl_pos S Hok H1)).
  set (s := sqrt (IZR (d_nlayers (sdims S)))) in *. eexists. eexists. split; [exact Hr|]. split; [exact Hr'|].
  split; [apply Rmult_lt_0_compat; lra|]. split; [apply Rmult_lt_0_compat; lra|]. unfold check_rate, log2.
  replace (s / 2 * (a - E) / (s / 2 * (a' - E)))%R with ((a - E) / (a' - E))%R by (field; lra). exact HR.
Qed.

Lemma C69_plane_waves_proof :
  forall st : stepper, exists P : R -> R,
  match st with
  | RK4 => forall z, P z = (1 + z + z ^ 2 / 2 + z ^ 3 / 6 + z ^ 4 / 24)%R
  | LSRK n => (n = 1 -> forall z, P z = (1 + z)%R) /\ (n <> 1 -> n <> 5 -> forall z, P z = 1%R) /\
      (n = 5 -> exists g1 g2 g3 g4 g5 : R, (Rabs (g1 - 1) <= 1 / 10 ^ 25 /\ Rabs (g2 - 1 / 2) <= 1 / 10 ^ 25 /\ Rabs (g3 - 1 / 6) <= 1 / 10 ^ 25 /\
         Rabs (g4 - 1 / 24) <= 1 / 10 ^ 25 /\ 49 / 10000 < g5 < 51 / 10000)%R /\
         forall z, P z = (1 + g1 * z + g2 * z ^ 2 + g3 * z ^ 3 + g4 * z ^ 4 + g5 * z ^ 5)%R)
  end /\
  forall (S : setup RA), setup_ok S -> (0 < (dc (mesh_of_setup S) : R))%R -> 2 <= nx (mesh_of_setup S) -> Z.even (ny (mesh_of_setup S)) = true ->
  hook S = None -> forall (H : R) (A phi : Z -> R) (p q : Z -> Z) (steps : list (R * R)), H <> 0%R ->
  let d := (dc (mesh_of_setup S) : R) in
  let k1 l := (2 * PI * IZR (p l) / period_x (mesh_of_setup S))%R in let k2 l := (2 * PI * IZR (q l) / period_y (mesh_of_setup S))%R in
  let Lam l := (4 / (3 * (d * d)) * (cos (d * k1 l) + cos (d / 2 * k1 l + d * (sqrt 3 / 2) * k2 l) + cos (- (d / 2) * k1 l + d * (sqrt 3 / 2) * k2 l) - 3))%R in
  let w l x y := (A l * cos (k1 l * x + k2 l * y + phi l))%R in
  let rate l := (Rmax 0 (eddy_diff2 (par_of S)) * Lam l - Rmax 0 (eddy_diff4 (par_of S)) * (Lam l * Lam l))%R in
  always (sdims S) (program S st (mkInitial (A:=RA) (fun _ _ => H) (fun _ _ => 0%R) (fun _ _ => 0%R) w) steps) (mzero RA) (fun m' =>
    forall l k c, 0 <= l < ntracers (par_of S) -> 0 <= k < d_nlayers (sdims S) -> 0 <= c < d_ncells (sdims S) ->
    mr m' (TrCell St) [l; c; k] = fold_right (fun s x => (P (snd s * rate l) * x)%R) (w l (mr m' XCell [c]) (mr m' YCell [c])) steps).
Proof.
  intros st. exists (ampl (gst st)). split.
  - destruct st as [|n]; cbn [gst].
    + intros z. unfold ampl, g_rk4. field.
    + split; [intros -> z; unfold ampl, g_euler; cbn [Z.eqb Pos.eqb]; ring|]. split.
      * intros H1 H5 z. destruct (Z.eqb_spec n 5); [lia|]. destruct (Z.eqb_spec n 1); [lia|]. unfold ampl, g_none. ring.
      * intros ->. cbn [Z.eqb Pos.eqb]. pose proof g5_order as (G0 & G). exists (g_lsrk5 1), (g_lsrk5 2), (g_lsrk5 3), (g_lsrk5 4), (g_lsrk5 5). split; [exact G|].
        intros z. unfold ampl. now rewrite G0.
  - intros S Hok Hdc HX Hev Hf H A phi p q steps H0 d k1 k2 Lam w rt.
    eapply always_weaken; [apply (program_eig S Hok Hdc HX Hev Hf st H w steps H0)|]. intros m' (Hr & Q) l k c Hl Hk Hc.
    rewrite (Q l (Lam l) Hl) by (try assumption; intros m Hm; now apply eig_plane). rewrite gain_fold. rewrite rate_max. reflexivity.
Qed.

Lemma C69_discrete_wave_number_proof :
  forall d k1 k2 : R, (0 < d)%R ->
  let Lam := (4 / (3 * (d * d)) * (cos (d * k1) + cos (d / 2 * k1 + d * (sqrt 3 / 2) * k2) + cos (- (d / 2) * k1 + d * (sqrt 3 / 2) * k2) - 3))%R in
  let K := (k1 * k1 + k2 * k2)%R in
  (- K <= Lam <= - K + d * d * (K * K) / 16 /\ - (6 / (d * d)) <= Lam <= 0)%R.
Proof.
  intros d k1 k2 Hd Lam K. exact (lam_bounds d k1 k2 Hd).
Qed.

Lemma C70_waves_do_not_grow_proof :
  forall (st : stepper) (lim : R), (st = RK4 /\ lim = 278 / 100 \/ st = LSRK 5 /\ lim = 45 / 10 \/ st = LSRK 1 /\ lim = 2)%R ->
  forall (S : setup RA), setup_ok S -> (0 < (dc (mesh_of_setup S) : R))%R -> 2 <= nx (mesh_of_setup S) -> Z.even (ny (mesh_of_setup S)) = true ->
  hook S = None -> forall (H : R) (A phi : Z -> R) (p q : Z -> Z) (steps : list (R * R)), H <> 0%R ->
  let d := (dc (mesh_of_setup S) : R) in
  (forall t dt, In (t, dt) steps -> (0 <= dt /\ dt * (6 * Rmax 0 (eddy_diff2 (par_of S)) / (d * d) + 36 * Rmax 0 (eddy_diff4 (par_of S)) / (d * d * (d * d))) <= lim)%R) ->
  let w l x y := (A l * cos (2 * PI * IZR (p l) / period_x (mesh_of_setup S) * x + 2 * PI * IZR (q l) / period_y (mesh_of_setup S) * y + phi l))%R in
  always (sdims S) (program S st (mkInitial (A:=RA) (fun _ _ => H) (fun _ _ => 0%R) (fun _ _ => 0%R) w) steps) (mzero RA) (fun m' =>
    forall l k c, 0 <= l < ntracers (par_of S) -> 0 <= k < d_nlayers (sdims S) -> 0 <= c < d_ncells (sdims S) ->
    (Rabs (mr m' (TrCell St) [l; c; k]) <= Rabs (A l))%R).
Proof.
  intros st lim Hst S Hok Hdc HX Hev Hf H A phi p q steps H0 d Hs w.
  eapply always_weaken; [apply (program_eig S Hok Hdc HX Hev Hf st H w steps H0)|]. intros m' (Hr & Q) l k c Hl Hk Hc.
  set (k1 := (2 * PI * IZR (p l) / period_x (mesh_of_setup S))%R). set (k2 := (2 * PI * IZR (q l) / period_y (mesh_of_setup S))%R).
  rewrite (Q l (lam d k1 k2) Hl) by (try assumption; intros m Hm; now apply eig_plane).
  pose proof (lam_bounds d k1 k2 Hdc) as [_ [L1 L2]]. set (L := lam d k1 k2) in *.
  assert (D0 : (0 < d)%R) by exact Hdc. assert (Dd : (0 < d * d)%R) by (apply Rmult_lt_0_compat; exact Hdc). clearbody d.
  assert (ST : forall z, (- lim <= z <= 0)%R -> (Rabs (ampl (gst st) z) <= 1)%R).
  { intros z Hz. destruct Hst as [[-> ->]|[[-> ->]|[-> ->]]]; [now apply stab_rk4|now apply stab_lsrk5|now apply stab_euler]. }
  set (a := Rmax 0 (eddy_diff2 (par_of S))) in *. set (b := Rmax 0 (eddy_diff4 (par_of S))) in *.
  assert (A0 : (0 <= a)%R) by apply Rmax_l. assert (B0 : (0 <= b)%R) by apply Rmax_l.
  assert (RL : (- (6 * a / (d * d) + 36 * b / (d * d * (d * d))) <= rate S L <= 0)%R).
  { rewrite rate_max. fold a b. set (e := (6 / (d * d))%R) in *. assert (E0 : (0 < e)%R) by (apply Rdiv_lt_0_compat; lra).
    replace (6 * a / (d * d) + 36 * b / (d * d * (d * d)))%R with (a * e + b * (e * e))%R by (unfold e; field; lra).
    assert (LL : (0 <= L * L <= e * e)%R) by (replace (L * L)%R with (- L * - L)%R by ring; split; [apply Rmult_le_pos; lra|apply Rmult_le_compat; lra]).
    assert (0 <= a * - L <= a * e)%R by (split; [apply Rmult_le_pos; lra|apply Rmult_le_compat_l; lra]).
    assert (0 <= b * (L * L) <= b * (e * e))%R by (split; [apply Rmult_le_pos; lra|apply Rmult_le_compat_l; lra]). lra. }
  assert (G : forall steps, (forall t dt, In (t, dt) steps -> (0 <= dt /\ dt * (6 * a / (d * d) + 36 * b / (d * d * (d * d))) <= lim)%R) -> (Rabs (gain S (gst st) L steps) <= 1)%R).
  { clear Q Hs. intros s. induction s as [|[t dt] s IH]; intros Hs; [cbn; rewrite Rabs_R1; lra|]. cbn [gain fold_right snd]. rewrite Rabs_mult.
    apply Rle_trans with (1 * 1)%R; [|lra]. apply Rmult_le_compat; [apply Rabs_pos|apply Rabs_pos| |apply IH; intros; apply (Hs t0); now right].
    destruct (Hs t dt (or_introl eq_refl)) as [T0 T1]. apply ST. set (B := (6 * a / (d * d) + 36 * b / (d * d * (d * d)))%R) in *.
    assert (0 <= dt * - rate S L <= dt * B)%R by (split; [apply Rmult_le_pos; lra|apply Rmult_le_compat_l; lra]). lra. }
  specialize (G steps Hs). rewrite Rabs_mult. unfold w. rewrite Rabs_mult. fold k1 k2.
  replace (Rabs (A l)) with (1 * (Rabs (A l) * 1))%R at 2 by ring. apply Rmult_le_compat; [apply Rabs_pos|apply Rmult_le_pos; apply Rabs_pos|exact G|].
  apply Rmult_le_compat_l; [apply Rabs_pos|]. apply Rabs_le. apply COS_bound.
Qed.

Lemma C70_rk4_hyperdiffusion_step_refuted_proof :
  forall (S : setup RA), setup_ok S -> (0 < (dc (mesh_of_setup S) : R))%R -> 2 <= nx (mesh_of_setup S) -> Z.even (ny (mesh_of_setup S)) = true ->
  hook S = None -> ((eddy_diff2 (par_of S) : R) <= 0)%R -> (0 < (eddy_diff4 (par_of S) : R))%R ->
  forall j, nx (mesh_of_setup S) = 3 * j -> forall (H A : R) (N : Z), H <> 0%R -> 0 <= N ->
  let d := (dc (mesh_of_setup S) : R) in let dt := (d ^ 4 / (8 * (eddy_diff4 (par_of S) : R)))%R in
  let w (l : Z) x y := (A * cos (2 * PI * IZR (2 * j) / period_x (mesh_of_setup S) * x))%R in
  always (sdims S) (program S RK4 (mkInitial (A:=RA) (fun _ _ => H) (fun _ _ => 0%R) (fun _ _ => 0%R) w) (loop_steps (A:=RA) N dt)) (mzero RA) (fun m' =>
    forall l k c, 0 <= l < ntracers (par_of S) -> 0 <= k < d_nlayers (sdims S) -> 0 <= c < d_ncells (sdims S) ->
    mr m' (TrCell St) [l; c; k] = ((85234375 / 10000000) ^ Z.to_nat N * w l (mr m' XCell [c]) (mr m' YCell [c]))%R).
Proof.
  intros S Hok Hdc HX Hev Hf H2 H4 j Hj H A N H0 HN d dt w.
  set (k1 := (2 * PI * IZR (2 * j) / period_x (mesh_of_setup S))%R).
  eapply always_weaken; [apply (program_eig S Hok Hdc HX Hev Hf RK4 H w (loop_steps (A:=RA) N dt) H0)|]. intros m' (Hr & Q) l k c Hl Hk Hc.
  set (b := (eddy_diff4 (par_of S) : R)) in *.
  assert (J : (0 < IZR j)%R) by (apply IZR_lt; lia).
  assert (D0 : (0 < d)%R) by exact Hdc. assert (Dd : (0 < d * d)%R) by (apply Rmult_lt_0_compat; exact Hdc).
  assert (K1 : (d * k1 = 2 * (2 * (PI / 3)))%R).
  { unfold k1, period_x. rewrite Hj, !mult_IZR. cbn [F RA fofZ fmul]. fold d. rewrite ?mult_IZR. field. split; lra. }
  assert (LE : lam d k1 (2 * PI * IZR 0 / period_y (mesh_of_setup S)) = (- (6 / (d * d)))%R).
  { unfold lam. replace (2 * PI * IZR 0 / period_y (mesh_of_setup S))%R with 0%R by (unfold Rdiv; rewrite Rmult_0_r, Rmult_0_l; reflexivity).
    replace (d / 2 * k1 + d * (sqrt 3 / 2) * 0)%R with (d * k1 / 2)%R by field. replace (- (d / 2) * k1 + d * (sqrt 3 / 2) * 0)%R with (- (d * k1 / 2))%R by field.
    rewrite cos_neg, K1. replace (2 * (2 * (PI / 3)) / 2)%R with (2 * (PI / 3))%R by field. rewrite (cos_2a_cos (2 * (PI / 3))). replace (2 * (PI / 3))%R with (2 * PI / 3)%R by field. rewrite cos_2PI3. field. lra. }
  assert (EE : forall m, ready S m -> eig S m (- (6 / (d * d)))%R (fun c => w l (hxc (mesh_of_setup S) c) (hyc (mesh_of_setup S) c))).
  { intros m Hm. rewrite <- LE. apply (eig_scal S Hok Hdc m Hm HX Hev _ 1%R _ _ (eig_plane S Hok Hdc HX Hev A 0 (2 * j) 0 m Hm)).
    intros c' Hc'. unfold w. fold k1. replace (2 * PI * IZR 0 / period_y (mesh_of_setup S))%R with 0%R by (unfold Rdiv; rewrite Rmult_0_r, Rmult_0_l; reflexivity).
    rewrite Rmult_1_l. f_equal. f_equal. cbn [F RA]. ring. }
  rewrite (Q l _ Hl EE k c Hk Hc). rewrite gain_loop by exact HN. f_equal. f_equal. rewrite rate_max.
  rewrite (Rmax_left 0 (eddy_diff2 (par_of S))) by exact H2. rewrite (Rmax_right 0 (eddy_diff4 (par_of S))) by (fold b; lra). fold b.
  replace (dt * (0 * - (6 / (d * d)) - b * (- (6 / (d * d)) * - (6 / (d * d)))))%R with (- (9 / 2))%R by (unfold dt; field; split; lra).
  cbn [gst]. unfold ampl, g_rk4. field.
Qed.

Lemma C71_diffusion_test_error_proof :
  forall (cf : config) (f0 : R) (n N : Z), let S := td_setup cf f0 n in setup_ok S -> 16 <= n -> Z.even n = true ->
  (IZR N - 1 < td_timeend / td_dt n <= IZR N)%R ->
  always (sdims S) (program S (LSRK 5) td_init (loop_steps (A:=RA) N (td_timeend / IZR N)%R)) (mzero RA) (fun m' =>
    (forall k c, 0 <= k < d_nlayers (sdims S) -> 0 <= c < d_ncells (sdims S) ->
      (Rabs (mr m' (TrCell St) [0%Z; c; k] - TD.tr (mr m' XCell [c]) (mr m' YCell [c]) td_timeend) <= 11 / (IZR n * IZR n))%R) /\
    exists e : R, (0 < e <= sqrt (IZR (d_nlayers (sdims S))) * (11 / 2) / (IZR n * IZR n))%R /\
      forall r, error_norm S (fun x y => TD.tr x y td_timeend) m' r <-> r = Some e).
Proof.
  intros cf f0 n N S Hok Hn Hev HN. pose proof (td_run cf f0 n N Hn Hev Hok HN) as A. eapply always_weaken; [exact A|]. intros m' HR.
  destruct (td_cond n N Hn HN) as [N1 ND].
  exact (result_error S _ _ _ m' n 11 Hok eq_refl Hn (fun x y => td_exact x y td_timeend) (amp_small (IZR n) (Z.to_nat N) (small_n S n Hok eq_refl eq_refl Hn) N1 ND) HR).
Qed.

Lemma C71_diffusion_test_passes_proof :
  forall (cf : config) (f0 f0' : R) (n N N' : Z), let S := td_setup cf f0 n in let S' := td_setup cf f0' (2 * n) in setup_ok S -> setup_ok S' -> 16 <= n -> Z.even n = true ->
  (IZR N - 1 < td_timeend / td_dt n <= IZR N)%R -> (IZR N' - 1 < td_timeend / td_dt (2 * n) <= IZR N')%R ->
  forall m m', exec (sdims S) (program S (LSRK 5) td_init (loop_steps (A:=RA) N (td_timeend / IZR N)%R)) (mzero RA) (OK m) ->
  exec (sdims S') (program S' (LSRK 5) td_init (loop_steps (A:=RA) N' (td_timeend / IZR N')%R)) (mzero RA) (OK m') ->
  forall r r', error_norm S (fun x y => TD.tr x y td_timeend) m r -> error_norm S' (fun x y => TD.tr x y td_timeend) m' r' ->
  exists e e' : R, r = Some e /\ r' = Some e' /\ (0 < e)%R /\ (0 < e')%R /\ check_rate (log2 (e / e')) 2 (5 / 100).
Proof.
  intros cf f0 f0' n N N' S S' Hok Hok' Hn Hev HN HN' m m' X X'.
  assert (Hn' : 16 <= 2 * n) by lia. assert (Hev2 : Z.even (2 * n) = true) by (rewrite Z.even_mul; reflexivity).
  destruct (proj1 (td_run cf f0 n N Hn Hev Hok HN) _ X) as (M & EM & HR). injection EM as <-.
  destruct (proj1 (td_run cf f0' (2 * n) N' Hn' Hev2 Hok' HN') _ X') as (M' & EM' & HR'). injection EM' as <-.
  destruct (td_cond n N Hn HN) as [N1 ND]. destruct (td_cond (2 * n) N' Hn' HN') as [N1' ND'].
  pose proof (small_n S n Hok eq_refl eq_refl Hn) as B. pose proof (small_n S' (2 * n) Hok' eq_refl eq_refl Hn') as B'. rewrite mult_IZR in ND', B'.
  destruct (amp_rate (IZR n) (Z.to_nat N) (Z.to_nat N') (proj1 B) (proj2 B') N1 ND N1' ND') as (A0 & A0' & AR).
  assert (EA : td_a (2 * n) N' = (ampl g_lsrk5 (2 / INR (Z.to_nat N') * tlam (2 * IZR n)) ^ Z.to_nat N')%R) by (unfold td_a; rewrite mult_IZR; reflexivity).
  rewrite EA in HR'. exact (result_rate S S' _ _ _ _ _ m m' Hok Hok' eq_refl eq_refl eq_refl A0 A0' AR HR HR').
Qed.

Lemma C71_hyperdiffusion_test_error_proof :
  forall (cf : config) (f0 : R) (n N : Z), let S := th_setup cf f0 n in setup_ok S -> 16 <= n -> Z.even n = true ->
  (IZR N - 1 < th_timeend / th_dt n <= IZR N)%R ->
  N <= INT_MAX ->
  always (sdims S) (program S (LSRK 5) th_init (loop_steps (A:=RA) N (th_timeend / IZR N)%R)) (mzero RA) (fun m' =>
    (forall k c, 0 <= k < d_nlayers (sdims S) -> 0 <= c < d_ncells (sdims S) ->
      (Rabs (mr m' (TrCell St) [0%Z; c; k] - TH.tr (mr m' XCell [c]) (mr m' YCell [c]) th_timeend) <= 21 / (IZR n * IZR n))%R) /\
    exists e : R, (0 < e <= sqrt (IZR (d_nlayers (sdims S))) * (21 / 2) / (IZR n * IZR n))%R /\
      forall r, error_norm S (fun x y => TH.tr x y th_timeend) m' r <-> r = Some e).
Proof.
  intros cf f0 n N S Hok Hn Hev HN _. pose proof (th_run cf f0 n N Hn Hev Hok HN) as A. eapply always_weaken; [exact A|]. intros m' HR.
  destruct (th_cond n N Hn HN) as [N1 ND].
  exact (result_error S _ _ _ m' n 21 Hok eq_refl Hn (fun x y => th_exact x y th_timeend) (amp_small_h (IZR n) (Z.to_nat N) (small_n S n Hok eq_refl eq_refl Hn) N1 ND) HR).
Qed.

Lemma C71_hyperdiffusion_test_passes_proof :
  forall (cf : config) (f0 f0' : R) (n N N' : Z), let S := th_setup cf f0 n in let S' := th_setup cf f0' (2 * n) in setup_ok S -> setup_ok S' -> 16 <= n -> Z.even n = true ->
  (IZR N - 1 < th_timeend / th_dt n <= IZR N)%R -> (IZR N' - 1 < th_timeend / th_dt (2 * n) <= IZR N')%R ->
  N <= INT_MAX -> N' <= INT_MAX ->
  forall m m', exec (sdims S) (program S (LSRK 5) th_init (loop_steps (A:=RA) N (th_timeend / IZR N)%R)) (mzero RA) (OK m) ->
  exec (sdims S') (program S' (LSRK 5) th_init (loop_steps (A:=RA) N' (th_timeend / IZR N')%R)) (mzero RA) (OK m') ->
  forall r r', error_norm S (fun x y => TH.tr x y th_timeend) m r -> error_norm S' (fun x y => TH.tr x y th_timeend) m' r' ->
  exists e e' : R, r = Some e /\ r' = Some e' /\ (0 < e)%R /\ (0 < e')%R /\ check_rate (log2 (e / e')) 2 (5 / 100).
Proof.
  intros cf f0 f0' n N N' S S' Hok Hok' Hn Hev HN HN' _ _ m m' X X'.
  assert (Hn' : 16 <= 2 * n) by lia. assert (Hev2 : Z.even (2 * n) = true) by (rewrite Z.even_mul; reflexivity).
  destruct (proj1 (th_run cf f0 n N Hn Hev Hok HN) _ X) as (M & EM & HR). injection EM as <-.
  destruct (proj1 (th_run cf f0' (2 * n) N' Hn' Hev2 Hok' HN') _ X') as (M' & EM' & HR'). injection EM' as <-.
  destruct (th_cond n N Hn HN) as [N1 ND]. destruct (th_cond (2 * n) N' Hn' HN') as [N1' ND'].
  pose proof (small_n S n Hok eq_refl eq_refl Hn) as B. pose proof (small_n S' (2 * n) Hok' eq_refl eq_refl Hn') as B'. rewrite mult_IZR in ND', B'.
  destruct (amp_rate_h (IZR n) (Z.to_nat N) (Z.to_nat N') (proj1 B) (proj2 B') N1 ND N1' ND') as (A0 & A0' & AR).
  assert (EA : th_a (2 * n) N' = (ampl g_lsrk5 (2 / INR (Z.to_nat N') * - (tlam (2 * IZR n) * tlam (2 * IZR n))) ^ Z.to_nat N')%R) by (unfold th_a; rewrite mult_IZR; reflexivity).
  rewrite EA in HR'. exact (result_rate S S' _ _ _ _ _ m m' Hok Hok' eq_refl eq_refl eq_refl A0 A0' AR HR HR').
Qed.

