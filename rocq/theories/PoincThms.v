(** Proofs of the properties of inertia-gravity waves. *)
From Coq Require Import ZArith Reals List Bool Lia Lra FunctionalExtensionality.
From Verif Require Import Arith Arrays Prog Conc Launch Mesh AuxVars Tend Model RSum Spec MeshProof MeshMem MeshR Ready SumParts Stencil Sample Waves Modes Cplx WaveRun AdvWaves AdvThms WaveStab WaveThms Driver LinStep LinSpec LinRun LinModes LinWave LinThms Poinc PoincRun.
Import ListNotations.
Open Scope Z_scope.

Lemma le_sq0 a b : (0 <= b -> a * a <= b * b -> a <= b)%R.
Proof. intros B E. destruct (Rle_dec a b) as [|N]; [assumption|]. apply Rnot_le_lt in N. assert (b * b < a * a)%R by (apply Rmult_le_0_lt_compat; assumption). lra. Qed.
Section Adjust.
Context (S : setup RA) (Hok : setup_ok S) (Hdc : (0 < (dc (mesh_of_setup S) : R))%R) (Hf : hook S = None) (Dh : disable_h (par_of S) = false) (Dv : disable_vn (par_of S) = false).
Context (N1 : 2 <= nx (mesh_of_setup S)) (Ev : Z.even (ny (mesh_of_setup S)) = true) (V2 : vel_diff_enabled (par_of S) = false) (V4 : vel_hyperdiff_enabled (par_of S) = false)
  (F0 : f0 (par_of S) <> 0%R) (G : (0 < grav (par_of S))%R).
Lemma phi_smp (n : mem RA) (Hr : ready S n) k1 k2 theta : smpC (mesh_of_setup S) (wave 1 k1 k2 theta) (fun c => cos (k1 * mr n XCell [c] + k2 * mr n YCell [c] + theta)).
Proof. intros c Hc. pose proof (ready_hex S Hok n Hr) as Hm. rewrite (hm_xc _ _ _ Hm), (hm_yc _ _ _ Hm) by exact Hc. unfold wave. ring. Qed.
Lemma adjust (st : stepper) (lim slack : R) : (st = RK4 /\ lim = 2 * sqrt 2 /\ slack = 0 \/ st = LSRK 5 /\ lim = 316 / 100 /\ slack = 1 / 10 ^ 22)%R ->
  forall (H theta dt : R) (N p q : Z) (tr : Z -> R -> R -> R) (m' : R -> mem RA), (0 < H)%R -> 0 <= N <= INT_MAX ->
  let d := (dc (mesh_of_setup S) : R) in let f := (f0 (par_of S) : R) in
  let k1 := (2 * PI * IZR p / period_x (mesh_of_setup S))%R in let k2 := (2 * PI * IZR q / period_y (mesh_of_setup S))%R in
  let c2 := (grav (par_of S) * H)%R in let K2 := (k1 * k1 + k2 * k2)%R in let Om := sqrt (f * f + c2 * K2) in let T := (IZR N * dt)%R in
  (0 <= dt /\ dt * (sqrt (6 * c2) / d + Rabs f) <= lim)%R ->
  let wave X Y := cos (k1 * X + k2 * Y + theta) in
  (forall x, exec (sdims S) (program S st (mkInitial (A:=RA) (fun X Y => H + x * wave X Y)%R (fun _ _ => 0%R) (fun _ _ => 0%R) tr) (loop_steps (A:=RA) N dt)) (mzero RA) (OK (m' x))) ->
  forall k c, 0 <= k < d_nlayers (sdims S) -> 0 <= c < d_ncells (sdims S) ->
  mr (m' 0%R) (HCell St) [c; k] = H /\
  exists D, derivable_pt_lim (fun x => mr (m' x) (HCell St) [c; k]) 0 D /\
    (Rabs (D - wave (mr (m' 0%R) XCell [c]) (mr (m' 0%R) YCell [c]) * ((f * f + c2 * K2 * cos (Om * T)) / (Om * Om)))
      <= 5 / 6 * (d ^ 2 * K2) + T * (5 / 24 * (d ^ 2 * K2) * Om + dt ^ 4 * Om ^ 5 / 100) + IZR N * slack)%R.
Proof.
  intros Hst H theta dt N p q tr m' Hpos HN d f k1 k2 c2 K2 Om T [T0 T1] wv Hx k c Hk Hc.
  assert (Hx' : forall x, exec (sdims S) (program S st (small_init H wv (fun _ _ => 0%R) (fun _ _ => 0%R) tr x) (loop_steps (A:=RA) N dt)) (mzero RA) (OK (m' x))).
  { intros x. specialize (Hx x). replace (small_init H wv (fun _ _ => 0%R) (fun _ _ => 0%R) tr x) with (mkInitial (A:=RA) (fun X Y => H + x * wv X Y)%R (fun _ _ => 0%R) (fun _ _ => 0%R) tr); [exact Hx|].
    unfold small_init. f_equal; apply functional_extensionality; intros X; apply functional_extensionality; intros Y; ring. }
  pose proof (program_dist S Hok Hdc Hf Dh Dv st H wv (fun _ _ => 0%R) (fun _ _ => 0%R) tr m' _ ltac:(lra) Hx') as Hd.
  set (n := m' 0%R) in *. assert (Hr : ready S n) by apply Hd.
  set (phi := fun c => wv (mr n XCell [c]) (mr n YCell [c])).
  set (Lam := lam (dc (mesh_of_setup S)) k1 k2). set (Mu := mu (dc (mesh_of_setup S)) k1 k2).
  assert (Hl : forall c, 0 <= c < nx (mesh_of_setup S) * ny (mesh_of_setup S) -> outflow n (grad n phi) c = (Lam * phi c)%R) by exact (phi_eig S Hok Hdc N1 Ev n Hr theta p q).
  pose proof (plane_per S Hok Hdc N1 Ev 1 p q theta) as PP. fold k1 k2 in PP. pose proof (phi_smp n Hr k1 k2 theta) as PS.
  pose proof (out_rec S Hok Hdc n Hr N1 Ev _ PP phi PS) as Ho. pose proof (rec_rec S Hok Hdc n Hr N1 Ev _ _ _ _ phi PP PS) as Hrr. fold Mu in Hrr.
  destruct (lam_bounds (dc (mesh_of_setup S)) k1 k2 Hdc) as [[L1 L2] [L3 L4]]. fold Lam in L1, L2, L3, L4. fold d in L2, L3. fold K2 in L1, L2.
  destruct (mu_bounds (dc (mesh_of_setup S)) k1 k2) as [[M1 M2] M3]. fold Mu in M1, M2, M3. fold d in M3. fold K2 in M3.
  pose proof (mu_top (dc (mesh_of_setup S)) k1 k2 Hdc) as M4. fold Lam Mu in M4.
  assert (C0 : (0 < c2)%R) by (apply Rmult_lt_0_compat; assumption).
  assert (K0 : (0 <= K2)%R) by (unfold K2; apply Rplus_le_le_0_compat; apply Rle_0_sqr).
  assert (Ff : (0 < f * f)%R) by (apply Rlt_0_sqr in F0; exact F0).
  assert (CK : (0 <= c2 * K2)%R) by (apply Rmult_le_pos; lra).
  assert (EOm : (Om * Om = f * f + c2 * K2)%R) by (apply sqrt_sqrt; lra). assert (Om0 : (0 < Om)%R) by (apply sqrt_lt_R0; lra).
  assert (FM : (0 <= f * f * Mu <= f * f)%R). { split; [apply Rmult_le_pos; lra|]. rewrite <- (Rmult_1_r (f * f)) at 2. apply Rmult_le_compat_l; lra. }
  assert (CL : (0 <= c2 * - Lam <= c2 * K2)%R) by (split; [apply Rmult_le_pos|apply Rmult_le_compat_l]; lra).
  assert (Q0 : (0 < f * f * Mu - c2 * Lam)%R).
  { replace (f * f * Mu - c2 * Lam)%R with (f * f * Mu + c2 * - Lam)%R by ring. destruct (Req_dec Lam 0) as [E|E].
    - specialize (M4 E). assert (0 < f * f * Mu)%R by (apply Rmult_lt_0_compat; lra). lra.
    - assert (0 < c2 * - Lam)%R by (apply Rmult_lt_0_compat; lra). lra. }
  set (om := sqrt (f * f * Mu - c2 * Lam)).
  assert (Hom : (om * om = f * f * Mu - c2 * Lam)%R) by (apply sqrt_sqrt; lra). assert (O0 : (0 < om)%R) by (apply sqrt_lt_R0; lra).
  assert (D0 : (0 < d)%R) by exact Hdc. assert (DD : (0 < d * d)%R) by (now apply Rmult_lt_0_compat).
  assert (O1 : (om <= Om)%R) by (apply le_sq0; lra).
  assert (O2 : (om <= sqrt (6 * c2) / d + Rabs f)%R).
  { assert (X0 : (0 <= sqrt (6 * c2) / d)%R) by (apply Rmult_le_pos; [apply sqrt_pos|left; now apply Rinv_0_lt_compat]).
    pose proof (Rabs_pos f) as X1. apply le_sq0; [lra|]. rewrite Hom.
    replace ((sqrt (6 * c2) / d + Rabs f) * (sqrt (6 * c2) / d + Rabs f))%R with ((sqrt (6 * c2) * sqrt (6 * c2)) / (d * d) + Rabs f * Rabs f + 2 * ((sqrt (6 * c2) / d) * Rabs f))%R by (field; lra).
    rewrite sqrt_sqrt by lra. rewrite <- Rabs_mult, (Rabs_right (f * f)) by lra.
    assert (0 <= (sqrt (6 * c2) / d) * Rabs f)%R by (apply Rmult_le_pos; assumption).
    assert (c2 * - Lam <= c2 * (6 / (d * d)))%R by (apply Rmult_le_compat_l; lra).
    replace (6 * c2 / (d * d))%R with (c2 * (6 / (d * d)))%R by (field; lra). lra. }
  assert (Am : igamp S H Lam Mu om (grav (par_of S) : R, 0)%R f 1 0 0) by (unfold igamp; cbn [fst snd]; fold f; repeat split; ring).
  destruct (stab_head st (glist st) (glist_ok st)) as (gl & Gl).
  destruct (ig_run S Hok n Hr H V2 V4 phi Lam Mu om Hl Ho Hrr Hom gl (loop_steps (A:=RA) N dt) _ _ _ _ _ Am) as (eta' & a' & b' & (A & _ & B) & E).
  rewrite <- Gl in A, E. rewrite fold_cgain in A. fold f in A, B.
  assert (Az : fst (cgain (gst st) (0, - om)%R (loop_steps (A:=RA) N dt) (grav (par_of S) : R, 0)%R) = (grav (par_of S) * fst (cgain (gst st) (0, - om)%R (loop_steps (A:=RA) N dt) (1, 0)%R))%R).
  { generalize (loop_steps (A:=RA) N dt). intros sl. assert (X : forall z1 z2 : R * R, (fst z1 = grav (par_of S) * fst z2 -> snd z1 = grav (par_of S) * snd z2 -> fst (cgain (gst st) (0, - om) sl z1) = grav (par_of S) * fst (cgain (gst st) (0, - om) sl z2))%R).
    { induction sl as [|s0 sl IH]; intros z1 z2 X1 X2; [exact X1|]. rewrite !cgain_cons. apply IH; unfold cmul; cbn [fst snd]; rewrite X1, X2; ring. }
    apply X; cbn [fst snd]; symmetry; [apply Rmult_1_r|apply Rmult_0_r]. }
  rewrite Az in A. set (cN := fst (cgain (gst st) (0, - om)%R (loop_steps (A:=RA) N dt) (1, 0)%R)) in *.
  assert (Ee : (eta' * (om * om) = f * f * Mu + c2 * - Lam * cN)%R).
  { rewrite Hom. replace (eta' * (f * f * Mu - c2 * Lam))%R with (f * Mu * (f * eta' + H * Lam * b') - H * Lam * (f * Mu * b' + grav (par_of S) * eta'))%R by (unfold c2; ring). rewrite A, B. unfold c2. ring. }
  assert (Hd2 : disturbed S (fun _ => H) m' (ig n phi eta' a' b')).
  { eapply dist_ext; [|exact Hd]. intros pl Hp. rewrite <- (E pl Hp).
    apply (opolyx_run (valid_place S) (linear_swe S n (fun _ => H)) (L_ext S Hok n Hr (fun _ => H)) (glist st)); [|exact Hp].
    intros [c' k'|e k'] _; cbn [ig]; [unfold phi; ring|ring]. }
  destruct Hd2 as (_ & _ & Q). destruct (Q (AtCell c k) (conj Hc Hk)) as [Q1 Q2]. cbn [value_at at_rest ig] in Q1, Q2. split; [exact Q1|]. exists (eta' * phi c)%R. split; [exact Q2|].
  change (wv (mr n XCell [c]) (mr n YCell [c])) with (phi c).
  match goal with |- (Rabs (eta' * phi c - phi c * ?X) <= _)%R => replace (eta' * phi c - phi c * X)%R with (phi c * (eta' - X))%R by ring end. rewrite Rabs_mult.
  assert (P1 : (Rabs (phi c) <= 1)%R) by (apply Rabs_le; apply COS_bound).
  match goal with |- (_ * ?X <= _)%R => apply Rle_trans with (1 * X)%R; [apply Rmult_le_compat_r; [apply Rabs_pos|exact P1]|] end. rewrite Rmult_1_l.
  assert (T1' : (dt * om <= lim)%R) by (eapply Rle_trans; [|exact T1]; now apply Rmult_le_compat_l).
  pose proof (osc_err st lim slack Hst om Om dt N (conj (Rlt_le _ _ O0) O1) T0 T1' HN) as OE. fold cN T in OE.
  assert (N0 : (0 <= IZR N)%R) by (apply IZR_le; lia). assert (TT : (0 <= T)%R) by (apply Rmult_le_pos; assumption).
  (* frequency *)
  assert (FD : (Om - om <= 5 / 24 * (d * d * K2) * Om)%R).
  { apply Rmult_le_reg_l with Om; [exact Om0|].
    assert (D1 : ((Om - om) * (Om + om) <= 5 / 24 * (d * d * K2) * (Om * Om))%R).
    { replace ((Om - om) * (Om + om))%R with (Om * Om - om * om)%R by ring. rewrite Hom, EOm.
      assert (f * f * (1 - Mu) <= f * f * (5 / 24 * (d * d * K2)))%R by (apply Rmult_le_compat_l; lra).
      assert (c2 * (K2 + Lam) <= c2 * (d * d * (K2 * K2) / 16))%R by (apply Rmult_le_compat_l; lra).
      assert (0 <= c2 * (d * d * (K2 * K2)))%R by (apply Rmult_le_pos; [lra|]; apply Rmult_le_pos; [lra|]; apply Rmult_le_pos; exact K0).
      replace (5 / 24 * (d * d * K2) * (f * f + c2 * K2))%R with (f * f * (5 / 24 * (d * d * K2)) + 5 / 24 * (c2 * (d * d * (K2 * K2))))%R by field. lra. }
    assert (D2 : (0 <= (Om - om) * om)%R) by (apply Rmult_le_pos; lra). lra. }
  assert (FE : (Rabs (cos (om * T) - cos (Om * T)) <= T * (5 / 24 * (d * d * K2) * Om))%R).
  { eapply Rle_trans; [apply cos_lip|]. replace (om * T - Om * T)%R with (- (T * (Om - om)))%R by ring. rewrite Rabs_Ropp, Rabs_mult, (Rabs_right T), (Rabs_right (Om - om)) by lra.
    apply Rmult_le_compat_l; [exact TT|exact FD]. }
  (* the part that stays *)
  set (Aa := (f * f * Mu / (om * om))%R). set (A0 := (f * f / (Om * Om))%R).
  assert (W0 : (0 < om * om)%R) by (rewrite Hom; exact Q0). assert (W1 : (0 < Om * Om)%R) by (rewrite EOm; lra).
  assert (AA : (0 <= Aa <= 1)%R).
  { unfold Aa. split; [apply Rmult_le_pos; [lra|left; now apply Rinv_0_lt_compat]|]. apply Rmult_le_reg_r with (om * om)%R; [exact W0|].
    replace (f * f * Mu / (om * om) * (om * om))%R with (f * f * Mu)%R by (field; lra). rewrite Hom. lra. }
  assert (AB : (0 <= A0 <= 1)%R).
  { unfold A0. split; [apply Rmult_le_pos; [lra|left; now apply Rinv_0_lt_compat]|]. apply Rmult_le_reg_r with (Om * Om)%R; [exact W1|].
    replace (f * f / (Om * Om) * (Om * Om))%R with (f * f)%R by (field; lra). rewrite EOm. lra. }
  assert (E1 : (eta' = Aa + (1 - Aa) * cN)%R).
  { apply Rmult_eq_reg_r with (om * om)%R; [|lra]. rewrite Ee. unfold Aa. replace ((f * f * Mu / (om * om) + (1 - f * f * Mu / (om * om)) * cN) * (om * om))%R with (f * f * Mu + (om * om - f * f * Mu) * cN)%R by (field; lra). rewrite Hom. ring. }
  assert (E2 : ((f * f + c2 * K2 * cos (Om * T)) / (Om * Om) = A0 + (1 - A0) * cos (Om * T))%R).
  { unfold A0. apply Rmult_eq_reg_r with (Om * Om)%R; [|lra]. replace ((f * f + c2 * K2 * cos (Om * T)) / (Om * Om) * (Om * Om))%R with (f * f + c2 * K2 * cos (Om * T))%R by (field; lra).
    replace ((f * f / (Om * Om) + (1 - f * f / (Om * Om)) * cos (Om * T)) * (Om * Om))%R with (f * f + (Om * Om - f * f) * cos (Om * T))%R by (field; lra). rewrite EOm. ring. }
  rewrite E1, E2.
  assert (DA : (Rabs (Aa - A0) <= 5 / 12 * (d * d * K2))%R).
  { destruct (Rle_dec (d * d * K2) 8) as [Sm|Lg].
    - assert (LL : (c2 * K2 <= 2 * (om * om))%R).
      { rewrite Hom. assert (d * d * (K2 * K2) <= 8 * K2)%R by (rewrite <- Rmult_assoc; apply Rmult_le_compat_r; assumption).
        assert (c2 * (K2 / 2) <= c2 * - Lam)%R by (apply Rmult_le_compat_l; lra). lra. }
      apply Rmult_le_reg_r with (om * om * (Om * Om))%R; [now apply Rmult_lt_0_compat|].
      rewrite <- (Rabs_right (om * om * (Om * Om))) at 1 by (apply Rle_ge, Rlt_le; now apply Rmult_lt_0_compat). rewrite <- Rabs_mult.
      replace ((Aa - A0) * (om * om * (Om * Om)))%R with (f * f * (Mu * (Om * Om) - om * om))%R by (unfold Aa, A0; field; lra).
      rewrite EOm at 1. rewrite Hom at 1. replace (f * f * (Mu * (f * f + c2 * K2) - (f * f * Mu - c2 * Lam)))%R with (f * f * (c2 * ((K2 + Lam) - (1 - Mu) * K2)))%R by ring.
      assert (B1 : (0 <= (1 - Mu) * K2 <= 5 / 24 * (d * d * K2) * K2)%R) by (split; [apply Rmult_le_pos|apply Rmult_le_compat_r]; lra).
      assert (B3 : (0 <= d * d * K2 * K2)%R) by (apply Rmult_le_pos; [apply Rmult_le_pos; lra|exact K0]).
      assert (B2 : (Rabs ((K2 + Lam) - (1 - Mu) * K2) <= 5 / 24 * (d * d * K2) * K2)%R) by (apply Rabs_le; lra).
      rewrite Rabs_mult, (Rabs_right (f * f)) by lra. rewrite Rabs_mult, (Rabs_right c2) by lra.
      assert (B4 : (0 <= d * d * K2)%R) by (apply Rmult_le_pos; lra).
      apply Rle_trans with (f * f * (c2 * (5 / 24 * (d * d * K2) * K2)))%R; [apply Rmult_le_compat_l; [lra|]; apply Rmult_le_compat_l; lra|].
      replace (f * f * (c2 * (5 / 24 * (d * d * K2) * K2)))%R with (5 / 24 * (d * d * K2) * (f * f * (c2 * K2)))%R by ring.
      replace (5 / 12 * (d * d * K2) * (om * om * (Om * Om)))%R with (5 / 24 * (d * d * K2) * (Om * Om * (2 * (om * om))))%R by field.
      apply Rmult_le_compat_l; [lra|]. apply Rmult_le_compat; lra.
    - apply Rnot_le_lt in Lg. apply Rle_trans with 1%R; [apply Rabs_le|]; lra. }
  replace (Aa + (1 - Aa) * cN - (A0 + (1 - A0) * cos (Om * T)))%R with ((Aa - A0) * (1 - cos (Om * T)) + (1 - Aa) * ((cN - cos (om * T)) + (cos (om * T) - cos (Om * T))))%R by ring.
  pose proof (COS_bound (Om * T)) as CB.
  assert (Z1 : (Rabs ((Aa - A0) * (1 - cos (Om * T))) <= 5 / 12 * (d * d * K2) * 2)%R).
  { rewrite Rabs_mult. apply Rmult_le_compat; try apply Rabs_pos; [exact DA|]. apply Rabs_le. lra. }
  assert (Z2 : (Rabs ((1 - Aa) * ((cN - cos (om * T)) + (cos (om * T) - cos (Om * T)))) <= 1 * (T * (dt ^ 4 * Om ^ 5 / 100) + IZR N * slack + T * (5 / 24 * (d * d * K2) * Om)))%R).
  { rewrite Rabs_mult. apply Rmult_le_compat; try apply Rabs_pos; [apply Rabs_le; lra|]. eapply Rle_trans; [apply Rabs_triang|]. apply Rplus_le_compat; [exact OE|exact FE]. }
  eapply Rle_trans; [apply Rabs_triang|]. replace (d ^ 2)%R with (d * d)%R by ring.
  rewrite (Rmult_plus_distr_l T). lra.
Qed.
End Adjust.

Lemma C86_inertia_gravity_waves_proof :
  forall st : stepper, exists g : list R, stability_polynomial st g /\
  forall (S : setup RA), setup_ok S -> (0 < (dc (mesh_of_setup S) : R))%R -> hook S = None -> disable_h (par_of S) = false -> disable_vn (par_of S) = false ->
  (visc_del2 (par_of S) <= 0)%R -> (visc_del4 (par_of S) <= 0)%R -> 2 <= nx (mesh_of_setup S) -> Z.even (ny (mesh_of_setup S)) = true ->
  forall (H theta om : R) (p q : Z) (m m' : R -> mem RA) (eta a b : R) (steps : list (R * R)), H <> 0%R ->
  let d := (dc (mesh_of_setup S) : R) in let f := (f0 (par_of S) : R) in
  let k1 := (2 * PI * IZR p / period_x (mesh_of_setup S))%R in let k2 := (2 * PI * IZR q / period_y (mesh_of_setup S))%R in
  let Lam := (4 / (3 * (d * d)) * (cos (d * k1) + cos (d / 2 * k1 + d * (sqrt 3 / 2) * k2) + cos (- (d / 2) * k1 + d * (sqrt 3 / 2) * k2) - 3))%R in
  let Mu := ((15 + 12 * (cos (d * k1) + cos (d / 2 * k1 + d * (sqrt 3 / 2) * k2) + cos (- (d / 2) * k1 + d * (sqrt 3 / 2) * k2))
    + (cos (3 * d / 2 * k1 + d * (sqrt 3 / 2) * k2) + cos (d * sqrt 3 * k2) + cos (- (3 * d / 2) * k1 + d * (sqrt 3 / 2) * k2))) / 54)%R in
  let phi c := cos (k1 * mr (m 0%R) XCell [c] + k2 * mr (m 0%R) YCell [c] + theta) in
  let slope e := ((phi (mi (m 0%R) CellsOnEdge [e; 1%Z]) - phi (mi (m 0%R) CellsOnEdge [e; 0%Z])) / mr (m 0%R) DcEdge [e])%R in
  let along e := rsum (mi (m 0%R) NedgesOnEdge [e]) (fun j => mr (m 0%R) WeightsOnEdge [e; j] * slope (mi (m 0%R) EdgesOnEdge [e; j]))%R in
  let w eta a b pl := match pl with AtCell c k => (eta * phi c)%R | AtEdge e k => (a * slope e + b * along e)%R end in
  (om * om = f * f * Mu - grav (par_of S) * H * Lam)%R ->
  disturbed S (fun _ => H) m (w eta a b) -> (forall x, exec (sdims S) (stepper_run S st steps) (m x) (OK (m' x))) ->
  let z' := fold_left (fun z (s : R * R) => cmul (cpoly g (0, - (snd s * om))%R) z) steps (f * Mu * b + grav (par_of S) * eta, om * a)%R in
  exists eta' a' b', disturbed S (fun _ => H) m' (w eta' a' b') /\
    (f * Mu * b' + grav (par_of S) * eta', om * a')%R = z' /\ (f * eta' + H * Lam * b' = f * eta + H * Lam * b)%R.
Proof.
  intros st. exists (glist st). split; [apply glist_ok|]. intros S Hok Hdc Hf Dh Dv A2 A4 N1 Ev H theta om p q m m' eta a b steps H0 d f k1 k2 Lam Mu phi slope along w Hom Hd Hx z'.
  destruct (enabled_false S A2 A4) as [V2 V4]. set (Hr := proj1 Hd 0%R).
  assert (Hl : forall c, 0 <= c < nx (mesh_of_setup S) * ny (mesh_of_setup S) -> outflow (m 0%R) (grad (m 0%R) phi) c = (Lam * phi c)%R) by exact (phi_eig S Hok Hdc N1 Ev (m 0%R) Hr theta p q).
  pose proof (plane_per S Hok Hdc N1 Ev 1 p q theta) as PP. fold k1 k2 in PP. pose proof (phi_smp S Hok (m 0%R) Hr k1 k2 theta) as PS.
  pose proof (out_rec S Hok Hdc (m 0%R) Hr N1 Ev _ PP phi PS) as Ho. pose proof (rec_rec S Hok Hdc (m 0%R) Hr N1 Ev _ _ _ _ phi PP PS) as Hrr.
  destruct (stab_head st (glist st) (glist_ok st)) as (gl & Gl).
  destruct (ig_run S Hok (m 0%R) Hr H V2 V4 phi Lam Mu om Hl Ho Hrr Hom gl steps (f * Mu * b + grav (par_of S) * eta, om * a)%R (f * eta + H * Lam * b)%R eta a b (conj eq_refl (conj eq_refl eq_refl))) as (eta' & a' & b' & (A & B & C) & E).
  rewrite <- Gl in A, B, E.
  assert (Ez : fold_left (fun z (s : R * R) => cmul (cpoly (glist st) (cscal (snd s) (0, - om)%R)) z) steps (f * Mu * b + grav (par_of S) * eta, om * a)%R = z').
  { unfold z'. generalize (f * Mu * b + grav (par_of S) * eta, om * a)%R. clear. induction steps as [|s l IH]; intros z; [reflexivity|]. cbn [fold_left]. rewrite IH. do 3 f_equal. unfold cscal. cbn [fst snd]. f_equal; ring. }
  rewrite Ez in A, B. exists eta', a', b'. split; [|split; [|exact C]].
  - destruct (dist_run S Hok Hdc Hf Dh Dv st (fun _ => H) m m' _ steps (fun _ _ => H0) Hd Hx) as [Q _]. eapply dist_ext; [|exact Q]. exact E.
  - unfold f. fold f. rewrite (surjective_pairing z'). f_equal; assumption.
Qed.

Lemma C86_frequencies_proof :
  forall (d k1 k2 f c2 : R), (0 < d)%R -> (0 <= c2)%R ->
  let Lam := (4 / (3 * (d * d)) * (cos (d * k1) + cos (d / 2 * k1 + d * (sqrt 3 / 2) * k2) + cos (- (d / 2) * k1 + d * (sqrt 3 / 2) * k2) - 3))%R in
  let Mu := ((15 + 12 * (cos (d * k1) + cos (d / 2 * k1 + d * (sqrt 3 / 2) * k2) + cos (- (d / 2) * k1 + d * (sqrt 3 / 2) * k2))
    + (cos (3 * d / 2 * k1 + d * (sqrt 3 / 2) * k2) + cos (d * sqrt 3 * k2) + cos (- (3 * d / 2) * k1 + d * (sqrt 3 / 2) * k2))) / 54)%R in
  let exact := (f * f + c2 * (k1 * k1 + k2 * k2))%R in let om2 := (f * f * Mu - c2 * Lam)%R in
  (0 <= Mu <= 1 /\ 0 <= - Lam <= 6 / (d * d) /\ om2 <= exact /\ exact * (1 - 5 / 24 * (d ^ 2 * (k1 * k1 + k2 * k2))) <= om2 /\
   (f <> 0 -> 0 < c2 -> 0 < om2))%R.
Proof.
  intros d k1 k2 f c2 D0 C0 Lam Mu ex om2.
  destruct (lam_bounds d k1 k2 D0) as [[L1 L2] [L3 L4]]. change (lam d k1 k2) with Lam in *.
  destruct (mu_bounds d k1 k2) as [[M1 M2] M3]. pose proof (mu_top d k1 k2 D0) as M4. change (lam d k1 k2) with Lam in *. change (mu d k1 k2) with Mu in *.
  assert (FF : (0 <= f * f)%R) by apply Rle_0_sqr. assert (K0 : (0 <= k1 * k1 + k2 * k2)%R) by (apply Rplus_le_le_0_compat; apply Rle_0_sqr).
  unfold ex, om2. clearbody Lam Mu. set (K2 := (k1 * k1 + k2 * k2)%R) in *.
  assert (F1 : (f * f * Mu <= f * f * 1)%R) by (apply Rmult_le_compat_l; lra). assert (F2 : (c2 * - Lam <= c2 * K2)%R) by (apply Rmult_le_compat_l; lra).
  split; [lra|]. split; [lra|]. split; [lra|]. split.
  - assert (f * f * (1 - 5 / 24 * (d * d * K2)) <= f * f * Mu)%R by (apply Rmult_le_compat_l; lra).
    assert (c2 * (K2 - d * d * (K2 * K2) / 16) <= c2 * - Lam)%R by (apply Rmult_le_compat_l; lra).
    assert (0 <= c2 * (d * d * (K2 * K2)))%R by (apply Rmult_le_pos; [exact C0|]; apply Rmult_le_pos; [|apply Rmult_le_pos; exact K0]; apply Rle_0_sqr).
    replace ((f * f + c2 * K2) * (1 - 5 / 24 * (d ^ 2 * K2)))%R with (f * f * (1 - 5 / 24 * (d * d * K2)) + c2 * K2 - 5 / 24 * (c2 * (d * d * (K2 * K2))))%R by field. lra.
  - intros Nf Cp. assert (P : (0 < f * f)%R) by exact (Rlt_0_sqr _ Nf). destruct (Req_dec Lam 0) as [E|E].
    + specialize (M4 E). assert (0 < f * f * Mu)%R by (apply Rmult_lt_0_compat; lra). rewrite E. lra.
    + assert (0 <= f * f * Mu)%R by (apply Rmult_le_pos; lra). assert (0 < c2 * - Lam)%R by (apply Rmult_lt_0_compat; lra). lra.
Qed.

Lemma C86_geostrophic_adjustment_proof :
  forall (st : stepper) (lim slack : R), (st = RK4 /\ lim = 2 * sqrt 2 /\ slack = 0 \/ st = LSRK 5 /\ lim = 316 / 100 /\ slack = 1 / 10 ^ 22)%R ->
  forall (S : setup RA), setup_ok S -> (0 < (dc (mesh_of_setup S) : R))%R -> hook S = None -> disable_h (par_of S) = false -> disable_vn (par_of S) = false ->
  (visc_del2 (par_of S) <= 0)%R -> (visc_del4 (par_of S) <= 0)%R -> 2 <= nx (mesh_of_setup S) -> Z.even (ny (mesh_of_setup S)) = true -> f0 (par_of S) <> 0%R -> (0 < grav (par_of S))%R ->
  forall (H theta dt : R) (N p q : Z) (tr : Z -> R -> R -> R) (m' : R -> mem RA), (0 < H)%R -> 0 <= N <= INT_MAX ->
  let d := (dc (mesh_of_setup S) : R) in let f := (f0 (par_of S) : R) in
  let k1 := (2 * PI * IZR p / period_x (mesh_of_setup S))%R in let k2 := (2 * PI * IZR q / period_y (mesh_of_setup S))%R in
  let c2 := (grav (par_of S) * H)%R in let K2 := (k1 * k1 + k2 * k2)%R in let Om := sqrt (f * f + c2 * K2) in let T := (IZR N * dt)%R in
  (0 <= dt /\ dt * (sqrt (6 * c2) / d + Rabs f) <= lim)%R ->
  let wave X Y := cos (k1 * X + k2 * Y + theta) in
  (forall x, exec (sdims S) (program S st (mkInitial (A:=RA) (fun X Y => H + x * wave X Y)%R (fun _ _ => 0%R) (fun _ _ => 0%R) tr) (loop_steps (A:=RA) N dt)) (mzero RA) (OK (m' x))) ->
  forall k c, 0 <= k < d_nlayers (sdims S) -> 0 <= c < d_ncells (sdims S) ->
  mr (m' 0%R) (HCell St) [c; k] = H /\
  exists D, derivable_pt_lim (fun x => mr (m' x) (HCell St) [c; k]) 0 D /\
    (Rabs (D - wave (mr (m' 0%R) XCell [c]) (mr (m' 0%R) YCell [c]) * ((f * f + c2 * K2 * cos (Om * T)) / (Om * Om)))
      <= 5 / 6 * (d ^ 2 * K2) + T * (5 / 24 * (d ^ 2 * K2) * Om + dt ^ 4 * Om ^ 5 / 100) + IZR N * slack)%R.
Proof.
  intros st lim slack Hst S Hok Hdc Hf Dh Dv A2 A4 N1 Ev F0 G. destruct (enabled_false S A2 A4) as [V2 V4].
  exact (adjust S Hok Hdc Hf Dh Dv N1 Ev V2 V4 F0 G st lim slack Hst).
Qed.

