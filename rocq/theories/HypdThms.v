(** Proofs of the properties of [PropsHypd.v]. *)
From Coq Require Import ZArith Reals List Bool Lia Lra.
From Verif Require Import Arith Arrays Prog Conc Launch Mesh AuxVars Tend Model Hex HexComb RSum Spec MeshProof MeshMem MeshFacts MeshR MeshCalc Over Formulas KernBase Terms KernAux KernTend TendFn StepFn Ready Rel RelRun Relate TendVal StepVal StepRun Tableau StepThms RealTend SumParts Diag FieldInv ConsBase ConsThms SteadyThms SuperThms LinStep LaxAbs LinNorm Poincare SymStep Diffuse DiffuseThms Deriv Stencil Taylor Sample Waves Modes DecayNum Driver DriverFn DriverThms WaveRun AdvThms HeatSpec HeatPlane HeatThms HyperSpec HyperPlane.
Import ListNotations.
Open Scope Z_scope.

(** What the estimates need of a stepper: the step does not amplify anything up to [lim]; the order; the size of the coefficients. *)
Definition within (g : Z -> R) (lim : R) : Prop := (0 < lim)%R /\ g 0%Z = 1%R /\ forall i, (0 <= bc (- lim * g 1%Z) (lim ^ 2 * g 2%Z) (- lim ^ 3 * g 3%Z) (lim ^ 4 * g 4%Z) (- lim ^ 5 * g 5%Z) i)%R.
Definition fine (g : Z -> R) (lim slack : R) : Prop := within g lim /\ (lim <= 45 / 10)%R /\ (Rabs (g 1%Z - 1) <= slack)%R /\
  (Rabs (g 2%Z) + lim * Rabs (g 3%Z) + lim ^ 2 * Rabs (g 4%Z) + lim ^ 3 * Rabs (g 5%Z) <= 26 / 10)%R.
Lemma fine_rk4 : fine g_rk4 (278 / 100) 0.
Proof.
  unfold fine, within, g_rk4. split; [split; [lra|split; [reflexivity|]]|split; [lra|split; [rewrite Rminus_diag_eq, Rabs_R0; lra|rewrite !Rabs_right; lra]]].
  intros i. pose proof (bc_rk4 i) as Q. cbv zeta in Q. match type of Q with (0 <= bc ?a ?b ?c ?d ?e i)%R => match goal with |- (0 <= bc ?a' ?b' ?c' ?d' ?e' i)%R => replace a' with a by lra; replace b' with b by lra; replace c' with c by lra; replace d' with d by lra; replace e' with e by lra end end. exact Q.
Qed.
Lemma fine_euler : fine g_euler 2 0.
Proof.
  unfold fine, within, g_euler. split; [split; [lra|split; [reflexivity|]]|split; [lra|split; [rewrite Rminus_diag_eq, Rabs_R0; lra|rewrite !Rabs_right; lra]]].
  intros i. pose proof (bc_euler i) as Q. match type of Q with (0 <= bc ?a ?b ?c ?d ?e i)%R => match goal with |- (0 <= bc ?a' ?b' ?c' ?d' ?e' i)%R => replace a' with a by lra; replace b' with b by lra; replace c' with c by lra; replace d' with d by lra; replace e' with e by lra end end. exact Q.
Qed.
Lemma g5_last : (Rabs (g_lsrk5 5 - 1 / 200) <= 1 / 10 ^ 25)%R.
Proof. unfold g_lsrk5, tab_b. apply Rabs_le. lra. Qed.
Lemma fine_lsrk5 : fine g_lsrk5 (45 / 10) (1 / 10 ^ 25).
Proof.
  pose proof g5_order as (G0 & G1 & G2 & G3 & G4 & G5). split; [split; [lra|split; [exact G0|]]|split; [lra|split; [exact G1|]]].
  - exact (bc_lsrk5 _ _ _ _ _ G1 G2 G3 G4 g5_last).
  - assert (Ab : forall x a, (Rabs (x - a) <= 1 / 10 ^ 25 -> 0 <= a -> Rabs x <= a + 1 / 10000)%R).
    { intros x a Ha Pa. assert (1 / 10 ^ 25 <= 1 / 10000)%R by lra. split_Rabs; lra. }
    apply Ab in G2; [|lra]. apply Ab in G3; [|lra]. apply Ab in G4; [|lra]. rewrite (Rabs_right (g_lsrk5 5)) by lra. lra.
Qed.

Lemma pow_inv' x k : (x <> 0 -> (/ x) ^ k = / x ^ k)%R.
Proof. intros H. symmetry. now apply Rinv_pow. Qed.

Section Hyper.
Context (S : setup RA) (Hok : setup_ok S) (Hdc : (0 < (dc (mesh_of_setup S) : R))%R) (m : mem RA) (Hr : ready S m).
Context (HX : 2 <= nx (mesh_of_setup S)) (Hev : Z.even (ny (mesh_of_setup S)) = true).
Local Notation P := (par_of S).
Local Notation h := (mesh_of_setup S).
Local Notation X := (nx (mesh_of_setup S)).
Local Notation Y := (ny (mesh_of_setup S)).
Local Notation NC := (nx (mesh_of_setup S) * ny (mesh_of_setup S)).
Local Notation d := (dc (mesh_of_setup S) : R).
Local Notation per := (periodic (period_x h) (period_y h)).
Local Notation k2 := (Rmax 0 (eddy_diff2 P)).
Local Notation k4 := (Rmax 0 (eddy_diff4 P)).
Let Hm := ready_hex S Hok m Hr.
Let HYY : 2 <= Y := HY S Hok Hev.
Let Dn : d <> 0%R := d_ne S Hdc.
Let Dp : (0 < d * d)%R. Proof. pose proof Hdc. cbn [F RA] in *. nra. Qed.
Lemma NC_pos : (0 < IZR NC)%R. Proof. apply IZR_lt. nia. Qed.

(** ** The root mean square norm *)
Definition dot (f g : Z -> R) : R := (/ IZR NC * rsum NC (fun c => f c * g c))%R.
Local Notation V := (fun c => 0 <= c < NC).
Lemma dot_ext f f' g : (forall c, V c -> f c = f' c) -> dot f g = dot f' g.
Proof. intros E. unfold dot. f_equal. apply rsum_ext. intros c Hc. now rewrite E. Qed.
Lemma dot_sym f g : dot f g = dot g f.
Proof. unfold dot. f_equal. apply rsum_ext. intros. ring. Qed.
Lemma dot_lin a b f f' g : dot (fun x => a * f x + b * f' x)%R g = (a * dot f g + b * dot f' g)%R.
Proof.
  unfold dot. rewrite (rsum_ext NC _ (fun c => a * (f c * g c) + b * (f' c * g c))%R) by (intros; ring). rewrite rsum_plus, !rsum_scal. ring.
Qed.
Lemma dot_pos f : (0 <= dot f f)%R.
Proof. unfold dot. apply Rmult_le_pos; [left; apply Rinv_0_lt_compat, NC_pos|]. apply rsum_nonneg. intros. apply Rle_0_sqr. Qed.
Local Notation nrm := (LaxAbs.nrm dot).
Lemma nrm_max f E : (0 <= E)%R -> (forall c, V c -> (Rabs (f c) <= E)%R) -> (nrm f <= E)%R.
Proof.
  intros E0 H. unfold LaxAbs.nrm. rewrite <- (sqrt_square E E0). apply sqrt_le_1; [apply dot_pos|apply Rle_0_sqr|]. unfold dot. pose proof NC_pos as N.
  apply Rle_trans with (/ IZR NC * rsum NC (fun _ => E * E))%R.
  - apply Rmult_le_compat_l; [left; now apply Rinv_0_lt_compat|]. apply rsum_le. intros c Hc. rewrite <- (Rabs_right (f c * f c)) by apply Rle_ge, Rle_0_sqr.
    apply abs_mul; now apply H.
  - rewrite rsum_const by nia. right. field. lra.
Qed.

(** ** The Laplacian is symmetric and bounded *)
Lemma lap_work f g : rsum NC (fun c => f c * lap m g c)%R = (- (/ hareac h * rsum (3 * NC) (fun e => mr m DcEdge [e] * mr m DvEdge [e] * grad m g e * grad m f e)))%R.
Proof.
  pose proof (gauss (cfg_of S) h (ntracers P) (proj1 Hok) Hdc m Hm f (grad m g) HX HYY) as G. pose proof (area_pos h Hdc) as Pa.
  assert (E : rsum NC (fun c => mr m AreaCell [c] * f c * outflow m (grad m g) c)%R = (hareac h * rsum NC (fun c => f c * lap m g c))%R).
  { rewrite <- rsum_scal. apply rsum_ext. intros c Hc. rewrite (hm_area _ _ _ Hm) by exact Hc. unfold lap. cbn [F RA]. ring. }
  rewrite E in G. apply (Rmult_eq_reg_l (hareac h)); [|apply Rgt_not_eq, Pa]. rewrite G. cbn [F RA] in *. field. lra.
Qed.
Lemma lap_sym f g : dot (lap m f) g = dot f (lap m g).
Proof.
  unfold dot. f_equal. rewrite (rsum_ext NC (fun c => lap m f c * g c)%R (fun c => g c * lap m f c)%R) by (intros; ring). rewrite !lap_work. f_equal. f_equal.
  apply rsum_ext. intros. cbn [F RA]. ring.
Qed.
Lemma lap_lin' a b f g c : V c -> lap m (fun c => a * f c + b * g c)%R c = (a * lap m f c + b * lap m g c)%R.
Proof. intros Hc. now apply (lap_lin S Hok Hdc m Hr HX HYY). Qed.
Lemma lap_ext' f g c : (forall c, V c -> f c = g c) -> V c -> lap m f c = lap m g c.
Proof. intros E Hc. now apply (lap_ext S Hok Hdc m Hr HX HYY). Qed.
Lemma lap_pos f : (0 <= - dot (lap m f) f <= 6 / (d * d) * dot f f)%R.
Proof.
  rewrite lap_sym. unfold dot. rewrite lap_work. pose proof (area_pos h Hdc) as Pa. pose proof NC_pos as Pn.
  pose proof (grad_bound (cfg_of S) h (ntracers P) (proj1 Hok) Hdc m Hm Hev f) as B. set (E := rsum (3 * NC) (fun e => mr m DcEdge [e] * mr m DvEdge [e] * (grad m f e * grad m f e))%R) in B.
  assert (E0 : rsum (3 * NC) (fun e => mr m DcEdge [e] * mr m DvEdge [e] * grad m f e * grad m f e)%R = E) by (apply rsum_ext; intros; cbn [F RA]; ring). rewrite E0.
  assert (Ep : (0 <= E)%R) by (apply rsum_nonneg; intros e He; apply Rmult_le_pos; [apply Rlt_le; now apply (cb_dcdv S Hok Hdc m Hr)|apply Rle_0_sqr]).
  rewrite (rsum_ext NC _ (fun c => hareac h * (f c * f c))%R), rsum_scal in B by (intros c Hc; rewrite (hm_area _ _ _ Hm) by exact Hc; reflexivity).
  assert (In : (0 < / IZR NC)%R) by (now apply Rinv_0_lt_compat). assert (Ia : (0 < / hareac h)%R) by (now apply Rinv_0_lt_compat).
  replace (- (/ IZR NC * - (/ hareac h * E)))%R with (/ IZR NC * (/ hareac h * E))%R by ring. split; [repeat apply Rmult_le_pos; lra|].
  replace (6 / (d * d) * (/ IZR NC * rsum NC (fun c => f c * f c)))%R with (/ IZR NC * (6 / (d * d) * rsum NC (fun c => f c * f c)))%R by ring.
  apply Rmult_le_compat_l; [lra|]. apply (Rmult_le_reg_l (hareac h)); [exact Pa|]. rewrite <- Rmult_assoc, Rinv_r, Rmult_1_l by (apply Rgt_not_eq, Pa). cbn [F RA] in *. lra.
Qed.
Lemma dot_scal a f g : dot (fun c => a * f c)%R g = (a * dot f g)%R.
Proof. rewrite (dot_ext _ (fun c => a * f c + 0 * f c)%R) by (intros; ring). rewrite dot_lin. ring. Qed.
Lemma lap_bound f : (dot (lap m f) (lap m f) <= 36 / (d * d * (d * d)) * dot f f)%R.
Proof.
  assert (P6 : (0 < d * d / 6)%R) by (apply Rdiv_lt_0_compat; [exact Dp|lra]).
  pose proof (Tsq V dot dot_ext dot_sym dot_lin dot_pos (fun f c => - (d * d / 6) * lap m f c)%R) as Q.
  specialize (Q ltac:(intros a b f0 g x Hx; cbv beta; rewrite lap_lin' by exact Hx; ring)).
  specialize (Q ltac:(intros f0 g; cbv beta; rewrite dot_scal, (dot_sym f0), dot_scal, (dot_sym (lap m g)), lap_sym; reflexivity)).
  assert (T0 : forall f, (0 <= dot (fun c => - (d * d / 6) * lap m f c)%R f <= dot f f)%R).
  { intros f0. rewrite dot_scal. pose proof (lap_pos f0) as L. replace (- (d * d / 6) * dot (lap m f0) f0)%R with (d * d / 6 * - dot (lap m f0) f0)%R by ring. split; [apply Rmult_le_pos; lra|].
    apply Rle_trans with (d * d / 6 * (6 / (d * d) * dot f0 f0))%R; [apply Rmult_le_compat_l; lra|]. right. cbn [F RA] in *. field. exact Dn. }
  specialize (Q (fun f => proj1 (T0 f)) (fun f => proj2 (T0 f)) f). cbv beta in Q. pose proof (proj2 (T0 f)) as Q1. rewrite dot_scal, dot_sym, dot_scal in Q.
  apply (Rmult_le_reg_l (d * d / 6 * (d * d / 6))); [now apply Rmult_lt_0_compat|].
  replace (d * d / 6 * (d * d / 6) * (36 / (d * d * (d * d)) * dot f f))%R with (dot f f) by (cbn [F RA] in *; field; exact Dn). lra.
Qed.

(** ** The tendency *)
Lemma lop_lap f c : V c -> lop S m f c = (k2 * lap m f c - k4 * lap m (lap m f) c)%R.
Proof.
  intros Hc. unfold lop, tracer_diff_enabled, tracer_hyperdiff_enabled. cbn [flt RA fofZ].
  destruct (Rlt_dec 0 (eddy_diff4 P)) as [P4|P4]; [rewrite (Rmax_right 0 (eddy_diff4 P)) by (apply Rlt_le, P4)|rewrite (Rmax_left 0 (eddy_diff4 P)) by (apply Rnot_lt_le, P4)];
  (destruct (Rlt_dec 0 (eddy_diff2 P)) as [P2|P2]; [rewrite (Rmax_right 0 (eddy_diff2 P)) by (apply Rlt_le, P2)|rewrite (Rmax_left 0 (eddy_diff2 P)) by (apply Rnot_lt_le, P2)]); cbn [F RA]; ring.
Qed.
Section Step.
Context (g : Z -> R) (lim : R) (Hw : within g lim) (dt : R) (D0 : (0 <= dt)%R).
Context (Dd : (dt * (6 * k2 / (d * d) + 36 * k4 / (d * d * (d * d))) <= lim)%R).
Definition TT (f : Z -> R) (c : Z) : R := (- (dt / lim) * lop S m f c)%R.
Lemma TT_lin a b f g0 c : V c -> TT (fun c => a * f c + b * g0 c)%R c = (a * TT f c + b * TT g0 c)%R.
Proof. intros Hc. unfold TT. rewrite (lop_lin S Hok Hdc m Hr HX HYY) by exact Hc. ring. Qed.
Lemma TT_ext f g0 c : (forall c, V c -> f c = g0 c) -> V c -> TT f c = TT g0 c.
Proof. intros E Hc. unfold TT. now rewrite (lop_ext S Hok Hdc m Hr HX HYY f g0). Qed.
Lemma dot_lop f g0 : dot (lop S m f) g0 = (k2 * dot (lap m f) g0 - k4 * dot (lap m f) (lap m g0))%R.
Proof.
  rewrite (dot_ext _ (fun c => k2 * lap m f c + - k4 * lap m (lap m f) c)%R) by (intros c Hc; rewrite lop_lap by exact Hc; ring). rewrite dot_lin, (lap_sym (lap m f)). ring.
Qed.
Lemma TT_dot f g0 : dot (TT f) g0 = (- (dt / lim) * dot (lop S m f) g0)%R. Proof. apply dot_scal. Qed.
Lemma TT_sym f g0 : dot (TT f) g0 = dot f (TT g0).
Proof. rewrite TT_dot, (dot_sym f), TT_dot, !dot_lop, lap_sym, (dot_sym f), (dot_sym (lap m f)). reflexivity. Qed.
Lemma TT_range f : (0 <= dot (TT f) f <= dot f f)%R.
Proof.
  rewrite TT_dot, dot_lop. pose proof (proj1 Hw) as L0. pose proof (lap_pos f) as B1. pose proof (lap_bound f) as B2. pose proof (dot_pos (lap m f)) as B3. pose proof (dot_pos f) as B4.
  pose proof (Rmax_l 0 (eddy_diff2 P)) as K2. pose proof (Rmax_l 0 (eddy_diff4 P)) as K4. assert (Q : (0 <= dt / lim)%R) by (apply Rmult_le_pos; [exact D0|left; now apply Rinv_0_lt_compat]).
  replace (- (dt / lim) * (k2 * dot (lap m f) f - k4 * dot (lap m f) (lap m f)))%R with (dt / lim * (k2 * - dot (lap m f) f + k4 * dot (lap m f) (lap m f)))%R by ring.
  assert (Q1 : (0 <= k2 * - dot (lap m f) f)%R) by (apply Rmult_le_pos; lra). assert (Q2 : (0 <= k4 * dot (lap m f) (lap m f))%R) by (apply Rmult_le_pos; lra).
  split; [apply Rmult_le_pos; lra|].
  apply Rle_trans with (dt / lim * (k2 * (6 / (d * d) * dot f f) + k4 * (36 / (d * d * (d * d)) * dot f f)))%R.
  - apply Rmult_le_compat_l; [exact Q|]. apply Rplus_le_compat; apply Rmult_le_compat_l; lra.
  - replace (dt / lim * (k2 * (6 / (d * d) * dot f f) + k4 * (36 / (d * d * (d * d)) * dot f f)))%R with (dt * (6 * k2 / (d * d) + 36 * k4 / (d * d * (d * d))) / lim * dot f f)%R by (cbn [F RA] in *; field; split; [exact Dn|lra]).
    rewrite <- (Rmult_1_l (dot f f)) at 2. apply Rmult_le_compat_r; [exact B4|]. apply (Rmult_le_reg_r lim); [exact L0|]. unfold Rdiv at 1. rewrite Rmult_assoc, Rinv_l by lra. lra.
Qed.
Lemma TT_pow k f c : V c -> (dt ^ k * lpow S m k f c = (- lim) ^ k * xpow TT k f c)%R.
Proof.
  pose proof (proj1 Hw) as L0. revert c. induction k; intros c Hc; [cbn; ring|]. cbn [lpow xpow pow].
  assert (E : TT (xpow TT k f) c = (- (dt / lim) * ((dt / - lim) ^ k * lop S m (lpow S m k f) c))%R).
  { unfold TT at 1. f_equal. rewrite (lop_ext S Hok Hdc m Hr HX HYY (xpow TT k f) (fun c => (dt / - lim) ^ k * lpow S m k f c + 0 * lpow S m k f c)%R).
    - rewrite (lop_lin S Hok Hdc m Hr HX HYY) by exact Hc. ring.
    - intros c' Hc'. assert (Np : ((- lim) ^ k <> 0)%R) by (apply pow_nonzero; lra). apply (Rmult_eq_reg_l ((- lim) ^ k)); [|exact Np]. rewrite <- IHk by exact Hc'. unfold Rdiv. rewrite Rpow_mult_distr.
      rewrite (pow_inv' (- lim) k) by lra. field. exact Np.
    - exact Hc. }
  rewrite E. unfold Rdiv at 2. rewrite Rpow_mult_distr. assert (Np : ((- lim) ^ k <> 0)%R) by (apply pow_nonzero; lra). rewrite (pow_inv' (- lim) k) by lra. field. repeat split; first [exact Np|lra].
Qed.
Lemma nrm_pow k f : (nrm (fun c => dt ^ k * lpow S m k f c) <= lim ^ k * nrm f)%R.
Proof.
  pose proof (proj1 Hw) as L0. rewrite (nrm_ext V dot dot_ext dot_sym _ _ (TT_pow k f)). apply (nrm_scal_le V dot dot_ext dot_sym dot_lin dot_pos).
  - rewrite <- RPow_abs, Rabs_Ropp, (Rabs_right lim) by lra. lra.
  - induction k; [apply Rle_refl|]. cbn [xpow]. eapply Rle_trans; [apply (T_contracts V dot dot_ext dot_sym dot_lin dot_pos TT TT_lin TT_sym (fun f => proj1 (TT_range f)) (fun f => proj2 (TT_range f)))|exact IHk].
Qed.
Lemma pol_stp f c : V c -> pol S m g dt f c = stp TT (- lim * g 1%Z) (lim ^ 2 * g 2%Z) (- lim ^ 3 * g 3%Z) (lim ^ 4 * g 4%Z) (- lim ^ 5 * g 5%Z) f c.
Proof.
  intros Hc. unfold pol, stp. pose proof (fun k => TT_pow k f c Hc) as Q. rewrite (proj1 (proj2 Hw)).
  replace (g 1%Z * dt * lpow S m 1 f c)%R with (g 1%Z * (dt ^ 1 * lpow S m 1 f c))%R by ring. rewrite !(Rmult_assoc (g _) (dt ^ _)), !Q. ring.
Qed.
Lemma pol_stable f : (nrm (pol S m g dt f) <= nrm f)%R.
Proof.
  destruct Hw as (L0 & G0 & G1). rewrite (nrm_ext V dot dot_ext dot_sym _ _ (pol_stp f)).
  apply (stp_contracts V dot dot_ext dot_sym dot_lin dot_pos TT TT_lin TT_ext TT_sym (fun f => proj1 (TT_range f)) (fun f => proj2 (TT_range f))). exact G1.
Qed.
End Step.
Lemma prun_stable g lim (l : list (R * R)) : within g lim -> (forall t dt, In (t, dt) l -> (0 <= dt /\ dt * (6 * k2 / (d * d) + 36 * k4 / (d * d * (d * d))) <= lim)%R) ->
  forall f, (nrm (prun S m g l f) <= nrm f)%R.
Proof.
  intros Hw. induction l as [|[t dt] l IH]; intros Hl f; [apply Rle_refl|]. cbn [prun fold_left snd].
  eapply Rle_trans; [apply (IH (fun t' dt' H' => Hl t' dt' (or_intror H')))|]. destruct (Hl t dt (or_introl eq_refl)) as [A B]. now apply (pol_stable g lim Hw dt).
Qed.

(** ** Mixing *)
Definition lam : R := (2 / (3 * (d * IZR (Z.max X Y)) ^ 2))%R.
Lemma n_pos : (0 < IZR (Z.max X Y))%R. Proof. apply IZR_lt. lia. Qed.
Lemma lam_pos : (0 < lam)%R.
Proof. unfold lam. pose proof n_pos. apply Rdiv_lt_0_compat; [lra|]. apply Rmult_lt_0_compat; [lra|]. apply pow_lt. cbn [F RA] in *. now apply Rmult_lt_0_compat. Qed.
Lemma lap_gap f : rsum NC f = 0%R -> (lam * dot f f <= - dot (lap m f) f)%R.
Proof.
  intros Z0. rewrite lap_sym. unfold dot. rewrite lap_work. pose proof (area_pos h Hdc) as Pa. pose proof NC_pos as Pn. pose proof n_pos as Pm.
  pose proof (poincare (cfg_of S) h (proj1 Hok) f Z0) as B. set (D2 := rsum (3 * NC) (fun e => (f (hcoe X Y e 1) - f (hcoe X Y e 0)) * (f (hcoe X Y e 1) - f (hcoe X Y e 0)))%R) in B.
  assert (P3 : (0 < sqrt 3)%R) by (apply sqrt_lt_R0; lra). assert (Q3 : (sqrt 3 * sqrt 3 = 3)%R) by (apply sqrt_sqrt; lra).
  assert (E : rsum (3 * NC) (fun e => mr m DcEdge [e] * mr m DvEdge [e] * grad m f e * grad m f e)%R = (sqrt 3 / 3 * D2)%R).
  { unfold D2. rewrite <- rsum_scal. apply rsum_ext. intros e He. unfold grad. rewrite !(hm_coe _ _ _ Hm), (hm_dce _ _ _ Hm), (hm_dve _ _ _ Hm), hdve_R by lia. cbn [F RA] in *. field. exact Dn. }
  rewrite E, hareac_R. assert (In : (0 < / IZR NC)%R) by now apply Rinv_0_lt_compat. set (n := IZR (Z.max X Y)) in *.
  match goal with |- (_ <= - (/ IZR NC * - ?z))%R => assert (E2 : z = (2 / (3 * (d * d)) * D2)%R) by (cbn [F RA] in *; field; split; [exact Dn|lra]) end. rewrite E2.
  replace (lam * (/ IZR NC * rsum NC (fun c => f c * f c)))%R with (/ IZR NC * (lam * rsum NC (fun c => f c * f c)))%R by ring.
  replace (- (/ IZR NC * - (2 / (3 * (d * d)) * D2)))%R with (/ IZR NC * (lam * (n ^ 2 * D2)))%R by (unfold lam; fold n; cbn [F RA] in *; field; repeat split; first [exact Dn|lra]).
  apply Rmult_le_compat_l; [lra|]. apply Rmult_le_compat_l; [left; apply lam_pos|exact B].
Qed.
Lemma lap_gap2 f : rsum NC f = 0%R -> (lam * lam * dot f f <= dot (lap m f) (lap m f))%R.
Proof.
  intros Z0. pose proof (lap_gap f Z0) as G. pose proof lam_pos as L0. pose proof (dot_pos (fun c => 1 * lap m f c + lam * f c)%R) as Q.
  rewrite dot_lin, !(dot_sym _ (fun c => 1 * lap m f c + lam * f c)%R), !dot_lin, (dot_sym f (lap m f)) in Q.
  assert (L1 : (lam * (lam * dot f f) <= lam * - dot (lap m f) f)%R) by (apply Rmult_le_compat_l; lra). lra.
Qed.
Lemma lap_const a c : V c -> lap m (fun _ => a) c = 0%R.
Proof. intros Hc. rewrite (lap_avg S Hok Hdc m Hr HX HYY) by exact Hc. unfold avg6. rewrite rsum_small6. field. exact Dn. Qed.
Lemma lop_const a c : V c -> lop S m (fun _ => a) c = 0%R.
Proof.
  intros Hc. rewrite lop_lap by exact Hc. rewrite (lap_const a c Hc). rewrite (lap_ext' (lap m (fun _ => a)) (fun _ => 0%R)) by (try exact Hc; intros; now apply lap_const). rewrite (lap_const 0 c Hc). ring.
Qed.
Lemma lop_sum f : rsum NC (lop S m f) = 0%R.
Proof.
  assert (E : dot (lop S m f) (fun _ => 1%R) = 0%R).
  { rewrite dot_lop, lap_sym, (dot_sym f), (dot_sym (lap m f)). rewrite (dot_ext (lap m (fun _ => 1%R)) (fun _ => 0%R) f), (dot_ext (lap m (fun _ => 1%R)) (fun _ => 0%R) (lap m f)) by (intros; now apply lap_const).
    unfold dot. rewrite !(rsum_zero NC (fun c => 0 * _)%R) by (intros; ring). ring. }
  unfold dot in E. rewrite (rsum_ext NC _ (lop S m f)) in E by (intros; ring). pose proof NC_pos as N. apply Rmult_integral in E. destruct E as [E|E]; [|exact E]. apply Rinv_neq_0_compat in E; [tauto|lra].
Qed.
Lemma pol_sum g dt f : g 0%Z = 1%R -> rsum NC (pol S m g dt f) = rsum NC f.
Proof.
  intros G0. unfold pol. rewrite !rsum_plus, G0.
  assert (Q : forall k, rsum NC (lpow S m (Datatypes.S k) f) = 0%R) by (intros k; cbn [lpow]; apply lop_sum).
  rewrite !rsum_scal. rewrite !Q. ring.
Qed.
Lemma pol_const g dt a c : g 0%Z = 1%R -> V c -> pol S m g dt (fun _ => a) c = a.
Proof.
  intros G0 Hc. assert (Q : forall k c, V c -> lpow S m (Datatypes.S k) (fun _ => a) c = 0%R).
  { induction k; intros c' Hc'; cbn [lpow]; [now apply lop_const|]. rewrite (lop_ext S Hok Hdc m Hr HX HYY _ (fun _ => 0%R)) by (try exact Hc'; intros; now apply IHk). now apply lop_const. }
  unfold pol. rewrite !Q by exact Hc. rewrite G0. ring.
Qed.
Definition mixes (g : Z -> R) : Prop := g 0%Z = 1%R /\ forall i, (4 / 5 * c9 i <= bc (- (1) * g 1%Z) (1 ^ 2 * g 2%Z) (- (1) ^ 3 * g 3%Z) (1 ^ 4 * g 4%Z) (- (1) ^ 5 * g 5%Z) i)%R.
Lemma mixes_within g : mixes g -> within g 1.
Proof. intros [G0 G1]. split; [lra|split; [exact G0|]]. intros i. pose proof (G1 i). pose proof (c9_pos i). lra. Qed.
Definition mrate : R := (4 / 5 * (k2 * lam + k4 * lam ^ 2))%R.
Lemma pol_mixes g dt f : mixes g -> (0 <= dt)%R -> (dt * (6 * k2 / (d * d) + 36 * k4 / (d * d * (d * d))) <= 1)%R -> rsum NC f = 0%R ->
  (dot (pol S m g dt f) (pol S m g dt f) <= exp (- mrate * dt) * dot f f)%R.
Proof.
  intros Hg D0 Dd Z0. pose proof (mixes_within g Hg) as Hw. destruct Hg as [G0 G1].
  rewrite (dot_ext _ _ _ (pol_stp g 1 Hw dt f)), dot_sym, (dot_ext _ _ _ (pol_stp g 1 Hw dt f)).
  eapply Rle_trans; [apply (stp_strict V dot dot_ext dot_sym dot_lin dot_pos (TT 1 dt) (TT_lin 1 dt) (TT_ext 1 dt) (TT_sym 1 dt) (fun f => proj1 (TT_range g 1 Hw dt D0 Dd f)) (fun f => proj2 (TT_range g 1 Hw dt D0 Dd f)) (4 / 5) _ _ _ _ _ G1)|].
  rewrite TT_dot, dot_lop. pose proof (lap_gap f Z0) as L1. pose proof (lap_gap2 f Z0) as L2. pose proof (dot_pos f) as P0. pose proof (Rmax_l 0 (eddy_diff2 P)) as K2. pose proof (Rmax_l 0 (eddy_diff4 P)) as K4.
  assert (Q1 : (k2 * (lam * dot f f) <= k2 * - dot (lap m f) f)%R) by (apply Rmult_le_compat_l; assumption).
  assert (Q2 : (k4 * (lam * lam * dot f f) <= k4 * dot (lap m f) (lap m f))%R) by (apply Rmult_le_compat_l; assumption).
  assert (Q3 : (dt * (k2 * (lam * dot f f) + k4 * (lam * lam * dot f f)) <= dt * (k2 * - dot (lap m f) f + k4 * dot (lap m f) (lap m f)))%R) by (apply Rmult_le_compat_l; lra).
  apply Rle_trans with ((1 + - mrate * dt) * dot f f)%R; [|].
  { replace ((1 + - mrate * dt) * dot f f)%R with (dot f f - 4 / 5 * (dt * (k2 * (lam * dot f f) + k4 * (lam * lam * dot f f))))%R by (unfold mrate; ring).
    replace (- (dt / 1) * (k2 * dot (lap m f) f - k4 * dot (lap m f) (lap m f)))%R with (dt * (k2 * - dot (lap m f) f + k4 * dot (lap m f) (lap m f)))%R by field. lra. }
  apply Rmult_le_compat_r; [exact P0|]. pose proof (exp_ineq1_le (- mrate * dt)). lra.
Qed.
Lemma prun_mixes g (l : list (R * R)) : mixes g -> (forall t dt, In (t, dt) l -> (0 <= dt /\ dt * (6 * k2 / (d * d) + 36 * k4 / (d * d * (d * d))) <= 1)%R) ->
  forall f a, rsum NC (fun c => f c - a)%R = 0%R ->
  (dot (fun c => prun S m g l f c - a) (fun c => prun S m g l f c - a) <= exp (- mrate * fold_right Rplus 0 (map snd l)) * dot (fun c => f c - a) (fun c => f c - a))%R.
Proof.
  intros Hg. induction l as [|[t dt] l IH]; intros Hl f a Z0; cbn [prun fold_left map fold_right snd]; [rewrite Rmult_0_r, exp_0; lra|].
  destruct (Hl t dt (or_introl eq_refl)) as [D0 Dd]. assert (E : forall c, V c -> (pol S m g dt f c - a)%R = pol S m g dt (fun c => f c - a)%R c).
  { intros c Hc. rewrite (pol_sub S Hok Hdc m Hr HX Hev g dt f (fun _ => a)) by exact Hc. now rewrite (pol_const g dt a c (proj1 Hg) Hc). }
  assert (Z1 : rsum NC (fun c => pol S m g dt f c - a)%R = 0%R) by (rewrite (rsum_ext NC _ _ E), pol_sum; [exact Z0|exact (proj1 Hg)]).
  eapply Rle_trans; [exact (IH (fun t' dt' H' => Hl t' dt' (or_intror H')) (pol S m g dt f) a Z1)|].
  rewrite (dot_ext _ _ _ E), dot_sym, (dot_ext _ _ _ E). pose proof (pol_mixes g dt (fun c => f c - a)%R Hg D0 Dd Z0) as Q.
  rewrite Rmult_plus_distr_l, exp_plus. rewrite (Rmult_comm (exp (- mrate * dt))), Rmult_assoc. apply Rmult_le_compat_l; [left; apply exp_pos|exact Q].
Qed.

(** ** Convergence *)
Context (H2 : ((eddy_diff2 P : R) <= 0)%R) (H4 : (0 < (eddy_diff4 P : R))%R).
Local Notation K := (eddy_diff4 P : R).
Lemma lop_lap4 f c : V c -> lop S m f c = (- K * lap m (lap m f) c)%R.
Proof. intros Hc. rewrite lop_lap by exact Hc. rewrite (Rmax_left 0 (eddy_diff2 P)), (Rmax_right 0 (eddy_diff4 P)) by (try exact H2; now apply Rlt_le). cbn [F RA]. ring. Qed.
Lemma smp_LA f phi c : per f -> smpC h f phi -> V c -> lap m phi c = LA d f (hxc h c) (hyc h c).
Proof. intros HF Sm Hc. rewrite (lap_avg S Hok Hdc m Hr HX HYY) by exact Hc. unfold LA. now rewrite (smp_hd S Hok Hdc m Hr HX Hev f phi c HF Sm Hc). Qed.
Lemma per_LA f : per f -> per (LA d f).
Proof. intros HF x y. unfold LA. destruct (per_hd S Hdc f HF x y) as [-> ->]. auto. Qed.
Lemma smp_lop f phi c : per f -> smpC h f phi -> V c -> lop S m phi c = (- K * LA d (LA d f) (hxc h c) (hyc h c))%R.
Proof.
  intros HF Sm Hc. rewrite lop_lap4 by exact Hc. f_equal. apply smp_LA; [now apply per_LA| |exact Hc]. intros c' Hc'. now apply smp_LA.
Qed.
Lemma smp_lop2 f phi c : per f -> smpC h f phi -> V c -> lpow S m 2 phi c = (K * K * LA d (LA d (LA d (LA d f))) (hxc h c) (hyc h c))%R.
Proof.
  intros HF Sm Hc. change (lpow S m 2 phi c) with (lop S m (lop S m phi) c).
  rewrite (smp_lop (fun x y => - K * LA d (LA d f) x y + 0 * LA d (LA d f) x y)%R).
  - rewrite (LA_ext d (LA d (fun x y => - K * LA d (LA d f) x y + 0 * LA d (LA d f) x y)%R) (fun x y => - K * LA d (LA d (LA d f)) x y + 0 * LA d (LA d (LA d f)) x y)%R) by (intros; apply LA_lin).
    rewrite LA_lin. cbn [F RA]. ring.
  - intros x y. destruct (per_LA _ (per_LA _ HF) x y) as [-> ->]. auto.
  - intros c' Hc'. rewrite (smp_lop f) by assumption. cbn [F RA]. ring.
  - exact Hc.
Qed.

Context (Te M : R) (D : R -> nat -> nat -> fn2) (HT : hyper K Te M D) (HP : forall t, (0 <= t <= Te)%R -> per (D t 0%nat 0%nat)).
Context (g : Z -> R) (lim slack : R) (Hg : fine g lim slack) (dt : R) (D0 : (0 <= dt)%R) (Dd : (36 * K * dt <= lim * d ^ 4)%R).
Local Notation at_cells := (at_cells S D).
Definition LE : R := (K * dt * M * (3600 * d ^ 2 + 2 * d ^ 4 + 64 * slack))%R.
Lemma step_ok : (dt * (6 * k2 / (d * d) + 36 * k4 / (d * d * (d * d))) <= lim)%R.
Proof.
  rewrite (Rmax_left 0 (eddy_diff2 P)), (Rmax_right 0 (eddy_diff4 P)) by (try exact H2; now apply Rlt_le). assert (D4 : (0 < d * d * (d * d))%R) by (apply Rmult_lt_0_compat; exact Dp).
  apply (Rmult_le_reg_r (d * d * (d * d))); [exact D4|]. cbn [F RA] in *.
  replace (dt * (6 * 0 / (d * d) + 36 * K / (d * d * (d * d))) * (d * d * (d * d)))%R with (36 * K * dt)%R by (field; exact Dn). eapply Rle_trans; [exact Dd|]. right. ring.
Qed.
Lemma nrm_comb a f B : (0 <= B)%R -> (nrm f <= B)%R -> (nrm (fun c => a * f c) <= Rabs a * B)%R.
Proof. intros B0 HB. apply (nrm_scal_le V dot dot_ext dot_sym dot_lin dot_pos); [apply Rle_refl|exact HB]. Qed.
Lemma nrm_add f f' B B' : (nrm f <= B)%R -> (nrm f' <= B')%R -> (nrm (fun c => f c + f' c) <= B + B')%R.
Proof. intros HB HB'. eapply Rle_trans; [apply (nrm_plus V dot dot_ext dot_sym dot_lin dot_pos)|lra]. Qed.
Lemma local_error t : (0 <= t)%R -> (t + dt <= Te)%R -> (nrm (fun c => pol S m g dt (at_cells t) c - at_cells (t + dt) c) <= LE)%R.
Proof.
  intros T0 T1. assert (Tt : (0 <= t <= Te)%R) by lra. pose proof (hyper_fam K Te M D t HT Tt) as FM. pose proof (HP t Tt) as Pt.
  assert (Sm : smpC h (D t 0%nat 0%nat) (at_cells t)) by (intros c' Hc'; reflexivity).
  destruct Hg as ((L0 & G0 & G1') & L1 & G1 & G2). pose proof (M0 (D t) M FM) as M0. assert (s0 : (0 <= slack)%R) by (eapply Rle_trans; [apply Rabs_pos|exact G1]).
  set (B := (K * K * (10496 * M / (d * d)))%R).
  assert (B0 : (0 <= B)%R) by (unfold B, Rdiv; cbn [F RA] in *; repeat apply Rmult_le_pos; try lra; left; now apply Rinv_0_lt_compat).
  set (w := lpow S m 2 (at_cells t)).
  assert (W : (nrm w <= B)%R).
  { apply nrm_max; [exact B0|]. intros c' Hc'. unfold w. rewrite (smp_lop2 (D t 0%nat 0%nat)) by assumption. apply abs_mul; [|apply (LLLL_small d Dn (D t) M FM)]. rewrite Rabs_right; [lra|]. cbn [F RA] in *. nra. }
  assert (WK : forall k, (nrm (fun c => dt ^ k * lpow S m k w c) <= lim ^ k * B)%R).
  { intros k. eapply Rle_trans; [apply (nrm_pow g lim (proj1 Hg) dt D0 step_ok)|]. apply Rmult_le_compat_l; [apply pow_le; lra|exact W]. }
  assert (KM : (0 <= K * dt * M)%R) by (cbn [F RA] in *; repeat apply Rmult_le_pos; lra).
  assert (KD : (Rabs (K * dt) <= K * dt)%R) by (rewrite Rabs_right; [lra|]; cbn [F RA] in *; apply Rle_ge, Rmult_le_pos; lra).
  set (r := fun c => (- (K * dt * ((g 1%Z - 1) * LA d (LA d (u (D t))) (hxc h c) (hyc h c))) - K * dt * (LA d (LA d (u (D t))) (hxc h c) (hyc h c) - bil (D t) (hxc h c) (hyc h c)) - (at_cells (t + dt)%R c - at_cells t c + dt * (K * bil (D t) (hxc h c) (hyc h c))))%R).
  assert (RB : (nrm r <= K * dt * (slack * (64 * M)) + K * dt * (160 * M * d ^ 2) + 16 * K * K * M * dt * dt)%R).
  { apply nrm_max.
    - pose proof (pow2_ge_0 d). cbn [F RA] in *. apply Rplus_le_le_0_compat; [apply Rplus_le_le_0_compat|]; repeat apply Rmult_le_pos; lra.
    - intros c Hc. pose proof (LL_consistent d Dn (D t) M FM (hxc h c) (hyc h c)) as C1. pose proof (LL_small d Dn (D t) M FM (hxc h c) (hyc h c)) as C2.
      pose proof (hyper_taylor K Te M D t dt (hxc h c) (hyc h c) HT ltac:(cbn [F RA] in *; lra) T0 D0 T1) as C3.
      unfold r. apply abs_dif; [apply abs_dif|exact C3].
      + rewrite Rabs_Ropp. apply abs_mul; [exact KD|apply abs_mul; [exact G1|exact C2]].
      + apply abs_mul; [exact KD|exact C1]. }
  rewrite (nrm_ext V dot dot_ext dot_sym _ (fun c => r c + ((dt * dt * g 2%Z) * (dt ^ 0 * lpow S m 0 w c) + ((dt * dt * g 3%Z) * (dt ^ 1 * lpow S m 1 w c) + ((dt * dt * g 4%Z) * (dt ^ 2 * lpow S m 2 w c) + (dt * dt * g 5%Z) * (dt ^ 3 * lpow S m 3 w c)))))%R).
  2:{ intros c Hc. unfold pol, r. change (lpow S m 1 (at_cells t) c) with (lop S m (at_cells t) c). rewrite (smp_lop (D t 0%nat 0%nat)) by assumption. rewrite G0. unfold w. cbn [lpow]. unfold u. ring. }
  assert (C0 : forall k x, (nrm (fun c => (dt * dt * x) * (dt ^ k * lpow S m k w c)) <= dt * dt * B * (lim ^ k * Rabs x))%R).
  { intros k x. eapply Rle_trans; [apply nrm_comb; [|apply (WK k)]; apply Rmult_le_pos; [apply pow_le; lra|exact B0]|]. rewrite Rabs_mult, (Rabs_right (dt * dt)) by (apply Rle_ge, Rmult_le_pos; lra). right. ring. }
  eapply Rle_trans; [apply nrm_add; [exact RB|apply nrm_add; [apply C0|apply nrm_add; [apply C0|apply nrm_add; apply C0]]]|].
  assert (Q0 : (dt * dt * B * (lim ^ 0 * Rabs (g 2%Z)) + (dt * dt * B * (lim ^ 1 * Rabs (g 3%Z)) + (dt * dt * B * (lim ^ 2 * Rabs (g 4%Z)) + dt * dt * B * (lim ^ 3 * Rabs (g 5%Z)))) <= dt * dt * B * (26 / 10))%R).
  { replace (dt * dt * B * (lim ^ 0 * Rabs (g 2%Z)) + (dt * dt * B * (lim ^ 1 * Rabs (g 3%Z)) + (dt * dt * B * (lim ^ 2 * Rabs (g 4%Z)) + dt * dt * B * (lim ^ 3 * Rabs (g 5%Z)))))%R
      with (dt * dt * B * (Rabs (g 2%Z) + lim * Rabs (g 3%Z) + lim ^ 2 * Rabs (g 4%Z) + lim ^ 3 * Rabs (g 5%Z)))%R by ring.
    apply Rmult_le_compat_l; [apply Rmult_le_pos; [now apply Rmult_le_pos|exact B0]|exact G2]. }
  assert (D8 : (8 * K * dt <= d ^ 4)%R).
  { assert (P4 : (0 <= d ^ 4)%R) by (replace (d ^ 4)%R with ((d * d) * (d * d))%R by ring; apply Rle_0_sqr). assert (lim * d ^ 4 <= 45 / 10 * d ^ 4)%R by (apply Rmult_le_compat_r; assumption). cbn [F RA] in *. lra. }
  assert (Q1 : (dt * dt * B * (26 / 10) <= K * dt * M * (3412 * d ^ 2))%R).
  { unfold B. cbn [F RA] in *. replace (dt * dt * (K * K * (10496 * M / (d * d))) * (26 / 10))%R with (K * dt * M * (26 / 10 * 1312 * (8 * K * dt / (d * d))))%R by (field; exact Dn).
    apply Rmult_le_compat_l; [exact KM|]. assert (8 * K * dt / (d * d) <= d ^ 2)%R.
    { apply (Rmult_le_reg_r (d * d)); [exact Dp|]. unfold Rdiv. rewrite Rmult_assoc, Rinv_l, Rmult_1_r by lra. eapply Rle_trans; [exact D8|]. right. ring. }
    pose proof (pow2_ge_0 d). lra. }
  assert (Q2 : (16 * K * K * M * dt * dt <= K * dt * M * (2 * d ^ 4))%R).
  { replace (16 * K * K * M * dt * dt)%R with (K * dt * M * (2 * (8 * K * dt)))%R by ring. apply Rmult_le_compat_l; [exact KM|]. lra. }
  assert (Q3 : (0 <= K * dt * M * d ^ 2)%R) by (apply Rmult_le_pos; [exact KM|apply pow2_ge_0]).
  unfold LE. cbn [F RA] in *. lra.
Qed.
Lemma run_error (l : list (R * R)) : (forall s, In s l -> snd s = dt) -> forall (t e : R) (phi : Z -> R), (0 <= t)%R -> (t + INR (length l) * dt <= Te)%R ->
  (nrm (fun c => phi c - at_cells t c) <= e)%R ->
  (nrm (fun c => prun S m g l phi c - at_cells (t + INR (length l) * dt) c) <= e + INR (length l) * LE)%R.
Proof.
  induction l as [|s l IH]; intros Hl t e phi T0 T1 He.
  - cbn [length INR prun fold_left]. rewrite !Rmult_0_l, !Rplus_0_r. exact He.
  - cbn [length] in T1 |- *. rewrite S_INR in *. cbn [prun fold_left]. pose proof (Hl s (or_introl eq_refl)) as Es. rewrite Es.
    pose proof (pos_INR (length l)) as Ln. assert (Ld : (0 <= INR (length l) * dt)%R) by (apply Rmult_le_pos; lra).
    assert (G : (nrm (fun c => pol S m g dt phi c - at_cells (t + dt) c) <= e + LE)%R).
    { rewrite (nrm_ext V dot dot_ext dot_sym _ (fun c => pol S m g dt (fun c => phi c - at_cells t c)%R c + (pol S m g dt (at_cells t) c - at_cells (t + dt) c))%R)
        by (intros c Hc; rewrite (pol_sub S Hok Hdc m Hr HX Hev) by exact Hc; ring).
      apply nrm_add.
      - eapply Rle_trans; [apply (pol_stable g lim (proj1 Hg) dt D0 step_ok)|exact He].
      - apply local_error; lra. }
    pose proof (IH (fun s Hs => Hl s (or_intror Hs)) (t + dt)%R (e + LE)%R (pol S m g dt phi) ltac:(lra) ltac:(lra) G) as Q.
    replace (t + (INR (length l) + 1) * dt)%R with (t + dt + INR (length l) * dt)%R by ring.
    replace (e + (INR (length l) + 1) * LE)%R with (e + LE + INR (length l) * LE)%R by ring. exact Q.
Qed.
End Hyper.

Lemma C102_mean_square_never_grows_proof :
  forall (st : stepper) (lim : R), (st = RK4 /\ lim = 278 / 100 \/ st = LSRK 5 /\ lim = 45 / 10 \/ st = LSRK 1 /\ lim = 2)%R ->
  forall (S : setup RA), setup_ok S -> let h0 := mesh_of_setup S in let d := (dc h0 : R) in
  let kappa2 := Rmax 0 (eddy_diff2 (par_of S)) in let kappa4 := Rmax 0 (eddy_diff4 (par_of S)) in
  2 <= nx h0 -> Z.even (ny h0) = true -> (0 < d)%R -> hook S = None ->
  forall (H : R) (tr : Z -> fn2) (steps : list (R * R)), H <> 0%R ->
  (forall t dt, In (t, dt) steps -> (0 <= dt /\ dt * (6 * kappa2 / d ^ 2 + 36 * kappa4 / d ^ 4) <= lim)%R) ->
  always (sdims S) (program S st (mkInitial (A:=RA) (fun _ _ => H) (fun _ _ => 0%R) (fun _ _ => 0%R) tr) steps) (mzero RA) (fun m' =>
    forall l k, 0 <= l < ntracers (par_of S) -> 0 <= k < d_nlayers (sdims S) ->
    (rsum (d_ncells (sdims S)) (fun c => (mr m' (TrCell St) [l; c; k]) ^ 2) <= rsum (d_ncells (sdims S)) (fun c => (tr l (mr m' XCell [c]) (mr m' YCell [c])) ^ 2))%R).
Proof.
  intros st lim Hst S Hok h0 d kappa2 kappa4 HX Hev Hdc Hf H tr steps H0 Dd.
  set (Q := fun m' : mem RA => forall l k, 0 <= l < ntracers (par_of S) -> 0 <= k < d_nlayers (sdims S) ->
    (rsum (d_ncells (sdims S)) (fun c => (mr m' (TrCell St) [l; c; k]) ^ 2) <= rsum (d_ncells (sdims S)) (fun c => (tr l (mr m' XCell [c]) (mr m' YCell [c])) ^ 2))%R).
  eapply always_weaken; [apply (program_split S Hok st _ steps (fun m m' => Q m'))|intros m' (m & _ & QQ); exact QQ].
  intros m Hx. destruct (prologue_spec S Hok st _ m Hx) as (Hr & Z & I). pose proof (HY S Hok Hev) as HYY.
  assert (Hz : disabled_zero S Tend m) by (intros k Hk; destruct (Z k Hk) as (Z1 & Z2 & _); split; intros _; auto).
  assert (Ry : rest S (fun _ => H) (fld St m)).
  { intros j Hj. destruct (I j Hj) as (I1 & I2 & _). cbn in I1, I2. split; [intros c Hc; now apply I1|]. intros e He. change (mr m (VnEdge St) [e; j] = 0%R). rewrite I2 by exact He. apply Rminus_diag_uniq. cbn [F RA]. ring. }
  pose proof (ready_hex S Hok m Hr) as Hm. assert (Dn : (d <> 0)%R) by (apply Rgt_not_eq; exact Hdc).
  assert (Dd' : forall t dt, In (t, dt) steps -> (0 <= dt /\ dt * (6 * kappa2 / (d * d) + 36 * kappa4 / (d * d * (d * d))) <= lim)%R).
  { intros t dt Hi. destruct (Dd t dt Hi) as [A B]. split; [exact A|]. replace (d * d)%R with (d ^ 2)%R by ring. replace (d ^ 2 * d ^ 2)%R with (d ^ 4)%R by ring. exact B. }
  assert (G : forall g y' M' N', within g lim -> ran S m (fun _ => H) g steps (fld St m) y' -> holds S St N' y' -> meq M' N' -> cst m M' -> Q M').
  { intros g y' M' N' Hg [_ E] Hy [_ EM] C l k Hl Hk. destruct (I k Hk) as (_ & _ & I3). cbn in I3. destruct (Hy k Hk) as (_ & _ & E3).
    pose proof (prun_stable S Hok Hdc m Hr HX Hev g lim steps Hg Dd' (slice (fld St m) l k)) as R0.
    unfold LaxAbs.nrm in R0. apply sqrt_le_0 in R0; [|apply (dot_pos S Hok HX Hev)|apply (dot_pos S Hok HX Hev)]. unfold dot in R0.
    assert (Pn : (0 < IZR (d_ncells (sdims S)))%R) by apply (NC_pos S Hok HX Hev).
    apply Rmult_le_reg_l in R0; [|now apply Rinv_0_lt_compat].
    rewrite (rsum_ext _ _ (fun c => prun S m g steps (slice (fld St m) l k) c * prun S m g steps (slice (fld St m) l k) c)%R); [rewrite (rsum_ext _ (fun c => tr l _ _ ^ 2)%R (fun c => slice (fld St m) l k c * slice (fld St m) l k c)%R); [exact R0|]|].
    - intros c Hc. change (slice (fld St m) l k c) with (mr m (TrCell St) [l; c; k]). rewrite I3 by assumption.
      rewrite (mget_r M' m XCell [c]), (mget_r M' m YCell [c]) by now apply C. ring.
    - intros c Hc. rewrite EM, E3 by assumption. change (ft y' l c k) with (slice y' l k c). rewrite E by assumption. ring. }
  assert (Cst : forall M', meq M' (run_fn S st steps m) -> cst m M').
  { intros M' EM. eapply cst_meq; [exact EM|]. destruct st; [apply cst_rk4_run|apply cst_lsrk_run]. }
  destruct Hst as [(-> & ->) | [(-> & ->) | (-> & ->)]].
  - eapply always_fn; [apply rd_rk4_run; auto|]. intros M' E.
    destruct (rk4_ran S Hok Hdc m Hr HX HYY Hf (fun _ => H) (fun _ _ => H0) steps m (fld St m) Hr Hz (holds_fld S St m) Ry) as (y' & A' & B').
    eapply G; [exact (proj1 fine_rk4)|exact B'|exact A'|exact E|now apply Cst].
  - eapply always_fn; [apply rd_lsrk_run; auto|]. intros M' E.
    destruct (lsrk_ran S Hok Hdc m Hr HX HYY Hf (fun _ => H) (fun _ _ => H0) 5 steps m (fld St m) ltac:(lia) Hr (holds_fld S St m) Ry) as (y' & A' & B').
    eapply G; [exact (proj1 fine_lsrk5)|exact B'|exact A'|exact E|now apply Cst].
  - eapply always_fn; [apply rd_lsrk_run; auto|]. intros M' E.
    destruct (lsrk_ran S Hok Hdc m Hr HX HYY Hf (fun _ => H) (fun _ _ => H0) 1 steps m (fld St m) ltac:(lia) Hr (holds_fld S St m) Ry) as (y' & A' & B').
    eapply G; [exact (proj1 fine_euler)|exact B'|exact A'|exact E|now apply Cst].
Qed.

Lemma C102_hyperdiffusion_converges_proof :
  forall (st : stepper) (lim slack : R), (st = RK4 /\ lim = 278 / 100 /\ slack = 0 \/ st = LSRK 5 /\ lim = 45 / 10 /\ slack = 1 / 10 ^ 25 \/ st = LSRK 1 /\ lim = 2 /\ slack = 0)%R ->
  forall (S : setup RA), setup_ok S -> let h0 := mesh_of_setup S in let d := (dc h0 : R) in let kappa := (eddy_diff4 (par_of S) : R) in
  2 <= nx h0 -> Z.even (ny h0) = true -> (0 < d)%R -> hook S = None -> (0 < kappa)%R -> ((eddy_diff2 (par_of S) : R) <= 0)%R ->
  forall (H Te M : R) (D : R -> nat -> nat -> fn2), H <> 0%R -> hyper kappa Te M D ->
  (forall t, (0 <= t <= Te)%R -> periodic (period_x h0) (period_y h0) (D t 0%nat 0%nat)) ->
  forall (dt : R) (N : Z) (tr : Z -> fn2), 0 <= N -> (0 <= dt)%R -> (36 * kappa * dt <= lim * d ^ 4)%R -> (IZR N * dt <= Te)%R ->
  always (sdims S) (program S st (mkInitial (A:=RA) (fun _ _ => H) (fun _ _ => 0%R) (fun _ _ => 0%R) tr) (loop_steps (A:=RA) N dt)) (mzero RA) (fun m' =>
    forall l k, 0 <= l < ntracers (par_of S) -> 0 <= k < d_nlayers (sdims S) ->
    (forall x y, tr l x y = D 0%R 0%nat 0%nat x y) ->
    let err c := (mr m' (TrCell St) [l; c; k] - D (IZR N * dt) 0%nat 0%nat (mr m' XCell [c]) (mr m' YCell [c]))%R in
    (sqrt (rsum (d_ncells (sdims S)) (fun c => err c * err c) / IZR (d_ncells (sdims S))) <= kappa * (IZR N * dt) * M * (3600 * d ^ 2 + 2 * d ^ 4 + 64 * slack))%R).
Proof.
  intros st lim slack Hst S Hok h0 d kappa HX Hev Hdc Hf H4 H2 H Te M D H0 HT HP dt N tr HN D0 Dd HTe.
  set (steps := loop_steps (A:=RA) N dt : list (R * R)).
  set (Q := fun m' : mem RA => forall l k, 0 <= l < ntracers (par_of S) -> 0 <= k < d_nlayers (sdims S) ->
    (forall x y, tr l x y = D 0%R 0%nat 0%nat x y) ->
    let err c := (mr m' (TrCell St) [l; c; k] - D (IZR N * dt) 0%nat 0%nat (mr m' XCell [c]) (mr m' YCell [c]))%R in
    (sqrt (rsum (d_ncells (sdims S)) (fun c => err c * err c) / IZR (d_ncells (sdims S))) <= kappa * (IZR N * dt) * M * (3600 * d ^ 2 + 2 * d ^ 4 + 64 * slack))%R).
  eapply always_weaken; [apply (program_split S Hok st _ steps (fun m m' => Q m'))|intros m' (m & _ & QQ); exact QQ].
  intros m Hx. destruct (prologue_spec S Hok st _ m Hx) as (Hr & Z & I). pose proof (HY S Hok Hev) as HYY.
  assert (Hz : disabled_zero S Tend m) by (intros k Hk; destruct (Z k Hk) as (Z1 & Z2 & _); split; intros _; auto).
  assert (Ry : rest S (fun _ => H) (fld St m)).
  { intros j Hj. destruct (I j Hj) as (I1 & I2 & _). cbn in I1, I2. split; [intros c Hc; now apply I1|]. intros e He. change (mr m (VnEdge St) [e; j] = 0%R). rewrite I2 by exact He. apply Rminus_diag_uniq. cbn [F RA]. ring. }
  assert (EL : length steps = Z.to_nat N) by (unfold steps, loop_steps; rewrite map_length; unfold zseq; now rewrite map_length, seq_length).
  assert (IN : INR (length steps) = IZR N) by (rewrite EL, INR_IZR_INZ, Z2Nat.id by lia; reflexivity).
  pose proof (ready_hex S Hok m Hr) as Hm.
  assert (G : forall g y' M' N', fine g lim slack -> ran S m (fun _ => H) g steps (fld St m) y' -> holds S St N' y' -> meq M' N' -> cst m M' -> Q M').
  { intros g y' M' N' Hg [_ E] Hy [_ EM] C l k Hl Hk Htr err. destruct (I k Hk) as (_ & _ & I3). cbn in I3.
    assert (IC : (LaxAbs.nrm (dot S) (fun c => slice (fld St m) l k c - at_cells S D 0 c) <= 0)%R).
    { apply (nrm_max S Hok Hdc HX Hev); [lra|]. intros c' Hc'. change (slice (fld St m) l k c') with (mr m (TrCell St) [l; c'; k]). rewrite I3 by assumption. rewrite Htr, (hm_xc _ _ _ Hm), (hm_yc _ _ _ Hm) by exact Hc'.
      unfold at_cells. rewrite Rminus_diag_eq by reflexivity. rewrite Rabs_R0. lra. }
    assert (TE0 : (0 + INR (length steps) * dt <= Te)%R) by (rewrite IN; lra).
    pose proof (run_error S Hok Hdc m Hr HX Hev H2 H4 Te M D HT HP g lim slack Hg dt D0 Dd steps (loop_snd N dt) 0%R 0%R (slice (fld St m) l k) (Rle_refl 0) TE0 IC) as R0.
    rewrite IN, !Rplus_0_l in R0. apply Rle_trans with (IZR N * LE S M slack dt)%R; [|right; unfold LE, kappa, d, h0; ring].
    eapply Rle_trans; [|exact R0]. right. unfold LaxAbs.nrm, dot. f_equal. unfold Rdiv. rewrite Rmult_comm. f_equal. apply rsum_ext. intros c Hc.
    assert (EE : err c = (prun S m g steps (slice (fld St m) l k) c - at_cells S D (IZR N * dt) c)%R); [|now rewrite EE].
    unfold err. rewrite EM. destruct (Hy k Hk) as (_ & _ & E3). rewrite E3 by assumption.
    change (ft y' l c k) with (slice y' l k c). rewrite E by assumption.
    rewrite (mget_r M' m XCell [c]), (mget_r M' m YCell [c]) by now apply C. rewrite (hm_xc _ _ _ Hm), (hm_yc _ _ _ Hm) by exact Hc. reflexivity. }
  assert (Cst : forall M', meq M' (run_fn S st steps m) -> cst m M').
  { intros M' EM. eapply cst_meq; [exact EM|]. destruct st; [apply cst_rk4_run|apply cst_lsrk_run]. }
  destruct Hst as [(-> & -> & ->) | [(-> & -> & ->) | (-> & -> & ->)]].
  - eapply always_fn; [apply rd_rk4_run; auto|]. intros M' E.
    destruct (rk4_ran S Hok Hdc m Hr HX HYY Hf (fun _ => H) (fun _ _ => H0) steps m (fld St m) Hr Hz (holds_fld S St m) Ry) as (y' & A' & B').
    eapply G; [exact fine_rk4|exact B'|exact A'|exact E|now apply Cst].
  - eapply always_fn; [apply rd_lsrk_run; auto|]. intros M' E.
    destruct (lsrk_ran S Hok Hdc m Hr HX HYY Hf (fun _ => H) (fun _ _ => H0) 5 steps m (fld St m) ltac:(lia) Hr (holds_fld S St m) Ry) as (y' & A' & B').
    eapply G; [exact fine_lsrk5|exact B'|exact A'|exact E|now apply Cst].
  - eapply always_fn; [apply rd_lsrk_run; auto|]. intros M' E.
    destruct (lsrk_ran S Hok Hdc m Hr HX HYY Hf (fun _ => H) (fun _ _ => H0) 1 steps m (fld St m) ltac:(lia) Hr (holds_fld S St m) Ry) as (y' & A' & B').
    eapply G; [exact fine_euler|exact B'|exact A'|exact E|now apply Cst].
Qed.

Lemma mixes_rk4 : mixes g_rk4.
Proof. split; [reflexivity|]. intros i. pose proof (mix_rk4 i) as Q. unfold g_rk4. match type of Q with (_ <= bc ?a ?b ?c ?d ?e i)%R => match goal with |- (_ <= bc ?a' ?b' ?c' ?d' ?e' i)%R => replace a' with a by lra; replace b' with b by lra; replace c' with c by lra; replace d' with d by lra; replace e' with e by lra end end. exact Q. Qed.
Lemma mixes_euler : mixes g_euler.
Proof. split; [reflexivity|]. intros i. pose proof (mix_euler i) as Q. unfold g_euler. match type of Q with (_ <= bc ?a ?b ?c ?d ?e i)%R => match goal with |- (_ <= bc ?a' ?b' ?c' ?d' ?e' i)%R => replace a' with a by lra; replace b' with b by lra; replace c' with c by lra; replace d' with d by lra; replace e' with e by lra end end. exact Q. Qed.
Lemma mixes_lsrk5 : mixes g_lsrk5.
Proof. pose proof g5_order as (G0 & G1 & G2 & G3 & G4 & G5). split; [exact G0|]. exact (mix_lsrk5 _ _ _ _ _ G1 G2 G3 G4 g5_last). Qed.

Lemma C103_tracers_mix_proof :
  forall (st : stepper), (st = RK4 \/ st = LSRK 5 \/ st = LSRK 1) ->
  forall (S : setup RA), setup_ok S -> let h0 := mesh_of_setup S in let d := (dc h0 : R) in
  let kappa2 := Rmax 0 (eddy_diff2 (par_of S)) in let kappa4 := Rmax 0 (eddy_diff4 (par_of S)) in
  let L := (d * IZR (Z.max (nx h0) (ny h0)))%R in let lambda := (2 / (3 * L ^ 2))%R in
  2 <= nx h0 -> Z.even (ny h0) = true -> (0 < d)%R -> hook S = None ->
  forall (H : R) (tr : Z -> fn2) (steps : list (R * R)), H <> 0%R ->
  (forall t dt, In (t, dt) steps -> (0 <= dt /\ dt * (6 * kappa2 / d ^ 2 + 36 * kappa4 / d ^ 4) <= 1)%R) ->
  let T := fold_right Rplus 0%R (map snd steps) in
  always (sdims S) (program S st (mkInitial (A:=RA) (fun _ _ => H) (fun _ _ => 0%R) (fun _ _ => 0%R) tr) steps) (mzero RA) (fun m' =>
    forall l k, 0 <= l < ntracers (par_of S) -> 0 <= k < d_nlayers (sdims S) ->
    let n := d_ncells (sdims S) in let start c := tr l (mr m' XCell [c]) (mr m' YCell [c]) in let mean := (rsum n start / IZR n)%R in
    (rsum n (fun c => (mr m' (TrCell St) [l; c; k] - mean) ^ 2) <= exp (- (4 / 5 * (kappa2 * lambda + kappa4 * lambda ^ 2)) * T) * rsum n (fun c => (start c - mean) ^ 2))%R).
Proof.
  intros st Hst S Hok h0 d kappa2 kappa4 L lambda HX Hev Hdc Hf H tr steps H0 Dd T.
  set (Q := fun m' : mem RA => forall l k, 0 <= l < ntracers (par_of S) -> 0 <= k < d_nlayers (sdims S) ->
    let n := d_ncells (sdims S) in let start c := tr l (mr m' XCell [c]) (mr m' YCell [c]) in let mean := (rsum n start / IZR n)%R in
    (rsum n (fun c => (mr m' (TrCell St) [l; c; k] - mean) ^ 2) <= exp (- (4 / 5 * (kappa2 * lambda + kappa4 * lambda ^ 2)) * T) * rsum n (fun c => (start c - mean) ^ 2))%R).
  eapply always_weaken; [apply (program_split S Hok st _ steps (fun m m' => Q m'))|intros m' (m & _ & QQ); exact QQ].
  intros m Hx. destruct (prologue_spec S Hok st _ m Hx) as (Hr & Z & I). pose proof (HY S Hok Hev) as HYY.
  assert (Hz : disabled_zero S Tend m) by (intros k Hk; destruct (Z k Hk) as (Z1 & Z2 & _); split; intros _; auto).
  assert (Ry : rest S (fun _ => H) (fld St m)).
  { intros j Hj. destruct (I j Hj) as (I1 & I2 & _). cbn in I1, I2. split; [intros c Hc; now apply I1|]. intros e He. change (mr m (VnEdge St) [e; j] = 0%R). rewrite I2 by exact He. apply Rminus_diag_uniq. cbn [F RA]. ring. }
  pose proof (ready_hex S Hok m Hr) as Hm. assert (Dn : (d <> 0)%R) by (apply Rgt_not_eq; exact Hdc).
  assert (Dd' : forall t dt, In (t, dt) steps -> (0 <= dt /\ dt * (6 * kappa2 / (d * d) + 36 * kappa4 / (d * d * (d * d))) <= 1)%R).
  { intros t dt Hi. destruct (Dd t dt Hi) as [A B]. split; [exact A|]. replace (d * d)%R with (d ^ 2)%R by ring. replace (d ^ 2 * d ^ 2)%R with (d ^ 4)%R by ring. exact B. }
  assert (G : forall g y' M' N', mixes g -> ran S m (fun _ => H) g steps (fld St m) y' -> holds S St N' y' -> meq M' N' -> cst m M' -> Q M').
  { intros g y' M' N' Hg [_ E] Hy [_ EM] C l k Hl Hk n start mean. destruct (I k Hk) as (_ & _ & I3). cbn in I3. destruct (Hy k Hk) as (_ & _ & E3).
    assert (Pn : (0 < IZR n)%R) by apply (NC_pos S Hok HX Hev).
    assert (Es : forall c, 0 <= c < n -> start c = slice (fld St m) l k c).
    { intros c Hc. change (slice (fld St m) l k c) with (mr m (TrCell St) [l; c; k]). rewrite I3 by assumption. unfold start. now rewrite (mget_r M' m XCell [c]), (mget_r M' m YCell [c]) by now apply C. }
    assert (Z0 : rsum n (fun c => slice (fld St m) l k c - mean)%R = 0%R).
    { rewrite (rsum_ext n _ (fun c => start c - mean)%R) by (intros c Hc; now rewrite Es). rewrite rsum_minus, rsum_const by (apply le_IZR; lra). unfold mean. field. lra. }
    pose proof (prun_mixes S Hok Hdc m Hr HX Hev g steps Hg Dd' (slice (fld St m) l k) mean Z0) as R0.
    unfold dot in R0. change (mrate S) with (4 / 5 * (kappa2 * lambda + kappa4 * lambda ^ 2))%R in R0. fold T in R0. rewrite <- Rmult_assoc, (Rmult_comm (exp _)), Rmult_assoc in R0. apply Rmult_le_reg_l in R0; [|now apply Rinv_0_lt_compat].
    rewrite (rsum_ext n (fun c => (mr M' (TrCell St) [l; c; k] - mean) ^ 2)%R (fun c => (prun S m g steps (slice (fld St m) l k) c - mean) * (prun S m g steps (slice (fld St m) l k) c - mean))%R);
      [rewrite (rsum_ext n (fun c => (start c - mean) ^ 2)%R (fun c => (slice (fld St m) l k c - mean) * (slice (fld St m) l k c - mean))%R); [exact R0|]|].
    - intros c Hc. rewrite Es by exact Hc. ring.
    - intros c Hc. rewrite EM, E3 by assumption. change (ft y' l c k) with (slice y' l k c). rewrite E by assumption. ring. }
  assert (Cst : forall M', meq M' (run_fn S st steps m) -> cst m M').
  { intros M' EM. eapply cst_meq; [exact EM|]. destruct st; [apply cst_rk4_run|apply cst_lsrk_run]. }
  destruct Hst as [-> | [-> | ->]].
  - eapply always_fn; [apply rd_rk4_run; auto|]. intros M' E.
    destruct (rk4_ran S Hok Hdc m Hr HX HYY Hf (fun _ => H) (fun _ _ => H0) steps m (fld St m) Hr Hz (holds_fld S St m) Ry) as (y' & A' & B').
    eapply G; [exact mixes_rk4|exact B'|exact A'|exact E|now apply Cst].
  - eapply always_fn; [apply rd_lsrk_run; auto|]. intros M' E.
    destruct (lsrk_ran S Hok Hdc m Hr HX HYY Hf (fun _ => H) (fun _ _ => H0) 5 steps m (fld St m) ltac:(lia) Hr (holds_fld S St m) Ry) as (y' & A' & B').
    eapply G; [exact mixes_lsrk5|exact B'|exact A'|exact E|now apply Cst].
  - eapply always_fn; [apply rd_lsrk_run; auto|]. intros M' E.
    destruct (lsrk_ran S Hok Hdc m Hr HX HYY Hf (fun _ => H) (fun _ _ => H0) 1 steps m (fld St m) ltac:(lia) Hr (holds_fld S St m) Ry) as (y' & A' & B').
    eapply G; [exact mixes_euler|exact B'|exact A'|exact E|now apply Cst].
Qed.
