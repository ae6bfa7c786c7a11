(** Differentiable functionals of the prognostic fields: a linear part that is bounded and Lipschitz, and a quadratic
    remainder.  The tendency consists of such functionals. *)
From Coq Require Import ZArith Reals List Bool Lia Lra.
From Verif Require Import Arith Arrays Prog Conc Launch Mesh AuxVars Tend Model Hex RSum Spec MeshProof MeshMem MeshR KernBase Ready StepFn StepVal StepRun StepThms RealTend FieldInv Vort Sim SimThms Driver DriverFn Lip.
Import ListNotations.
Open Scope Z_scope.

Section Diff.
Context (S : setup RA) (B de : R) (Hde : (0 < de)%R).
Local Notation box := (box S B de).
Local Notation close := (close S).
Definition vec := plc -> R.
Definition vb (b : R) (v : vec) : Prop := forall p, vplc S p -> (Rabs (v p) <= b)%R.
Definition vsub (z y : fields RA) : vec := fun p => (val z p - val y p)%R.
Definition DLM (M : R) (f : fields RA -> R) (D : fields RA -> vec -> R) : Prop :=
  (forall y, box y -> (Rabs (f y) <= M)%R) /\
  (forall y z d, box y -> box z -> (0 <= d)%R -> close d y z -> (Rabs (f y - f z) <= M * d)%R) /\
  (forall y z d, box y -> box z -> (0 <= d)%R -> close d z y -> (Rabs (f z - f y - D y (vsub z y)) <= M * (d * d))%R) /\
  (forall y v b, box y -> (0 <= b)%R -> vb b v -> (Rabs (D y v) <= M * b)%R) /\
  (forall y z v d b, box y -> box z -> (0 <= d)%R -> (0 <= b)%R -> close d y z -> vb b v -> (Rabs (D y v - D z v) <= M * (d * b))%R) /\
  (forall y a b u v, D y (fun p => a * u p + b * v p)%R = (a * D y u + b * D y v)%R).
Definition DL f D : Prop := exists M, (0 <= M)%R /\ DLM M f D.
Definition DF (f : fields RA -> R) : Type := {D : fields RA -> vec -> R | DL f D}.
Lemma DLM_le M N f D : (M <= N)%R -> DLM M f D -> DLM N f D.
Proof.
  intros H (A1 & A2 & A3 & A4 & A5 & A6). split; [|split; [|split; [|split; [|split]]]].
  - intros y Hy. specialize (A1 y Hy). lra.
  - intros y z d Hy Hz Hd Hc. specialize (A2 y z d Hy Hz Hd Hc). nra.
  - intros y z d Hy Hz Hd Hc. specialize (A3 y z d Hy Hz Hd Hc). assert (0 <= d * d)%R by nra. nra.
  - intros y v b Hy Hb Hv. specialize (A4 y v b Hy Hb Hv). nra.
  - intros y z v d b Hy Hz Hd Hb Hc Hv. specialize (A5 y z v d b Hy Hz Hd Hb Hc Hv). assert (0 <= d * b)%R by nra. nra.
  - exact A6.
Qed.
Lemma DL_const c : DL (fun _ => c) (fun _ _ => 0%R).
Proof.
  exists (Rabs c). pose proof (Rabs_pos c). split; [assumption|]. split; [intros; lra|]. split; [|split; [|split; [|split]]]; intros; try ring; rewrite ?(Rminus_diag_eq c c eq_refl), ?Rminus_0_r, Rabs_R0; repeat apply Rmult_le_pos; assumption.
Qed.
Lemma DL_val p : vplc S p -> DL (fun y => val y p) (fun _ v => v p).
Proof.
  intros Hp. exists (Rmax 1 B). pose proof (Rmax_l 1 B). pose proof (Rmax_r 1 B). split; [lra|]. split; [|split; [|split; [|split; [|split]]]].
  - intros y [H1 _]. specialize (H1 p Hp). lra.
  - intros y z d _ _ Hd H1. specialize (H1 p Hp). nra.
  - intros y z d _ _ Hd H1. unfold vsub. rewrite Rminus_diag_eq, Rabs_R0 by reflexivity. apply Rmult_le_pos; [lra|nra].
  - intros y v b _ Hb Hv. specialize (Hv p Hp). nra.
  - intros y z v d b _ _ Hd Hb _ _. rewrite Rminus_diag_eq, Rabs_R0 by reflexivity. apply Rmult_le_pos; [lra|nra].
  - reflexivity.
Qed.
Ltac tri := eapply Rle_trans; [apply Rabs_triang|].
Lemma DL_plus f D g E : DL f D -> DL g E -> DL (fun y => f y + g y)%R (fun y v => D y v + E y v)%R.
Proof.
  intros (M & HM & A1 & A2 & A3 & A4 & A5 & A6) (N & HN & B1 & B2 & B3 & B4 & B5 & B6). exists (M + N)%R. split; [lra|]. split; [|split; [|split; [|split; [|split]]]].
  - intros y Hy. tri. specialize (A1 y Hy). specialize (B1 y Hy). lra.
  - intros y z d Hy Hz Hd Hc. specialize (A2 y z d Hy Hz Hd Hc). specialize (B2 y z d Hy Hz Hd Hc). replace (f y + g y - (f z + g z))%R with ((f y - f z) + (g y - g z))%R by ring. tri. lra.
  - intros y z d Hy Hz Hd Hc. specialize (A3 y z d Hy Hz Hd Hc). specialize (B3 y z d Hy Hz Hd Hc).
    replace (f z + g z - (f y + g y) - (D y (vsub z y) + E y (vsub z y)))%R with ((f z - f y - D y (vsub z y)) + (g z - g y - E y (vsub z y)))%R by ring. tri. lra.
  - intros y v b Hy Hb Hv. specialize (A4 y v b Hy Hb Hv). specialize (B4 y v b Hy Hb Hv). tri. lra.
  - intros y z v d b Hy Hz Hd Hb Hc Hv. specialize (A5 y z v d b Hy Hz Hd Hb Hc Hv). specialize (B5 y z v d b Hy Hz Hd Hb Hc Hv).
    replace (D y v + E y v - (D z v + E z v))%R with ((D y v - D z v) + (E y v - E z v))%R by ring. tri. lra.
  - intros. rewrite A6, B6. ring.
Qed.
Lemma DL_mult f D g E : DL f D -> DL g E -> DL (fun y => f y * g y)%R (fun y v => f y * E y v + D y v * g y)%R.
Proof.
  intros (M & HM & A1 & A2 & A3 & A4 & A5 & A6) (N & HN & B1 & B2 & B3 & B4 & B5 & B6). exists (4 * (M * N))%R. pose proof (Rmult_le_pos M N HM HN) as HMN.
  assert (MC : forall a b x y, (Rabs a <= x)%R -> (Rabs b <= y)%R -> (Rabs (a * b) <= x * y)%R) by (intros; rewrite Rabs_mult; apply Rmult_le_compat; auto using Rabs_pos).
  split; [lra|]. split; [|split; [|split; [|split; [|split]]]].
  - intros y Hy. pose proof (MC _ _ _ _ (A1 y Hy) (B1 y Hy)). lra.
  - intros y z d Hy Hz Hd Hc. pose proof (A2 y z d Hy Hz Hd Hc) as X1. pose proof (B2 y z d Hy Hz Hd Hc) as X2.
    replace (f y * g y - f z * g z)%R with ((f y - f z) * g y + f z * (g y - g z))%R by ring. tri.
    pose proof (MC _ _ _ _ X1 (B1 y Hy)). pose proof (MC _ _ _ _ (A1 z Hz) X2). assert (0 <= M * N * d)%R by (apply Rmult_le_pos; lra). lra.
  - intros y z d Hy Hz Hd Hc. assert (Hc' : close d y z) by (intros p Hp; rewrite Rabs_minus_sym; now apply Hc).
    pose proof (A2 z y d Hz Hy Hd Hc) as X1. pose proof (B2 z y d Hz Hy Hd Hc) as X2.
    pose proof (A3 y z d Hy Hz Hd Hc) as X3. pose proof (B3 y z d Hy Hz Hd Hc) as X4.
    replace (f z * g z - f y * g y - (f y * E y (vsub z y) + D y (vsub z y) * g y))%R with ((f z - f y) * (g z - g y) + f y * (g z - g y - E y (vsub z y)) + (f z - f y - D y (vsub z y)) * g y)%R by ring.
    tri. eapply Rle_trans; [apply Rplus_le_compat_r, Rabs_triang|].
    pose proof (MC _ _ _ _ X1 X2). pose proof (MC _ _ _ _ (A1 y Hy) X4). pose proof (MC _ _ _ _ X3 (B1 y Hy)). assert (0 <= M * N * (d * d))%R by (apply Rmult_le_pos; [lra|nra]). lra.
  - intros y v b Hy Hb Hv. pose proof (MC _ _ _ _ (A1 y Hy) (B4 y v b Hy Hb Hv)). pose proof (MC _ _ _ _ (A4 y v b Hy Hb Hv) (B1 y Hy)). tri. assert (0 <= M * N * b)%R by (apply Rmult_le_pos; lra). lra.
  - intros y z v d b Hy Hz Hd Hb Hc Hv. pose proof (A2 y z d Hy Hz Hd Hc) as X1. pose proof (B2 y z d Hy Hz Hd Hc) as X2.
    pose proof (A5 y z v d b Hy Hz Hd Hb Hc Hv) as X3. pose proof (B5 y z v d b Hy Hz Hd Hb Hc Hv) as X4.
    replace (f y * E y v + D y v * g y - (f z * E z v + D z v * g z))%R with (((f y - f z) * E y v + f z * (E y v - E z v)) + ((D y v - D z v) * g y + D z v * (g y - g z)))%R by ring.
    tri. eapply Rle_trans; [apply Rplus_le_compat; apply Rabs_triang|].
    pose proof (MC _ _ _ _ X1 (B4 y v b Hy Hb Hv)). pose proof (MC _ _ _ _ (A1 z Hz) X4). pose proof (MC _ _ _ _ X3 (B1 y Hy)). pose proof (MC _ _ _ _ (A4 z v b Hz Hb Hv) X2). assert (0 <= M * N * (d * b))%R by (apply Rmult_le_pos; [lra|nra]). lra.
  - intros. rewrite A6, B6. ring.
Qed.
Lemma DL_inv f D a : (0 < a)%R -> (forall y, box y -> (a <= f y)%R) -> DL f D -> DL (fun y => / f y)%R (fun y v => - (D y v * (/ f y * / f y)))%R.
Proof.
  intros Ha Hf (M & HM & A1 & A2 & A3 & A4 & A5 & A6). pose proof (Rinv_0_lt_compat a Ha) as Ia. set (i := (/ a)%R) in *.
  assert (E : forall y, box y -> (Rabs (/ f y) <= i)%R). { intros y Hy. specialize (Hf y Hy). rewrite Rabs_pos_eq; [apply Rinv_le_contravar; lra|left; apply Rinv_0_lt_compat; lra]. }
  assert (NZ : forall y, box y -> f y <> 0%R) by (intros y Hy; specialize (Hf y Hy); lra).
  assert (MC : forall a b x y, (Rabs a <= x)%R -> (Rabs b <= y)%R -> (Rabs (a * b) <= x * y)%R) by (intros; rewrite Rabs_mult; apply Rmult_le_compat; auto using Rabs_pos).
  assert (I2 : (0 <= i * i)%R) by nra. assert (I3 : (0 <= i * i * i)%R) by nra. assert (M2 : (0 <= M * M)%R) by nra.
  assert (P1 : (0 <= M * (i * i))%R) by (apply Rmult_le_pos; assumption). assert (P2 : (0 <= M * M * (i * i * i))%R) by (apply Rmult_le_pos; assumption).
  exists (i + M * (i * i) + 2 * (M * M * (i * i * i)))%R. split; [lra|]. split; [|split; [|split; [|split; [|split]]]].
  - intros y Hy. specialize (E y Hy). lra.
  - intros y z d Hy Hz Hd Hc. replace (/ f y - / f z)%R with (- ((f y - f z) * (/ f y * / f z)))%R by (field; auto). rewrite Rabs_Ropp.
    pose proof (MC _ _ _ _ (A2 y z d Hy Hz Hd Hc) (MC _ _ _ _ (E y Hy) (E z Hz))). nra.
  - intros y z d Hy Hz Hd Hc. pose proof (A2 z y d Hz Hy Hd Hc) as X1. pose proof (A3 y z d Hy Hz Hd Hc) as X3. assert (Hv : vb d (vsub z y)) by (intros p Hp; now apply Hc). pose proof (A4 y _ d Hy Hd Hv) as X4.
    replace (/ f z - / f y - - (D y (vsub z y) * (/ f y * / f y)))%R with (- ((f z - f y - D y (vsub z y)) * (/ f z * / f y)) + (D y (vsub z y) * (f z - f y)) * (/ f z * / f y * / f y))%R by (field; auto).
    tri. rewrite Rabs_Ropp. pose proof (MC _ _ _ _ X3 (MC _ _ _ _ (E z Hz) (E y Hy))). pose proof (MC _ _ _ _ (MC _ _ _ _ X4 X1) (MC _ _ _ _ (MC _ _ _ _ (E z Hz) (E y Hy)) (E y Hy))).
    assert (0 <= d * d)%R by nra. assert (0 <= i * (d * d))%R by nra. assert (0 <= M * M * (i * i * i) * (d * d))%R by (apply Rmult_le_pos; lra). nra.
  - intros y v b Hy Hb Hv. rewrite Rabs_Ropp. pose proof (MC _ _ _ _ (A4 y v b Hy Hb Hv) (MC _ _ _ _ (E y Hy) (E y Hy))). nra.
  - intros y z v d b Hy Hz Hd Hb Hc Hv. pose proof (A2 y z d Hy Hz Hd Hc) as X1. pose proof (A5 y z v d b Hy Hz Hd Hb Hc Hv) as X3. pose proof (A4 z v b Hz Hb Hv) as X4.
    replace (- (D y v * (/ f y * / f y)) - - (D z v * (/ f z * / f z)))%R with (- ((D y v - D z v) * (/ f y * / f y)) + (D z v * (f y - f z)) * (/ f y * / f y * / f z + / f y * / f z * / f z))%R by (field; auto).
    tri. rewrite Rabs_Ropp. pose proof (MC _ _ _ _ X3 (MC _ _ _ _ (E y Hy) (E y Hy))).
    assert (X5 : (Rabs (/ f y * / f y * / f z + / f y * / f z * / f z) <= 2 * (i * i * i))%R).
    { tri. pose proof (MC _ _ _ _ (MC _ _ _ _ (E y Hy) (E y Hy)) (E z Hz)). pose proof (MC _ _ _ _ (MC _ _ _ _ (E y Hy) (E z Hz)) (E z Hz)). lra. }
    pose proof (MC _ _ _ _ (MC _ _ _ _ X4 X1) X5). assert (0 <= d * b)%R by nra. assert (0 <= i * (d * b))%R by nra. nra.
  - intros. rewrite A6. ring.
Qed.
Lemma DL_ext f D g E : DL f D -> (forall y, g y = f y) -> (forall y v, E y v = D y v) -> DL g E.
Proof. intros (M & HM & A1 & A2 & A3 & A4 & A5 & A6) X Y. exists M. split; [exact HM|]. repeat split; intros; rewrite ?X, ?Y; auto. Qed.
Lemma DL_rsum n (f : Z -> fields RA -> R) D : (forall j, 0 <= j < n -> DL (f j) (D j)) -> DL (fun y => rsum n (fun j => f j y)) (fun y v => rsum n (fun j => D j y v)).
Proof.
  intros H. assert (C : n <= 0 \/ 0 <= n) by lia. destruct C as [C|C].
  - apply (DL_ext _ _ _ _ (DL_const 0)); intros; now rewrite rsum_neg.
  - revert H. pattern n. apply natlike_ind; [| |exact C].
    + intros _. apply (DL_ext _ _ _ _ (DL_const 0)); intros; now rewrite rsum_0.
    + intros j Hj IH H. apply (DL_ext _ _ _ _ (DL_plus _ _ _ _ (IH ltac:(intros; apply H; lia)) (H j ltac:(lia)))); intros; unfold Z.succ; now rewrite rsum_succ.
Qed.
Lemma DF_const c : DF (fun _ => c). Proof. eexists. apply DL_const. Qed.
Lemma DF_val p : vplc S p -> DF (fun y => val y p). Proof. intros H. eexists. apply (DL_val p H). Qed.
Lemma DF_plus f g : DF f -> DF g -> DF (fun y => f y + g y)%R. Proof. intros [D HD] [E HE]. eexists. apply DL_plus; eassumption. Qed.
Lemma DF_mult f g : DF f -> DF g -> DF (fun y => f y * g y)%R. Proof. intros [D HD] [E HE]. eexists. apply DL_mult; eassumption. Qed.
Lemma DF_ext f g : DF f -> (forall y, g y = f y) -> DF g. Proof. intros [D HD] H. exists D. eapply DL_ext; eauto. Qed.
Lemma DF_opp f : DF f -> DF (fun y => - f y)%R. Proof. intros H. apply (DF_ext _ _ (DF_mult _ _ (DF_const (-1)) H)). intros; ring. Qed.
Lemma DF_minus f g : DF f -> DF g -> DF (fun y => f y - g y)%R. Proof. intros H K. unfold Rminus. apply DF_plus; [exact H|]. now apply DF_opp. Qed.
Lemma DF_divc f c : DF f -> DF (fun y => f y / c)%R. Proof. intros H. unfold Rdiv. apply DF_mult; [exact H|apply DF_const]. Qed.
Lemma DF_div f g a : (0 < a)%R -> (forall y, box y -> (a <= g y)%R) -> DF f -> DF g -> DF (fun y => f y / g y)%R.
Proof. intros Ha Hg Hf [E HE]. unfold Rdiv. apply DF_mult; [exact Hf|]. eexists. eapply DL_inv; eassumption. Qed.
Lemma DF_rsum n (f : Z -> fields RA -> R) : (forall j, 0 <= j < n -> DF (f j)) -> DF (fun y => rsum n (fun j => f j y)).
Proof.
  intros H. assert (dec : forall j, {0 <= j < n} + {~ 0 <= j < n}). { intros j. destruct (Z_le_dec 0 j); [|right; lia]. destruct (Z_lt_dec j n); [left|right]; lia. }
  set (D := fun j => match dec j with left Hj => proj1_sig (H j Hj) | right _ => fun _ _ => 0%R end).
  exists (fun y v => rsum n (fun j => D j y v)). apply DL_rsum. intros j Hj. unfold D. destruct (dec j) as [Hj'|]; [|contradiction]. exact (proj2_sig (H j Hj')).
Qed.

(** The operators of the mesh. *)
Context (Hok : setup_ok S) (Hdc : (0 < (dc (mesh_of_setup S) : R))%R) (m : mem RA) (Hr : ready S m).
Local Notation P := (par_of S).
Local Notation NC := (nx (mesh_of_setup S) * ny (mesh_of_setup S)).
Local Notation NL := (d_nlayers (sdims S)).
Let Hw : wfm (sdims S) m := ready_wfm S Hok m Hr.
Let Hh : hexmem (mesh_of_setup S) NL m := ready_hex S Hok m Hr.
Definition DC (f : Z -> fields RA -> R) : Type := forall c, 0 <= c < NC -> DF (f c).
Definition DE (f : Z -> fields RA -> R) : Type := forall e, 0 <= e < 3 * NC -> DF (f e).
Definition DV (f : Z -> fields RA -> R) : Type := forall v, 0 <= v < 2 * NC -> DF (f v).
Lemma DC_outflow g : DE g -> DC (fun c y => outflow m (fun e => g e y) c).
Proof.
  intros H c Hc. unfold outflow. rewrite (hm_noc _ _ _ Hh) by exact Hc. cbv zeta. apply DF_divc, DF_rsum. intros j Hj. apply DF_mult; [apply DF_const|]. apply H. apply (wf_eoc _ _ Hw); assumption.
Qed.
Lemma DV_vort g : DE g -> DV (fun v y => vort m (fun e => g e y) v).
Proof.
  intros H v Hv. unfold vort, circ. cbv zeta. apply DF_divc, DF_rsum. intros j Hj. apply DF_mult; [apply DF_const|]. apply H. apply (wf_eov _ _ Hw); assumption.
Qed.
Lemma DE_grad g : DC g -> DE (fun e y => grad m (fun c => g c y) e).
Proof. intros H e He. unfold grad. apply DF_divc, DF_minus; apply H; apply (wf_coe _ _ Hw); lia || assumption. Qed.
Lemma DE_rgrad g : DV g -> DE (fun e y => rgrad m (fun c => g c y) e).
Proof. intros H e He. unfold rgrad. apply DF_divc, DF_minus; apply H; apply (wf_voe _ _ Hw); lia || assumption. Qed.
Lemma DE_emean g : DC g -> DE (fun e y => emean m (fun c => g c y) e).
Proof. intros H e He. unfold emean. apply DF_divc, DF_plus; apply H; apply (wf_coe _ _ Hw); lia || assumption. Qed.
Lemma DV_hvert g : DC g -> DV (fun v y => hvert m (fun c => g c y) v).
Proof. intros H v Hv. unfold hvert. apply DF_divc, DF_rsum. intros j Hj. apply DF_mult; [apply DF_const|]. apply H. apply (wf_cov _ _ Hw); assumption. Qed.
Lemma DC_kin g : DE g -> DC (fun c y => kin m (fun e => g e y) c).
Proof.
  intros H c Hc. unfold kin. rewrite (hm_noc _ _ _ Hh) by exact Hc. cbv zeta. apply DF_divc, DF_divc, DF_rsum. intros j Hj. apply DF_mult; [apply DF_const|].
  apply DF_mult; apply H; apply (wf_eoc _ _ Hw); assumption.
Qed.
Lemma DE_vlap g : DE g -> DE (fun e y => vlap m (fun e => g e y) e).
Proof. intros H e He. unfold vlap. apply DF_minus; [apply (DE_grad _ (DC_outflow g H) e He)|apply (DE_rgrad _ (DV_vort g H) e He)]. Qed.
Section Layer.
Context (j j0 : Z) (Hj : 0 <= j < NL) (Hj0 : 0 <= j0 < NL).
Lemma DC_h : DC (fun c y => fh y c j).
Proof. intros c Hc. apply (DF_val (PH c j)). cbn [vplc]. split; [exact Hc|exact Hj]. Qed.
Lemma DE_u i : 0 <= i < NL -> DE (fun e y => fv y e i).
Proof. intros Hi e He. apply (DF_val (PV e i)). cbn [vplc]. split; [exact He|exact Hi]. Qed.
Lemma DE_flux : DE (fun e y => emean m (fun c => fh y c j) e * fv y e j)%R.
Proof. intros e He. apply DF_mult; [apply (DE_emean _ DC_h e He)|apply (DE_u j Hj e He)]. Qed.
Lemma DV_pvort f : DV (fun v y => pvort m f (fun c => fh y c j) (fun e => fv y e j) v).
Proof.
  intros v Hv. unfold pvort. apply DF_div with (a := de); [exact Hde|intros y Hy; eapply box_hv; eassumption| |apply (DV_hvert _ DC_h v Hv)].
  apply DF_plus; [apply (DV_vort _ (DE_u j Hj) v Hv)|apply DF_const].
Qed.
Lemma DE_pvedge f : DE (fun e y => pvedge m f (fun c => fh y c j) (fun e => fv y e j) e).
Proof. intros e He. unfold pvedge. apply DF_divc, DF_plus; apply DV_pvort; apply (wf_voe _ _ Hw); lia || assumption. Qed.
Lemma DE_pvflux f : DE (fun e y => pvflux m f (fun c => fh y c j) (fun e => fv y e j) e).
Proof.
  intros e He. unfold pvflux. cbv zeta. apply DF_rsum. intros i Hi. pose proof (eoe_range S Hok m Hr e i He Hi) as He'. apply DF_mult; [apply DF_const|].
  apply DF_mult; [apply (DE_flux _ He')|]. apply DF_divc, DF_plus; now apply DE_pvedge.
Qed.
Lemma DC_r l : 0 <= l < ntracers P -> DC (fun c y => ft y l c j / fh y c j)%R.
Proof.
  intros Hl c Hc. apply DF_div with (a := de); [exact Hde| | |apply (DC_h c Hc)].
  - intros y [_ Hy]. apply Hy. cbn [vplc]. split; [exact Hc|exact Hj].
  - apply (DF_val (PT l c j)). cbn [vplc]. split; [exact Hl|]. split; [exact Hc|exact Hj].
Qed.

Lemma DF_gh c : 0 <= c < NC -> DF (gh S m j c).
Proof. intros Hc. unfold gh. destruct (disable_h P); [apply DF_const|]. apply DF_opp. apply (DC_outflow _ DE_flux c Hc). Qed.
Lemma DF_gv e : 0 <= e < 3 * NC -> DF (gv S m j j0 e).
Proof.
  intros He. unfold gv. destruct (disable_vn P); [apply DF_const|].
  apply DF_minus; [apply DF_plus; [apply DF_minus|]|].
  - now apply DE_pvflux.
  - apply (DE_grad (fun c y => kin m (fun e => fv y e j) c + grav P * fh y c j)%R); [|exact He]. intros c Hc. apply DF_plus; [apply (DC_kin _ (DE_u j Hj) c Hc)|]. apply DF_mult; [apply DF_const|apply (DC_h c Hc)].
  - apply DF_mult; [apply DF_const|]. apply (DE_vlap _ (DE_u j Hj) e He).
  - apply DF_mult; [apply DF_const|]. apply DF_minus.
    + apply (DE_grad _ (DC_outflow _ (DE_vlap _ (DE_u j Hj))) e He).
    + apply (DE_rgrad _ (DV_vort _ (DE_vlap _ (DE_u j0 Hj0))) e He).
Qed.
Lemma DF_gt l c : 0 <= l < ntracers P -> 0 <= c < NC -> DF (gt S m j l c).
Proof.
  intros Hl Hc. unfold gt. cbv zeta.
  assert (G : DE (fun e y => emean m (fun c => fh y c j) e * grad m (fun c => ft y l c j / fh y c j) e)%R).
  { intros e He. apply DF_mult; [apply (DE_emean _ DC_h e He)|apply (DE_grad _ (DC_r l Hl) e He)]. }
  apply DF_minus; [apply DF_plus|].
  - apply DF_opp. apply (DC_outflow (fun e y => emean m (fun c => fh y c j) e * fv y e j * emean m (fun c => ft y l c j / fh y c j) e)%R); [|exact Hc].
    intros e He. apply DF_mult; [apply (DE_flux e He)|apply (DE_emean _ (DC_r l Hl) e He)].
  - apply DF_mult; [apply DF_const|]. apply (DC_outflow _ G c Hc).
  - apply DF_mult; [apply DF_const|]. apply (DC_outflow _ (DE_grad _ (DC_outflow _ G)) c Hc).
Qed.
End Layer.


Lemma DF_gp p : vplc S p -> DF (gp S m p).
Proof.
  intros Hp. destruct p as [c j|e j|l c j]; cbn [vplc] in *; unfold gp; [apply DF_gh|apply DF_gv|apply DF_gt]; try tauto. apply layer0_range; tauto.
Qed.
Lemma vplc_dec p : {vplc S p} + {~ vplc S p}.
Proof.
  assert (dec : forall j n, {0 <= j < n} + {~ 0 <= j < n}). { intros j n. destruct (Z_le_dec 0 j); [|right; lia]. destruct (Z_lt_dec j n); [left|right]; lia. }
  destruct p as [c k|e k|l c k]; cbn [vplc].
  - destruct (dec c (d_ncells (sdims S))); [|right; tauto]. destruct (dec k NL); [left; tauto|right; tauto].
  - destruct (dec e (d_nedges (sdims S))); [|right; tauto]. destruct (dec k NL); [left; tauto|right; tauto].
  - destruct (dec l (ntracers P)); [|right; tauto]. destruct (dec c (d_ncells (sdims S))); [|right; tauto]. destruct (dec k NL); [left; tauto|right; tauto].
Qed.
(** The derivative of the tendency. *)
Lemma gp_diff : exists (J : plc -> fields RA -> vec -> R) M, (0 <= M)%R /\ forall p, vplc S p -> DLM M (gp S m p) (J p).
Proof.
  exists (fun p => match vplc_dec p with left H => proj1_sig (DF_gp p H) | right _ => fun _ _ => 0%R end).
  apply (plc_max S (fun p M => DLM M (gp S m p) (match vplc_dec p with left H => proj1_sig (DF_gp p H) | right _ => fun _ _ => 0%R end))); [intros; eapply DLM_le; eassumption|].
  intros p Hp. destruct (vplc_dec p) as [H|]; [|contradiction]. exact (proj2_sig (DF_gp p H)).
Qed.
End Diff.
