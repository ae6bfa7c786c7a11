(** Bounded Lipschitz functionals of the prognostic fields, and the tendency as one of them. *)
From Coq Require Import ZArith Reals List Bool Lia Lra.
From Verif Require Import Arith Arrays Prog Conc Launch Mesh AuxVars Tend Model Hex RSum Spec MeshProof MeshMem MeshR KernBase Ready StepFn StepVal StepRun StepThms RealTend FieldInv Vort Sim SimThms Driver DriverFn.
Import ListNotations.
Open Scope Z_scope.

(** The places of prognostic values. *)
Inductive plc := PH (c k : Z) | PV (e k : Z) | PT (l c k : Z).
Definition val (y : fields RA) (p : plc) : R := match p with PH c k => fh y c k | PV e k => fv y e k | PT l c k => ft y l c k end.
Definition vplc (S : setup RA) (p : plc) : Prop := match p with
  | PH c k => 0 <= c < d_ncells (sdims S) /\ 0 <= k < d_nlayers (sdims S)
  | PV e k => 0 <= e < d_nedges (sdims S) /\ 0 <= k < d_nlayers (sdims S)
  | PT l c k => 0 <= l < ntracers (par_of S) /\ 0 <= c < d_ncells (sdims S) /\ 0 <= k < d_nlayers (sdims S) end.
Lemma holds_val S s m y : holds S s m y <-> forall p, vplc S p -> val y p = match p with PH c k => mr m (HCell s) [c; k] | PV e k => mr m (VnEdge s) [e; k] | PT l c k => mr m (TrCell s) [l; c; k] end.
Proof.
  split.
  - intros H [c k|e k|l c k] Hp; cbn [vplc val] in *; destruct (H k) as (A & B & C); try tauto; symmetry; [apply A|apply B|apply C]; tauto.
  - intros H k Hk. split; [|split].
    + intros c Hc. symmetry. apply (H (PH c k)). cbn; tauto.
    + intros e He. symmetry. apply (H (PV e k)). cbn; tauto.
    + intros l c Hl Hc. symmetry. apply (H (PT l c k)). cbn; tauto.
Qed.

Section Lip.
Context (S : setup RA).
(** Values at most [B], thickness at least [de]. *)
Context (B de : R) (Hde : (0 < de)%R).
Definition box (y : fields RA) : Prop := (forall p, vplc S p -> Rabs (val y p) <= B)%R /\ forall c k, vplc S (PH c k) -> (de <= fh y c k)%R.
Definition close (d : R) (y z : fields RA) : Prop := forall p, vplc S p -> (Rabs (val y p - val z p) <= d)%R.
Definition LB (f : fields RA -> R) : Prop := exists M, (0 <= M)%R /\ (forall y, box y -> Rabs (f y) <= M)%R /\
  forall y z d, box y -> box z -> (0 <= d)%R -> close d y z -> (Rabs (f y - f z) <= M * d)%R.

Lemma LB_const c : LB (fun _ => c).
Proof. exists (Rabs c). split; [apply Rabs_pos|]. split; [intros; lra|]. intros y z d _ _ Hd _. rewrite Rminus_diag_eq, Rabs_R0 by reflexivity. pose proof (Rabs_pos c). nra. Qed.
Lemma LB_val p : vplc S p -> LB (fun y => val y p).
Proof.
  intros Hp. exists (Rmax 1 B). split; [pose proof (Rmax_l 1 B); lra|]. split.
  - intros y [H _]. eapply Rle_trans; [apply (H p Hp)|apply Rmax_r].
  - intros y z d _ _ Hd H. pose proof (H p Hp). pose proof (Rmax_l 1 B). nra.
Qed.
Lemma LB_plus f g : LB f -> LB g -> LB (fun y => f y + g y)%R.
Proof.
  intros (M & HM & F1 & F2) (N & HN & G1 & G2). exists (M + N)%R. split; [lra|]. split.
  - intros y Hy. eapply Rle_trans; [apply Rabs_triang|]. specialize (F1 y Hy). specialize (G1 y Hy). lra.
  - intros y z d Hy Hz Hd H. specialize (F2 y z d Hy Hz Hd H). specialize (G2 y z d Hy Hz Hd H).
    replace (f y + g y - (f z + g z))%R with ((f y - f z) + (g y - g z))%R by ring. eapply Rle_trans; [apply Rabs_triang|]. lra.
Qed.
Lemma LB_opp f : LB f -> LB (fun y => - f y)%R.
Proof.
  intros (M & HM & F1 & F2). exists M. split; [lra|]. split.
  - intros y Hy. rewrite Rabs_Ropp. auto.
  - intros y z d Hy Hz Hd H. replace (- f y - - f z)%R with (- (f y - f z))%R by ring. rewrite Rabs_Ropp. auto.
Qed.
Lemma LB_minus f g : LB f -> LB g -> LB (fun y => f y - g y)%R.
Proof. intros. unfold Rminus. apply LB_plus; [|apply LB_opp]; assumption. Qed.
Lemma LB_mult f g : LB f -> LB g -> LB (fun y => f y * g y)%R.
Proof.
  intros (M & HM & F1 & F2) (N & HN & G1 & G2). exists (2 * (M * N))%R. pose proof (Rmult_le_pos M N HM HN) as HMN. split; [lra|]. split.
  - intros y Hy. rewrite Rabs_mult. assert (Rabs (f y) * Rabs (g y) <= M * N)%R by (apply Rmult_le_compat; auto using Rabs_pos). lra.
  - intros y z d Hy Hz Hd H. specialize (F2 y z d Hy Hz Hd H). specialize (G2 y z d Hy Hz Hd H).
    replace (f y * g y - f z * g z)%R with ((f y - f z) * g y + f z * (g y - g z))%R by ring. eapply Rle_trans; [apply Rabs_triang|]. rewrite !Rabs_mult.
    assert (Rabs (f y - f z) * Rabs (g y) <= (M * d) * N)%R by (apply Rmult_le_compat; auto using Rabs_pos).
    assert (Rabs (f z) * Rabs (g y - g z) <= M * (N * d))%R by (apply Rmult_le_compat; auto using Rabs_pos). nra.
Qed.
Lemma LB_divc f c : LB f -> LB (fun y => f y / c)%R.
Proof. intros. unfold Rdiv. apply LB_mult; [assumption|apply LB_const]. Qed.
Lemma LB_inv f a : (0 < a)%R -> (forall y, box y -> a <= f y)%R -> LB f -> LB (fun y => / f y)%R.
Proof.
  intros Ha Hf (M & HM & F1 & F2). pose proof (Rinv_0_lt_compat a Ha) as Ia. assert (I2 : (0 <= M * (/ a * / a))%R) by (apply Rmult_le_pos; [lra|]; apply Rmult_le_pos; lra). exists (/ a + M * (/ a * / a))%R. split; [lra|].
  assert (E : forall y, box y -> (0 < / f y <= / a)%R) by (intros y Hy; specialize (Hf y Hy); split; [apply Rinv_0_lt_compat; lra|apply Rinv_le_contravar; lra]). split.
  - intros y Hy. destruct (E y Hy). rewrite Rabs_pos_eq by lra. lra.
  - intros y z d Hy Hz Hd H. specialize (F2 y z d Hy Hz Hd H). pose proof (Hf y Hy). pose proof (Hf z Hz).
    replace (/ f y - / f z)%R with (- ((f y - f z) * (/ f y * / f z)))%R by (field; lra). rewrite Rabs_Ropp, Rabs_mult.
    destruct (E y Hy) as [Y1 Y2]. destruct (E z Hz) as [Z1 Z2].
    rewrite (Rabs_pos_eq (/ f y * / f z)) by (apply Rmult_le_pos; lra).
    assert (Rabs (f y - f z) * (/ f y * / f z) <= (M * d) * (/ a * / a))%R.
    { apply Rmult_le_compat; [apply Rabs_pos|apply Rmult_le_pos; lra|exact F2|]. apply Rmult_le_compat; lra. }
    nra.
Qed.
Lemma LB_div f g a : (0 < a)%R -> (forall y, box y -> a <= g y)%R -> LB f -> LB g -> LB (fun y => f y / g y)%R.
Proof. intros Ha Hg Hf Hg'. unfold Rdiv. apply LB_mult; [exact Hf|]. now apply LB_inv with (a := a). Qed.
Lemma LB_rsum n (f : Z -> fields RA -> R) : (forall j, 0 <= j < n -> LB (f j)) -> LB (fun y => rsum n (fun j => f j y)).
Proof.
  intros H. assert (C : n <= 0 \/ 0 <= n) by lia. destruct C as [C|C].
  - destruct (LB_const 0) as (M & HM & A1 & A2). exists M. split; [exact HM|]. split; intros; rewrite !rsum_neg by exact C; eauto.
  - revert H. pattern n. apply natlike_ind; [| |exact C].
    + intros _. destruct (LB_const 0) as (M & HM & A1 & A2). exists M. split; [exact HM|]. split; intros; rewrite !rsum_0; eauto.
    + intros j Hj IH H. destruct (LB_plus _ _ (IH ltac:(intros; apply H; lia)) (H j ltac:(lia))) as (M & HM & A1 & A2). exists M. split; [exact HM|]. unfold Z.succ. split; intros; rewrite !rsum_succ by exact Hj; eauto.
Qed.

(** Finitely many functionals have a common constant. *)
Definition bnd (M : R) (f : fields RA -> R) : Prop := (forall y, box y -> Rabs (f y) <= M)%R /\
  forall y z d, box y -> box z -> (0 <= d)%R -> close d y z -> (Rabs (f y - f z) <= M * d)%R.
Lemma bnd_le M N f : (M <= N)%R -> bnd M f -> bnd N f.
Proof.
  intros H [A1 A2]. split; [intros y Hy; specialize (A1 y Hy); lra|]. intros y z d Hy Hz Hd C. specialize (A2 y z d Hy Hz Hd C). nra.
Qed.
Lemma finite_max (n : Z) (Q : Z -> R -> Prop) : (forall i M N, (M <= N)%R -> Q i M -> Q i N) -> (forall i, 0 <= i < n -> exists M, (0 <= M)%R /\ Q i M) -> exists M, (0 <= M)%R /\ forall i, 0 <= i < n -> Q i M.
Proof.
  intros Mon H. assert (C : n <= 0 \/ 0 <= n) by lia. destruct C as [C|C]; [exists 0%R; split; [lra|intros; lia]|].
  revert H. pattern n. apply natlike_ind; [| |exact C].
  - intros _. exists 0%R. split; [lra|intros; lia].
  - intros j Hj IH H. destruct IH as (M & HM & A1); [intros; apply H; lia|]. destruct (H j ltac:(lia)) as (N & HN & A2). exists (Rmax M N). split; [pose proof (Rmax_l M N); lra|].
    intros i Hi. assert (i = j \/ 0 <= i < j) as [-> | Hi'] by lia; [eapply Mon; [apply Rmax_r|exact A2]|eapply Mon; [apply Rmax_l|apply A1; exact Hi']].
Qed.
Lemma plc_max (Q : plc -> R -> Prop) : (forall i M N, (M <= N)%R -> Q i M -> Q i N) -> (forall p, vplc S p -> exists M, (0 <= M)%R /\ Q p M) -> exists M, (0 <= M)%R /\ forall p, vplc S p -> Q p M.
Proof.
  intros Mon H.
  destruct (finite_max (d_ncells (sdims S)) (fun c M => forall k, 0 <= k < d_nlayers (sdims S) -> Q (PH c k) M)) as (M1 & P1 & A1).
  { intros i M N L A k Hk. eapply Mon; [exact L|now apply A]. }
  { intros c Hc. apply (finite_max (d_nlayers (sdims S)) (fun k M => Q (PH c k) M)); [intros; eapply Mon; eassumption|]. intros k Hk. apply H. cbn; tauto. }
  destruct (finite_max (d_nedges (sdims S)) (fun c M => forall k, 0 <= k < d_nlayers (sdims S) -> Q (PV c k) M)) as (M2 & P2 & A2).
  { intros i M N L A k Hk. eapply Mon; [exact L|now apply A]. }
  { intros c Hc. apply (finite_max (d_nlayers (sdims S)) (fun k M => Q (PV c k) M)); [intros; eapply Mon; eassumption|]. intros k Hk. apply H. cbn; tauto. }
  destruct (finite_max (ntracers (par_of S)) (fun l M => forall c k, 0 <= c < d_ncells (sdims S) -> 0 <= k < d_nlayers (sdims S) -> Q (PT l c k) M)) as (M3 & P3 & A3).
  { intros i M N L A c k Hc Hk. eapply Mon; [exact L|now apply A]. }
  { intros l Hl. destruct (finite_max (d_ncells (sdims S)) (fun c M => forall k, 0 <= k < d_nlayers (sdims S) -> Q (PT l c k) M)) as (M & HM & A).
    - intros i M N L A k Hk. eapply Mon; [exact L|now apply A].
    - intros c Hc. apply (finite_max (d_nlayers (sdims S)) (fun k M => Q (PT l c k) M)); [intros; eapply Mon; eassumption|]. intros k Hk. apply H. cbn; tauto.
    - exists M. auto. }
  exists (M1 + M2 + M3)%R. split; [lra|]. intros [c k|e k|l c k] Hp; cbn [vplc] in Hp.
  - eapply Mon; [|apply A1; tauto]. lra.
  - eapply Mon; [|apply A2; tauto]. lra.
  - eapply Mon; [|apply A3; tauto]. lra.
Qed.

(** The operators of the mesh. *)
Context (Hok : setup_ok S) (Hdc : (0 < (dc (mesh_of_setup S) : R))%R) (m : mem RA) (Hr : ready S m).
Local Notation P := (par_of S).
Local Notation NC := (nx (mesh_of_setup S) * ny (mesh_of_setup S)).
Local Notation NL := (d_nlayers (sdims S)).
Let Hw : wfm (sdims S) m := ready_wfm S Hok m Hr.
Let Hh : hexmem (mesh_of_setup S) NL m := ready_hex S Hok m Hr.
Definition LC (f : Z -> fields RA -> R) : Prop := forall c, 0 <= c < NC -> LB (f c).
Definition LE (f : Z -> fields RA -> R) : Prop := forall e, 0 <= e < 3 * NC -> LB (f e).
Definition LV (f : Z -> fields RA -> R) : Prop := forall v, 0 <= v < 2 * NC -> LB (f v).
Lemma LC_outflow g : LE g -> LC (fun c y => outflow m (fun e => g e y) c).
Proof.
  intros H c Hc. unfold outflow. rewrite (hm_noc _ _ _ Hh) by exact Hc. cbv zeta. apply LB_divc, LB_rsum. intros j Hj. apply LB_mult; [apply LB_const|]. apply H. apply (wf_eoc _ _ Hw); assumption.
Qed.
Lemma LV_vort g : LE g -> LV (fun v y => vort m (fun e => g e y) v).
Proof.
  intros H v Hv. unfold vort, circ. cbv zeta. apply LB_divc, LB_rsum. intros j Hj. apply LB_mult; [apply LB_const|]. apply H. apply (wf_eov _ _ Hw); assumption.
Qed.
Lemma LE_grad g : LC g -> LE (fun e y => grad m (fun c => g c y) e).
Proof. intros H e He. unfold grad. apply LB_divc, LB_minus; apply H; apply (wf_coe _ _ Hw); lia || assumption. Qed.
Lemma LE_rgrad g : LV g -> LE (fun e y => rgrad m (fun c => g c y) e).
Proof. intros H e He. unfold rgrad. apply LB_divc, LB_minus; apply H; apply (wf_voe _ _ Hw); lia || assumption. Qed.
Lemma LE_emean g : LC g -> LE (fun e y => emean m (fun c => g c y) e).
Proof. intros H e He. unfold emean. apply LB_divc, LB_plus; apply H; apply (wf_coe _ _ Hw); lia || assumption. Qed.
Lemma LV_hvert g : LC g -> LV (fun v y => hvert m (fun c => g c y) v).
Proof. intros H v Hv. unfold hvert. apply LB_divc, LB_rsum. intros j Hj. apply LB_mult; [apply LB_const|]. apply H. apply (wf_cov _ _ Hw); assumption. Qed.
Lemma LC_kin g : LE g -> LC (fun c y => kin m (fun e => g e y) c).
Proof.
  intros H c Hc. unfold kin. rewrite (hm_noc _ _ _ Hh) by exact Hc. cbv zeta. apply LB_divc, LB_divc, LB_rsum. intros j Hj. apply LB_mult; [apply LB_const|].
  apply LB_mult; apply H; apply (wf_eoc _ _ Hw); assumption.
Qed.
Lemma LE_vlap g : LE g -> LE (fun e y => vlap m (fun e => g e y) e).
Proof. intros H e He. unfold vlap. apply LB_minus; [apply (LE_grad _ (LC_outflow g H) e He)|apply (LE_rgrad _ (LV_vort g H) e He)]. Qed.
Lemma hvert_ge q a v : (forall c, 0 <= c < NC -> (a <= q c)%R) -> 0 <= v < 2 * NC -> (a <= hvert m q v)%R.
Proof.
  intros H Hv. clear Hde. pose proof (hvert_flat S Hok Hdc m Hr (fun _ => a) a v (fun _ _ => eq_refl) Hv) as E. rewrite <- E at 1. unfold hvert, Rdiv. rewrite (hm_atri _ _ _ Hh) by exact Hv.
  pose proof (hatri_R (mesh_of_setup S)) as Ea. pose proof (hkite_R (mesh_of_setup S)) as Ek. pose proof sqrt3_pos as S3. cbn [Arith.F RA] in *.
  pose proof (Rmult_lt_0_compat _ _ (Rmult_lt_0_compat _ _ Hdc Hdc) S3) as P3.
  assert (P0 : (0 < hatri (mesh_of_setup S))%R) by (rewrite Ea; lra). assert (P1 : (0 < hkite (mesh_of_setup S))%R) by (rewrite Ek; lra).
  apply Rmult_le_compat_r; [left; apply Rinv_0_lt_compat; exact P0|]. apply rsum_le. intros j Hj. rewrite (hm_kite _ _ _ Hh) by assumption.
  apply Rmult_le_compat_l; [lra|]. apply H. apply (wf_cov _ _ Hw); assumption.
Qed.

Section Layer.
Context (j j0 : Z) (Hj : 0 <= j < NL) (Hj0 : 0 <= j0 < NL).
Lemma LC_h : LC (fun c y => fh y c j).
Proof using Hj. intros c Hc. apply (LB_val (PH c j)). cbn [vplc]. split; [exact Hc|exact Hj]. Qed.
Lemma LE_u i : 0 <= i < NL -> LE (fun e y => fv y e i).
Proof. intros Hi e He. apply (LB_val (PV e i)). cbn [vplc]. split; [exact He|exact Hi]. Qed.
Lemma LE_flux : LE (fun e y => emean m (fun c => fh y c j) e * fv y e j)%R.
Proof using Hj Hr Hok. intros e He. apply LB_mult; [apply (LE_emean _ LC_h e He)|apply (LE_u j Hj e He)]. Qed.
Lemma box_hv y v : box y -> 0 <= v < 2 * NC -> (de <= hvert m (fun c => fh y c j) v)%R.
Proof using Hj Hr Hok Hdc. intros [_ Hy] Hv. apply hvert_ge; [|exact Hv]. intros c Hc. apply Hy. cbn [vplc]. split; [exact Hc|exact Hj]. Qed.
Lemma LV_pvort f : LV (fun v y => pvort m f (fun c => fh y c j) (fun e => fv y e j) v).
Proof using Hj Hr Hok Hdc Hde.
  intros v Hv. unfold pvort. apply LB_div with (a := de); [exact Hde|intros y Hy; now apply box_hv| |apply (LV_hvert _ LC_h v Hv)].
  apply LB_plus; [apply (LV_vort _ (LE_u j Hj) v Hv)|apply LB_const].
Qed.
Lemma LE_pvedge f : LE (fun e y => pvedge m f (fun c => fh y c j) (fun e => fv y e j) e).
Proof using Hj Hr Hok Hdc Hde. intros e He. unfold pvedge. apply LB_divc, LB_plus; apply LV_pvort; apply (wf_voe _ _ Hw); lia || assumption. Qed.
Lemma LE_pvflux f : LE (fun e y => pvflux m f (fun c => fh y c j) (fun e => fv y e j) e).
Proof using Hj Hr Hok Hdc Hde.
  intros e He. unfold pvflux. cbv zeta. apply LB_rsum. intros i Hi. pose proof (eoe_range S Hok m Hr e i He Hi) as He'. apply LB_mult; [apply LB_const|].
  apply LB_mult; [apply (LE_flux _ He')|]. apply LB_divc, LB_plus; now apply LE_pvedge.
Qed.
Lemma LC_r l : 0 <= l < ntracers P -> LC (fun c y => ft y l c j / fh y c j)%R.
Proof using Hj Hde.
  intros Hl c Hc. apply LB_div with (a := de); [exact Hde| | |apply (LC_h c Hc)].
  - intros y [_ Hy]. apply Hy. cbn [vplc]. split; [exact Hc|exact Hj].
  - apply (LB_val (PT l c j)). cbn [vplc]. split; [exact Hl|]. split; [exact Hc|exact Hj].
Qed.

(** The three tendencies without forcing. *)
Definition gh (c : Z) (y : fields RA) : R := if disable_h P then 0%R else (- outflow m (fun e => emean m (fun c => fh y c j) e * fv y e j) c)%R.
Definition gv (e : Z) (y : fields RA) : R := if disable_vn P then 0%R else
  (pvflux m (f0 P) (fun c => fh y c j) (fun e => fv y e j) e - grad m (fun c => kin m (fun e => fv y e j) c + grav P * fh y c j) e
   + Rmax 0 (visc_del2 P) * vlap m (fun e => fv y e j) e
   - Rmax 0 (visc_del4 P) * (grad m (outflow m (vlap m (fun e => fv y e j))) e - rgrad m (vort m (vlap m (fun e => fv y e j0))) e))%R.
Definition gt (l c : Z) (y : fields RA) : R :=
  let hgrad e := (emean m (fun c => fh y c j) e * grad m (fun c => ft y l c j / fh y c j) e)%R in
  (- outflow m (fun e => emean m (fun c => fh y c j) e * fv y e j * emean m (fun c => ft y l c j / fh y c j) e) c + Rmax 0 (eddy_diff2 P) * outflow m hgrad c
   - Rmax 0 (eddy_diff4 P) * outflow m (grad m (outflow m hgrad)) c)%R.
Lemma LB_gh c : 0 <= c < NC -> LB (gh c).
Proof using Hj Hr Hok. intros Hc. unfold gh. destruct (disable_h P); [apply LB_const|]. apply LB_opp. apply (LC_outflow _ LE_flux c Hc). Qed.
Lemma LB_gv e : 0 <= e < 3 * NC -> LB (gv e).
Proof using Hj Hj0 Hr Hok Hdc Hde.
  intros He. unfold gv. destruct (disable_vn P); [apply LB_const|].
  apply LB_minus; [apply LB_plus; [apply LB_minus|]|].
  - now apply LE_pvflux.
  - apply (LE_grad (fun c y => kin m (fun e => fv y e j) c + grav P * fh y c j)%R); [|exact He]. intros c Hc. apply LB_plus; [apply (LC_kin _ (LE_u j Hj) c Hc)|]. apply LB_mult; [apply LB_const|apply (LC_h c Hc)].
  - apply LB_mult; [apply LB_const|]. apply (LE_vlap _ (LE_u j Hj) e He).
  - apply LB_mult; [apply LB_const|]. apply LB_minus.
    + apply (LE_grad _ (LC_outflow _ (LE_vlap _ (LE_u j Hj))) e He).
    + apply (LE_rgrad _ (LV_vort _ (LE_vlap _ (LE_u j0 Hj0))) e He).
Qed.
Lemma LB_gt l c : 0 <= l < ntracers P -> 0 <= c < NC -> LB (gt l c).
Proof using Hj Hr Hok Hde.
  intros Hl Hc. unfold gt. cbv zeta.
  assert (G : LE (fun e y => emean m (fun c => fh y c j) e * grad m (fun c => ft y l c j / fh y c j) e)%R).
  { intros e He. apply LB_mult; [apply (LE_emean _ LC_h e He)|apply (LE_grad _ (LC_r l Hl) e He)]. }
  apply LB_minus; [apply LB_plus|].
  - apply LB_opp. apply (LC_outflow (fun e y => emean m (fun c => fh y c j) e * fv y e j * emean m (fun c => ft y l c j / fh y c j) e)%R); [|exact Hc].
    intros e He. apply LB_mult; [apply (LE_flux e He)|apply (LE_emean _ (LC_r l Hl) e He)].
  - apply LB_mult; [apply LB_const|]. apply (LC_outflow _ G c Hc).
  - apply LB_mult; [apply LB_const|]. apply (LC_outflow _ (LE_grad _ (LC_outflow _ G)) c Hc).
Qed.
End Layer.

(** The tendency without forcing, and the forcing. *)
Definition gp (p : plc) (y : fields RA) : R := match p with PH c k => gh k c y | PV e k => gv k (layer0 S k) e y | PT l c k => gt k l c y end.
Definition fp (p : plc) (t : R) : R := match p with PH c k => hkh S m t c | PV e k => hkv S m t e | PT l c k => 0%R end.
Lemma tend_gp (t : R) y k : tendency_of S t y k -> forall p, vplc S p -> val k p = (gp p y + fp p t)%R.
Proof using Hr Hok Hdc.
  intros T [c j|e j|l c j] Hp; cbn [vplc] in Hp; [destruct Hp as [H1 H2]|destruct Hp as [H1 H2]|destruct Hp as (H1 & H2 & H3)].
  - destruct (tend_formula S Hok Hdc t y k T m Hr j H2) as (A1 & _). exact (A1 c H1).
  - destruct (tend_formula S Hok Hdc t y k T m Hr j H2) as (_ & A1 & _). exact (A1 e H1).
  - destruct (tend_formula S Hok Hdc t y k T m Hr j H3) as (_ & _ & A1). cbn [val gp fp]. rewrite Rplus_0_r. exact (A1 l c H1 H2).
Qed.
Lemma layer0_range k : 0 <= k < NL -> 0 <= layer0 S k < NL.
Proof using Hok. intros Hk. apply (RV S Hok k Hk). Qed.
Lemma gp_bnd : exists M, (0 <= M)%R /\ forall p, vplc S p -> bnd M (gp p).
Proof using Hr Hok Hdc Hde.
  apply (plc_max (fun p M => bnd M (gp p))); [intros; eapply bnd_le; eassumption|]. intros p Hp.
  assert (L : LB (gp p)).
  { destruct p as [c j|e j|l c j]; cbn [vplc gp] in *; [apply LB_gh|apply LB_gv|apply LB_gt]; try tauto. apply layer0_range. tauto. }
  destruct L as (M & H1 & H2 & H3). exists M. split; [exact H1|]. split; assumption.
Qed.
End Lip.
