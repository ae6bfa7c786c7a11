(** Along a solution of the unforced discrete equations all quantities are smooth: rational functionals of the fields
    have time derivatives that are again rational functionals. *)
From Coq Require Import ZArith Reals List Bool Lia Lra.
From Verif Require Import Arith Arrays Prog Conc Launch Mesh AuxVars Tend Model Hex RSum Spec MeshProof MeshMem MeshR KernBase Ready StepFn StepVal StepRun StepThms RealTend FieldInv Vort Sim SimThms Driver DriverFn Lip TimeStep TimeConv.
Import ListNotations.
Open Scope Z_scope.

Section Smooth.
Context (S : setup RA).
Definition posf (y : fields RA) : Prop := forall c k, vplc S (PH c k) -> (0 < fh y c k)%R.
Inductive RF : (fields RA -> R) -> Type :=
| RF_const c : RF (fun _ => c)
| RF_val p : vplc S p -> RF (fun y => val y p)
| RF_plus f g : RF f -> RF g -> RF (fun y => f y + g y)%R
| RF_mult f g : RF f -> RF g -> RF (fun y => f y * g y)%R
| RF_inv f : (forall y, posf y -> (0 < f y)%R) -> RF f -> RF (fun y => / f y)%R
| RF_ext f g : RF f -> (forall y, g y = f y) -> RF g.
Lemma RF_opp f : RF f -> RF (fun y => - f y)%R. Proof. intros H. apply (RF_ext _ _ (RF_mult _ _ (RF_const (-1)) H)). intros; ring. Qed.
Lemma RF_minus f g : RF f -> RF g -> RF (fun y => f y - g y)%R. Proof. intros H K. unfold Rminus. apply RF_plus; [exact H|]. now apply RF_opp. Qed.
Lemma RF_divc f c : RF f -> RF (fun y => f y / c)%R. Proof. intros H. unfold Rdiv. apply RF_mult; [exact H|apply RF_const]. Qed.
Lemma RF_div f g : (forall y, posf y -> (0 < g y)%R) -> RF f -> RF g -> RF (fun y => f y / g y)%R.
Proof. intros Hg Hf HE. unfold Rdiv. apply RF_mult; [exact Hf|]. now apply RF_inv. Qed.
Lemma RF_rsum n (f : Z -> fields RA -> R) : (forall j, 0 <= j < n -> RF (f j)) -> RF (fun y => rsum n (fun j => f j y)).
Proof.
  intros H. destruct (Z_le_dec n 0) as [C|C].
  - apply (RF_ext _ _ (RF_const 0)); intros; now rewrite rsum_neg.
  - rewrite <- (Z2Nat.id n) in * by lia. clear C. revert H. induction (Z.to_nat n) as [|j IH]; intros H.
    + apply (RF_ext _ _ (RF_const 0)); intros; now rewrite rsum_0.
    + apply (RF_ext _ _ (RF_plus _ _ (IH ltac:(intros; apply H; lia)) (H (Z.of_nat j) ltac:(lia)))); intros. replace (Z.of_nat (Datatypes.S j)) with (Z.of_nat j + 1) by lia. rewrite rsum_succ by lia. reflexivity.
Qed.

(** The operators of the mesh. *)
Context (Hok : setup_ok S) (Hdc : (0 < (dc (mesh_of_setup S) : R))%R) (m : mem RA) (Hr : ready S m).
Local Notation P := (par_of S).
Local Notation NC := (nx (mesh_of_setup S) * ny (mesh_of_setup S)).
Local Notation NL := (d_nlayers (sdims S)).
Let Hw : wfm (sdims S) m := ready_wfm S Hok m Hr.
Let Hh : hexmem (mesh_of_setup S) NL m := ready_hex S Hok m Hr.
Lemma hvert_pos (q : Z -> R) v : 0 <= v < 2 * NC -> (forall c, 0 <= c < NC -> (0 < q c)%R) -> (0 < hvert m q v)%R.
Proof.
  intros Hv Hq. destruct (finite_max NC (fun c b => (0 < q c /\ 1 <= b * q c)%R)) as (X & HX & X1).
  - intros c M N L [A1 A2]. split; [exact A1|nra].
  - intros c Hc. specialize (Hq c Hc). exists (/ q c)%R. split; [left; now apply Rinv_0_lt_compat|]. split; [exact Hq|]. rewrite Rinv_l by lra. lra.
  - pose proof (Rinv_0_lt_compat (X + 1) ltac:(lra)) as IX. eapply Rlt_le_trans; [exact IX|]. apply (hvert_ge S Hok Hdc m Hr); [|exact Hv]. intros c Hc. destruct (X1 c Hc) as [A1 A2].
    apply (Rmult_le_reg_l (X + 1)); [lra|]. rewrite Rinv_r by lra. nra.
Qed.
Definition RC (f : Z -> fields RA -> R) : Type := forall c, 0 <= c < NC -> RF (f c).
Definition RE (f : Z -> fields RA -> R) : Type := forall e, 0 <= e < 3 * NC -> RF (f e).
Definition RV (f : Z -> fields RA -> R) : Type := forall v, 0 <= v < 2 * NC -> RF (f v).
Lemma RC_outflow g : RE g -> RC (fun c y => outflow m (fun e => g e y) c).
Proof.
  intros H c Hc. unfold outflow. rewrite (hm_noc _ _ _ Hh) by exact Hc. cbv zeta. apply RF_divc, RF_rsum. intros j Hj. apply RF_mult; [apply RF_const|]. apply H. apply (wf_eoc _ _ Hw); assumption.
Qed.
Lemma RV_vort g : RE g -> RV (fun v y => vort m (fun e => g e y) v).
Proof.
  intros H v Hv. unfold vort, circ. cbv zeta. apply RF_divc, RF_rsum. intros j Hj. apply RF_mult; [apply RF_const|]. apply H. apply (wf_eov _ _ Hw); assumption.
Qed.
Lemma RE_grad g : RC g -> RE (fun e y => grad m (fun c => g c y) e).
Proof. intros H e He. unfold grad. apply RF_divc, RF_minus; apply H; apply (wf_coe _ _ Hw); lia || assumption. Qed.
Lemma RE_rgrad g : RV g -> RE (fun e y => rgrad m (fun c => g c y) e).
Proof. intros H e He. unfold rgrad. apply RF_divc, RF_minus; apply H; apply (wf_voe _ _ Hw); lia || assumption. Qed.
Lemma RE_emean g : RC g -> RE (fun e y => emean m (fun c => g c y) e).
Proof. intros H e He. unfold emean. apply RF_divc, RF_plus; apply H; apply (wf_coe _ _ Hw); lia || assumption. Qed.
Lemma RV_hvert g : RC g -> RV (fun v y => hvert m (fun c => g c y) v).
Proof. intros H v Hv. unfold hvert. apply RF_divc, RF_rsum. intros j Hj. apply RF_mult; [apply RF_const|]. apply H. apply (wf_cov _ _ Hw); assumption. Qed.
Lemma RC_kin g : RE g -> RC (fun c y => kin m (fun e => g e y) c).
Proof.
  intros H c Hc. unfold kin. rewrite (hm_noc _ _ _ Hh) by exact Hc. cbv zeta. apply RF_divc, RF_divc, RF_rsum. intros j Hj. apply RF_mult; [apply RF_const|].
  apply RF_mult; apply H; apply (wf_eoc _ _ Hw); assumption.
Qed.
Lemma RE_vlap g : RE g -> RE (fun e y => vlap m (fun e => g e y) e).
Proof. intros H e He. unfold vlap. apply RF_minus; [apply (RE_grad _ (RC_outflow g H) e He)|apply (RE_rgrad _ (RV_vort g H) e He)]. Qed.
Section Layer.
Context (j j0 : Z) (Hj : 0 <= j < NL) (Hj0 : 0 <= j0 < NL).
Lemma RC_h : RC (fun c y => fh y c j).
Proof. intros c Hc. apply (RF_val (PH c j)). cbn [vplc]. split; [exact Hc|exact Hj]. Qed.
Lemma RE_u i : 0 <= i < NL -> RE (fun e y => fv y e i).
Proof. intros Hi e He. apply (RF_val (PV e i)). cbn [vplc]. split; [exact He|exact Hi]. Qed.
Lemma RE_flux : RE (fun e y => emean m (fun c => fh y c j) e * fv y e j)%R.
Proof. intros e He. apply RF_mult; [apply (RE_emean _ RC_h e He)|apply (RE_u j Hj e He)]. Qed.
Lemma RV_pvort f : RV (fun v y => pvort m f (fun c => fh y c j) (fun e => fv y e j) v).
Proof.
  intros v Hv. unfold pvort. apply RF_div; [intros y Hy; apply hvert_pos; [exact Hv|intros c Hc; apply Hy; cbn [vplc]; split; [exact Hc|exact Hj]]| |apply (RV_hvert _ RC_h v Hv)].
  apply RF_plus; [apply (RV_vort _ (RE_u j Hj) v Hv)|apply RF_const].
Qed.
Lemma RE_pvedge f : RE (fun e y => pvedge m f (fun c => fh y c j) (fun e => fv y e j) e).
Proof. intros e He. unfold pvedge. apply RF_divc, RF_plus; apply RV_pvort; apply (wf_voe _ _ Hw); lia || assumption. Qed.
Lemma RE_pvflux f : RE (fun e y => pvflux m f (fun c => fh y c j) (fun e => fv y e j) e).
Proof.
  intros e He. unfold pvflux. cbv zeta. apply RF_rsum. intros i Hi. pose proof (eoe_range S Hok m Hr e i He Hi) as He'. apply RF_mult; [apply RF_const|].
  apply RF_mult; [apply (RE_flux _ He')|]. apply RF_divc, RF_plus; now apply RE_pvedge.
Qed.
Lemma RC_r l : 0 <= l < ntracers P -> RC (fun c y => ft y l c j / fh y c j)%R.
Proof.
  intros Hl c Hc. apply RF_div; [| |apply (RC_h c Hc)].
  - intros y Hy. apply Hy. cbn [vplc]. split; [exact Hc|exact Hj].
  - apply (RF_val (PT l c j)). cbn [vplc]. split; [exact Hl|]. split; [exact Hc|exact Hj].
Qed.

Lemma RF_gh c : 0 <= c < NC -> RF (gh S m j c).
Proof. intros Hc. unfold gh. destruct (disable_h P); [apply RF_const|]. apply RF_opp. apply (RC_outflow _ RE_flux c Hc). Qed.
Lemma RF_gv e : 0 <= e < 3 * NC -> RF (gv S m j j0 e).
Proof.
  intros He. unfold gv. destruct (disable_vn P); [apply RF_const|].
  apply RF_minus; [apply RF_plus; [apply RF_minus|]|].
  - now apply RE_pvflux.
  - apply (RE_grad (fun c y => kin m (fun e => fv y e j) c + grav P * fh y c j)%R); [|exact He]. intros c Hc. apply RF_plus; [apply (RC_kin _ (RE_u j Hj) c Hc)|]. apply RF_mult; [apply RF_const|apply (RC_h c Hc)].
  - apply RF_mult; [apply RF_const|]. apply (RE_vlap _ (RE_u j Hj) e He).
  - apply RF_mult; [apply RF_const|]. apply RF_minus.
    + apply (RE_grad _ (RC_outflow _ (RE_vlap _ (RE_u j Hj))) e He).
    + apply (RE_rgrad _ (RV_vort _ (RE_vlap _ (RE_u j0 Hj0))) e He).
Qed.
Lemma RF_gt l c : 0 <= l < ntracers P -> 0 <= c < NC -> RF (gt S m j l c).
Proof.
  intros Hl Hc. unfold gt. cbv zeta.
  assert (G : RE (fun e y => emean m (fun c => fh y c j) e * grad m (fun c => ft y l c j / fh y c j) e)%R).
  { intros e He. apply RF_mult; [apply (RE_emean _ RC_h e He)|apply (RE_grad _ (RC_r l Hl) e He)]. }
  apply RF_minus; [apply RF_plus|].
  - apply RF_opp. apply (RC_outflow (fun e y => emean m (fun c => fh y c j) e * fv y e j * emean m (fun c => ft y l c j / fh y c j) e)%R); [|exact Hc].
    intros e He. apply RF_mult; [apply (RE_flux e He)|apply (RE_emean _ (RC_r l Hl) e He)].
  - apply RF_mult; [apply RF_const|]. apply (RC_outflow _ G c Hc).
  - apply RF_mult; [apply RF_const|]. apply (RC_outflow _ (RE_grad _ (RC_outflow _ G)) c Hc).
Qed.
End Layer.


Lemma RF_gp p : vplc S p -> RF (gp S m p).
Proof.
  intros Hp. destruct p as [c j|e j|l c j]; cbn [vplc] in *; unfold gp; [apply RF_gh|apply RF_gv|apply RF_gt]; try tauto. apply layer0_range; tauto.
Qed.
Lemma vplc_dec p : {vplc S p} + {~ vplc S p}.
Proof.
  assert (dec : forall j n, {0 <= j < n} + {~ 0 <= j < n}). { intros j n. destruct (Z_le_dec 0 j); [|right; lia]. destruct (Z_lt_dec j n); [left|right]; lia. }
  destruct p as [c k|e k|l c k]; cbn [vplc].
  - destruct (dec c (d_ncells (sdims S))); [|right; tauto]. destruct (dec k NL); [left; tauto|right; tauto].
  - destruct (dec e (d_nedges (sdims S))); [|right; tauto]. destruct (dec k NL); [left; tauto|right; tauto].
  - destruct (dec l (ntracers P)); [|right; tauto]. destruct (dec c (d_ncells (sdims S))); [|right; tauto]. destruct (dec k NL); [left; tauto|right; tauto].
Qed.

(** The derivative along a trajectory. *)
Lemma der_ext (f g : R -> R) t l : (forall s, g s = f s) -> derivable_pt_lim f t l -> derivable_pt_lim g t l.
Proof. intros E H eps He. destruct (H eps He) as [d Hd]. exists d. intros h Hh0 Hhd. rewrite !E. now apply Hd. Qed.
Definition along (Y : R -> fields RA) (t : R) : Prop := posf (Y t) /\ forall p, vplc S p -> derivable_pt_lim (fun s => val (Y s) p) t (gp S m p (Y t)).
Definition is_der (g g' : fields RA -> R) : Prop := forall Y t, along Y t -> derivable_pt_lim (fun s => g (Y s)) t (g' (Y t)).
Lemma RF_der g : RF g -> {g' : fields RA -> R & (RF g' * (forall Y t, along Y t -> derivable_pt_lim (fun s => g (Y s)) t (g' (Y t))))%type}.
Proof.
  induction 1 as [c|p Hp|f g Hf [f' [Rf Ef]] Hg [g' [Rg Eg]]|f g Hf [f' [Rf Ef]] Hg [g' [Rg Eg]]|f Pf Hf [f' [Rf Ef]]|f g Hf [f' [Rf Ef]] E].
  - exists (fun _ => 0%R). split; [apply RF_const|]. intros. apply derivable_pt_lim_const.
  - exists (gp S m p). split; [now apply RF_gp|]. intros Y t [_ A]. now apply A.
  - exists (fun y => f' y + g' y)%R. split; [now apply RF_plus|]. intros Y t A. apply (derivable_pt_lim_plus (fun s => f (Y s)) (fun s => g (Y s))); auto.
  - exists (fun y => f' y * g y + f y * g' y)%R. split; [apply RF_plus; now apply RF_mult|]. intros Y t A. apply (derivable_pt_lim_mult (fun s => f (Y s)) (fun s => g (Y s))); auto.
  - exists (fun y => - (f' y * (/ f y * / f y)))%R. split; [apply RF_opp, RF_mult; [exact Rf|]; apply RF_mult; now apply RF_inv|]. intros Y t A. pose proof (Pf (Y t) (proj1 A)) as P0.
    apply (der_ext (fun s => 1 / f (Y s))%R); [intros; unfold Rdiv; ring|].
    replace (- (f' (Y t) * (/ f (Y t) * / f (Y t))))%R with ((0 * f (Y t) - f' (Y t) * 1) / (f (Y t))²)%R by (unfold Rsqr; field; lra).
    apply (derivable_pt_lim_div (fun _ => 1%R) (fun s => f (Y s))); [apply derivable_pt_lim_const|now apply Ef|lra].
  - exists f'. split; [exact Rf|]. intros Y t A. apply (der_ext (fun s => f (Y s))); [intros; apply E|now apply Ef].
Qed.
Lemma RF_der_fam (g : plc -> fields RA -> R) : (forall p, vplc S p -> RF (g p)) -> {g' : plc -> fields RA -> R & ((forall p, vplc S p -> RF (g' p)) * (forall p, vplc S p -> forall Y t, along Y t -> derivable_pt_lim (fun s => g p (Y s)) t (g' p (Y t))))%type}.
Proof.
  intros H. exists (fun p => match vplc_dec p with left Hp => projT1 (RF_der _ (H p Hp)) | right _ => fun _ => 0%R end). split.
  - intros p Hp. destruct (vplc_dec p) as [Hp'|]; [|contradiction]. exact (fst (projT2 (RF_der _ (H p Hp')))).
  - intros p Hp. destruct (vplc_dec p) as [Hp'|]; [|contradiction]. exact (snd (projT2 (RF_der _ (H p Hp')))).
Qed.
(** Bounded along a trajectory on a compact interval. *)
Lemma RF_bound (g : plc -> fields RA -> R) Y T : (0 <= T)%R -> (forall t, (0 <= t <= T)%R -> along Y t) -> (forall p, vplc S p -> RF (g p)) -> exists K, (0 <= K)%R /\ forall p, vplc S p -> forall t, (0 <= t <= T)%R -> (Rabs (g p (Y t)) <= K)%R.
Proof.
  intros HT A H. apply (plc_max S (fun p K => forall t, (0 <= t <= T)%R -> (Rabs (g p (Y t)) <= K)%R)).
  - intros p M N L X t Ht. specialize (X t Ht). lra.
  - intros p Hp. apply (cont_bound (fun t => g p (Y t)) T HT). intros t Ht. apply derivable_continuous_pt. destruct (RF_der _ (H p Hp)) as (g' & _ & D). exists (g' (Y t)). apply D. now apply A.
Qed.
End Smooth.
