(** Solutions of the discrete equations with smooth forcing are smooth. *)
From Coq Require Import ZArith Reals List Bool Lia Lra.
From Verif Require Import Arith Arrays Prog Conc Launch Mesh AuxVars Tend Model Hex RSum Spec MeshProof MeshMem MeshR KernBase Ready StepFn StepVal StepRun StepThms RealTend FieldInv Vort Sim SimThms Driver DriverFn Lip TimeStep TimeConv Smooth.
Import ListNotations.
Open Scope Z_scope.

Section SmoothT.
Context (S : setup RA) (Hok : setup_ok S) (Hdc : (0 < (dc (mesh_of_setup S) : R))%R) (m : mem RA) (Hr : ready S m) (T : R) (HT : (0 <= T)%R).
(** The derivatives of the forcing. *)
Context (Fp : plc -> nat -> R -> R) (DF : forall p i t, vplc S p -> (i < 4)%nat -> (0 <= t <= T)%R -> derivable_pt_lim (Fp p i) t (Fp p (Datatypes.S i) t))
  (BF : forall p, vplc S p -> exists b, forall t, (0 <= t <= T)%R -> (Rabs (Fp p 4%nat t) <= b)%R).
Context (Y : R -> fields RA) (PY : forall t, (0 <= t <= T)%R -> posf S (Y t)) (DY : forall t p, (0 <= t <= T)%R -> vplc S p -> derivable_pt_lim (fun s => val (Y s) p) t (gp S m p (Y t) + Fp p 0%nat t)%R).
Inductive RT : nat -> (R -> fields RA -> R) -> Type :=
| RT_aut n g : RF S g -> (n <= 5)%nat -> RT n (fun _ y => g y)
| RT_time n p i : vplc S p -> (i + n <= 4)%nat -> RT n (fun t _ => Fp p i t)
| RT_plus n f g : RT n f -> RT n g -> RT n (fun t y => f t y + g t y)%R
| RT_mult n f g : RT n f -> RT n g -> RT n (fun t y => f t y * g t y)%R.
Lemma RT_weak k g : RT k g -> forall n, k = Datatypes.S n -> RT n g.
Proof. induction 1; intros n' ->; [apply RT_aut; [assumption|lia]|apply RT_time; [assumption|lia]|apply RT_plus; auto|apply RT_mult; auto]. Qed.
Definition tder (g g' : R -> fields RA -> R) : Prop := forall t, (0 <= t <= T)%R -> derivable_pt_lim (fun s => g s (Y s)) t (g' t (Y t)).
Lemma RF_tder g : RF S g -> forall n, (n <= 4)%nat -> {g' : R -> fields RA -> R & (RT n g' * tder (fun _ y => g y) g')%type}.
Proof using PY DY Hok Hdc Hr.
  induction 1 as [c|p Hp|f g Hf IHf Hg IHg|f g Hf IHf Hg IHg|f Pf Hf IHf|f g Hf IHf E]; intros n Hn.
  - exists (fun _ _ => 0%R). split; [apply (RT_aut n (fun _ => 0%R)); [apply RF_const|lia]|]. intros t Ht. apply derivable_pt_lim_const.
  - exists (fun t y => gp S m p y + Fp p 0%nat t)%R. split; [apply (RT_plus n (fun _ y => gp S m p y) (fun t _ => Fp p 0%nat t)); [apply RT_aut; [now apply RF_gp|lia]|apply RT_time; [exact Hp|lia]]|]. intros t Ht. now apply DY.
  - destruct (IHf n Hn) as (f' & Rf & Ef). destruct (IHg n Hn) as (g' & Rg & Eg). exists (fun t y => f' t y + g' t y)%R. split; [now apply RT_plus|]. intros t Ht. apply (derivable_pt_lim_plus (fun s => f (Y s)) (fun s => g (Y s))); [now apply Ef|now apply Eg].
  - destruct (IHf n Hn) as (f' & Rf & Ef). destruct (IHg n Hn) as (g' & Rg & Eg). exists (fun t y => f' t y * g y + f y * g' t y)%R. split.
    + apply (RT_plus n (fun t y => f' t y * g y)%R (fun t y => f y * g' t y)%R); [apply (RT_mult n f' (fun _ y => g y)); [exact Rf|apply RT_aut; [exact Hg|lia]]|apply (RT_mult n (fun _ y => f y) g'); [apply RT_aut; [exact Hf|lia]|exact Rg]].
    + intros t Ht. apply (derivable_pt_lim_mult (fun s => f (Y s)) (fun s => g (Y s))); [now apply Ef|now apply Eg].
  - destruct (IHf n Hn) as (f' & Rf & Ef). exists (fun t y => f' t y * - (/ f y * / f y))%R. split.
    + apply (RT_mult n f' (fun _ y => - (/ f y * / f y))%R); [exact Rf|]. apply (RT_aut n (fun y => - (/ f y * / f y))%R); [|lia]. apply RF_opp. apply RF_mult; now apply RF_inv.
    + intros t Ht. pose proof (Pf (Y t) (PY t Ht)) as P0. cbn beta.
      apply (der_ext (fun s => 1 / f (Y s))%R); [intros; unfold Rdiv; ring|].
      replace (f' t (Y t) * - (/ f (Y t) * / f (Y t)))%R with ((0 * f (Y t) - f' t (Y t) * 1) / (f (Y t))²)%R by (unfold Rsqr; field; lra).
      apply (derivable_pt_lim_div (fun _ => 1%R) (fun s => f (Y s))); [apply derivable_pt_lim_const|now apply Ef|lra].
  - destruct (IHf n Hn) as (f' & Rf & Ef). exists f'. split; [exact Rf|]. intros t Ht. apply (der_ext (fun s => f (Y s))); [intros; apply E|now apply Ef].
Qed.
Lemma RT_der k g : RT k g -> forall n, k = Datatypes.S n -> {g' : R -> fields RA -> R & (RT n g' * tder g g')%type}.
Proof using PY DY Hok Hdc Hr DF.
  induction 1 as [k g Hg Hk|k p i Hp Hk|k f g Hf IHf Hg IHg|k f g Hf IHf Hg IHg]; intros n ->.
  - apply RF_tder; [exact Hg|lia].
  - exists (fun t _ => Fp p (Datatypes.S i) t). split; [apply RT_time; [exact Hp|lia]|]. intros t Ht. apply DF; [exact Hp|lia|exact Ht].
  - destruct (IHf n eq_refl) as (f' & Rf & Ef). destruct (IHg n eq_refl) as (g' & Rg & Eg). exists (fun t y => f' t y + g' t y)%R. split; [now apply RT_plus|]. intros t Ht. apply (derivable_pt_lim_plus (fun s => f s (Y s)) (fun s => g s (Y s))); [now apply Ef|now apply Eg].
  - destruct (IHf n eq_refl) as (f' & Rf & Ef). destruct (IHg n eq_refl) as (g' & Rg & Eg). exists (fun t y => f' t y * g t y + f t y * g' t y)%R. split.
    + apply (RT_plus n (fun t y => f' t y * g t y)%R (fun t y => f t y * g' t y)%R); apply RT_mult; try assumption; eapply RT_weak; try eassumption; reflexivity.
    + intros t Ht. apply (derivable_pt_lim_mult (fun s => f s (Y s)) (fun s => g s (Y s))); [now apply Ef|now apply Eg].
Qed.
Lemma RT_bound k g : RT k g -> exists b, (0 <= b)%R /\ forall t, (0 <= t <= T)%R -> (Rabs (g t (Y t)) <= b)%R.
Proof using PY DY Hok Hdc Hr DF BF HT.
  induction 1 as [k g Hg Hk|k p i Hp Hk|k f g Hf (b & Hb & A) Hg (c & Hc & A')|k f g Hf (b & Hb & A) Hg (c & Hc & A')].
  - apply (cont_bound (fun t => g (Y t)) T HT). intros t Ht. apply derivable_continuous_pt. destruct (RF_tder _ Hg 0 ltac:(lia)) as (g' & _ & D). exists (g' t (Y t)). now apply D.
  - destruct (Nat.eq_dec i 4) as [-> | Hne].
    + destruct (BF p Hp) as (b & A). exists (Rabs b). split; [apply Rabs_pos|]. intros t Ht. eapply Rle_trans; [now apply A|apply Rle_abs].
    + apply (cont_bound (Fp p i) T HT). intros t Ht. apply derivable_continuous_pt. exists (Fp p (Datatypes.S i) t). apply DF; [exact Hp|lia|exact Ht].
  - exists (b + c)%R. split; [lra|]. intros t Ht. specialize (A t Ht). specialize (A' t Ht). eapply Rle_trans; [apply Rabs_triang|]. lra.
  - exists (b * c)%R. split; [now apply Rmult_le_pos|]. intros t Ht. rewrite Rabs_mult. apply Rmult_le_compat; auto using Rabs_pos.
Qed.
Lemma fam_der n (g : plc -> R -> fields RA -> R) : (forall p, vplc S p -> RT (Datatypes.S n) (g p)) -> {g' : plc -> R -> fields RA -> R & ((forall p, vplc S p -> RT n (g' p)) * (forall p, vplc S p -> tder (g p) (g' p)))%type}.
Proof using PY DY Hok Hdc Hr DF.
  intros H. exists (fun p => match vplc_dec S p with left Hp => projT1 (RT_der _ _ (H p Hp) n eq_refl) | right _ => fun _ _ => 0%R end). split.
  - intros p Hp. destruct (vplc_dec S p) as [Hp'|]; [|contradiction]. exact (fst (projT2 (RT_der _ _ (H p Hp') n eq_refl))).
  - intros p Hp. destruct (vplc_dec S p) as [Hp'|]; [|contradiction]. exact (snd (projT2 (RT_der _ _ (H p Hp') n eq_refl))).
Qed.
Lemma fam_bound n (g : plc -> R -> fields RA -> R) : (forall p, vplc S p -> RT n (g p)) -> exists K, (0 <= K)%R /\ forall p, vplc S p -> forall t, (0 <= t <= T)%R -> (Rabs (g p t (Y t)) <= K)%R.
Proof using PY DY Hok Hdc Hr DF BF HT.
  intros H. apply (plc_max S (fun p K => forall t, (0 <= t <= T)%R -> (Rabs (g p t (Y t)) <= K)%R)).
  - intros p M N L X t Ht. specialize (X t Ht). lra.
  - intros p Hp. exact (RT_bound _ _ (H p Hp)).
Qed.
Theorem five_derivatives : exists d2 d3 d4 d5 : plc -> R -> R, exists K, (0 <= K)%R /\ let d1 p t := (gp S m p (Y t) + Fp p 0%nat t)%R in
  (forall p, vplc S p -> forall t, (0 <= t <= T)%R -> derivable_pt_lim (d1 p) t (d2 p t)) /\ (forall p, vplc S p -> forall t, (0 <= t <= T)%R -> derivable_pt_lim (d2 p) t (d3 p t)) /\
  (forall p, vplc S p -> forall t, (0 <= t <= T)%R -> derivable_pt_lim (d3 p) t (d4 p t)) /\ (forall p, vplc S p -> forall t, (0 <= t <= T)%R -> derivable_pt_lim (d4 p) t (d5 p t)) /\
  forall p, vplc S p -> forall t, (0 <= t <= T)%R -> (Rabs (d1 p t) <= K /\ Rabs (d2 p t) <= K /\ Rabs (d3 p t) <= K /\ Rabs (d4 p t) <= K /\ Rabs (d5 p t) <= K)%R.
Proof using PY DY Hok Hdc Hr DF BF HT.
  assert (R1 : forall p, vplc S p -> RT 4 (fun t y => gp S m p y + Fp p 0%nat t)%R).
  { intros p Hp. apply (RT_plus 4 (fun _ y => gp S m p y) (fun t _ => Fp p 0%nat t)); [apply RT_aut; [now apply RF_gp|lia]|apply RT_time; [exact Hp|lia]]. }
  destruct (fam_der 3 (fun p t y => gp S m p y + Fp p 0%nat t)%R R1) as (g2 & R2 & E2). destruct (fam_der 2 g2 R2) as (g3 & R3 & E3). destruct (fam_der 1 g3 R3) as (g4 & R4 & E4). destruct (fam_der 0 g4 R4) as (g5 & R5 & E5).
  destruct (fam_bound _ _ R1) as (K1 & P1 & B1). destruct (fam_bound _ _ R2) as (K2 & P2 & B2). destruct (fam_bound _ _ R3) as (K3 & P3 & B3). destruct (fam_bound _ _ R4) as (K4 & P4 & B4). destruct (fam_bound _ _ R5) as (K5 & P5 & B5).
  exists (fun p t => g2 p t (Y t)), (fun p t => g3 p t (Y t)), (fun p t => g4 p t (Y t)), (fun p t => g5 p t (Y t)), (K1 + K2 + K3 + K4 + K5)%R. split; [lra|]. cbv zeta.
  split; [exact E2|]. split; [exact E3|]. split; [exact E4|]. split; [exact E5|]. intros p Hp t Ht.
  specialize (B1 p Hp t Ht). specialize (B2 p Hp t Ht). specialize (B3 p Hp t Ht). specialize (B4 p Hp t Ht). specialize (B5 p Hp t Ht). cbn beta in B1. lra.
Qed.
End SmoothT.
