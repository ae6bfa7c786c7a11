(** Programs started at rest with a tracer that is an eigenvector of the discrete Laplacian. *)
From Coq Require Import ZArith Reals List Bool Lia Lra.
From Verif Require Import Arith Arrays Prog Conc Launch Mesh AuxVars Tend Model Hex HexComb RSum Spec MeshProof MeshMem MeshFacts MeshR MeshCalc Over Formulas KernBase Terms KernAux KernTend TendFn StepFn Ready Rel RelRun Relate TendVal StepVal StepRun Tableau StepThms RealTend SumParts Diag FieldInv ConsBase ConsThms SteadyThms SuperThms Diffuse DiffuseThms Deriv Stencil Taylor Sample Waves Modes DecayNum Driver DriverFn DriverThms.
Import ListNotations.
Open Scope Z_scope.

(** The coefficients of the amplification factor. *)
Definition g_none (i : Z) : R := match i with 0%Z => 1%R | _ => 0%R end.
Definition gst (st : stepper) : Z -> R :=
  match st with RK4 => g_rk4 | LSRK n => if n =? 5 then g_lsrk5 else if n =? 1 then g_euler else g_none end.
Lemma gain_none S L steps : gain S g_none L steps = 1%R.
Proof. induction steps as [|p l IH]; [reflexivity|]. cbn [gain fold_right]. unfold gain in IH. rewrite IH. unfold ampl, g_none. ring. Qed.

Section WaveRun.
Context (S : setup RA) (Hok : setup_ok S) (Hdc : (0 < (dc (mesh_of_setup S) : R))%R).
Context (HX : 2 <= nx (mesh_of_setup S)) (Hev : Z.even (ny (mesh_of_setup S)) = true) (Hf : hook S = None).
Local Notation P := (par_of S).
Local Notation h := (mesh_of_setup S).
Local Notation NC := (nx (mesh_of_setup S) * ny (mesh_of_setup S)).
Local Notation NL := (d_nlayers (sdims S)).
Local Notation d := (dc (mesh_of_setup S) : R).
Let HYY : 2 <= ny (mesh_of_setup S) := HY S Hok Hev.

Lemma run_eig st (H : R) m steps : ready S m -> disabled_zero S Tend m -> H <> 0%R ->
  (forall k c, 0 <= k < NL -> 0 <= c < NC -> mr m (HCell St) [c; k] = H) ->
  (forall k e, 0 <= k < NL -> 0 <= e < d_nedges (sdims S) -> mr m (VnEdge St) [e; k] = 0%R) ->
  always (sdims S) (stepper_run S st steps) m (fun m' => cst m m' /\
    forall l k L, 0 <= l < ntracers P -> 0 <= k < NL -> eig S m L (fun c => mr m (TrCell St) [l; c; k]) ->
    forall c, 0 <= c < NC -> mr m' (TrCell St) [l; c; k] = (gain S (gst st) L steps * mr m (TrCell St) [l; c; k])%R).
Proof.
  intros Hr Hz H0 Hh Hv. apply always_and.
  { eapply always_fn with (f := run_fn S st steps); [apply hs_stepper_run; [exact Hok|now apply ready_wfm]|].
    intros M EM. eapply cst_meq; [exact EM|]. destruct st; [apply cst_rk4_run|apply cst_lsrk_run]. }
  assert (Ry : rest S (fun _ => H) (fld St m)) by (intros j Hj; split; [intros c Hc; now apply Hh|intros e He; now apply Hv]).
  assert (G : forall g y' M N, ran S m (fun _ => H) g steps (fld St m) y' -> holds S St N y' -> meq M N ->
    forall l k L, 0 <= l < ntracers P -> 0 <= k < NL -> eig S m L (fun c => mr m (TrCell St) [l; c; k]) ->
    forall c, 0 <= c < NC -> mr M (TrCell St) [l; c; k] = (gain S g L steps * mr m (TrCell St) [l; c; k])%R).
  { intros g y' M N [_ E] Hy [_ EM] l k L Hl Hk He c Hc. rewrite EM. destruct (Hy k Hk) as (_ & _ & E3). rewrite E3 by assumption.
    change (ft y' l c k) with (slice y' l k c). rewrite E by assumption.
    rewrite (prun_eig S Hok Hdc m Hr HX Hev L g steps (slice (fld St m) l k)); [reflexivity| |exact Hc]. exact He. }
  destruct st as [|n].
  - eapply always_fn; [apply rd_rk4_run; auto|]. intros M E.
    destruct (rk4_ran S Hok Hdc m Hr HX HYY Hf (fun _ => H) (fun _ _ => H0) steps m (fld St m) Hr Hz (holds_fld S St m) Ry) as (y' & A & B).
    eapply G; [exact B|exact A|exact E].
  - assert (C : (n = 1 \/ n = 5) \/ (n <> 1 /\ n <> 5)) by lia. destruct C as [C|[C1 C5]].
    + eapply always_fn; [apply rd_lsrk_run; auto|]. intros M E.
      destruct (lsrk_ran S Hok Hdc m Hr HX HYY Hf (fun _ => H) (fun _ _ => H0) n steps m (fld St m) C Hr (holds_fld S St m) Ry) as (y' & A & B).
      assert (EG : gst (LSRK n) = g_lsrk n) by (destruct C as [-> | ->]; reflexivity). rewrite EG. eapply G; [exact B|exact A|exact E].
    + destruct (C43_unsupported_stage_count_does_nothing_proof S Hok n steps m C1 C5 Hr) as [A B]. split; [|exact B].
      intros o Ho. destruct (A o Ho) as (M & EM & Q). exists M. split; [exact EM|]. intros l k L Hl Hk _ c Hc. destruct (Q k Hk) as (_ & _ & Q3). rewrite <- Q3 by assumption.
      cbn [gst]. destruct (Z.eqb_spec n 5); [lia|]. destruct (Z.eqb_spec n 1); [lia|]. rewrite gain_none. symmetry. apply Rmult_1_l.
Qed.

(** The same for a program: the tracer is a function of the position. *)
Lemma program_eig st (H : R) (T : Z -> R -> R -> R) steps : H <> 0%R ->
  always (sdims S) (program S st (mkInitial (A:=RA) (fun _ _ => H) (fun _ _ => 0%R) (fun _ _ => 0%R) T) steps) (mzero RA) (fun m' => ready S m' /\
    forall l L, 0 <= l < ntracers P -> (forall m, ready S m -> eig S m L (fun c => T l (hxc h c) (hyc h c))) ->
    forall k c, 0 <= k < NL -> 0 <= c < NC ->
      mr m' (TrCell St) [l; c; k] = (gain S (gst st) L steps * T l (mr m' XCell [c]) (mr m' YCell [c]))%R).
Proof.
  intros H0.
  eapply always_weaken; [apply (program_split S Hok st _ steps (fun m m' => ready S m' /\
    forall l L, 0 <= l < ntracers P -> (forall m, ready S m -> eig S m L (fun c => T l (hxc h c) (hyc h c))) ->
    forall k c, 0 <= k < NL -> 0 <= c < NC ->
      mr m' (TrCell St) [l; c; k] = (gain S (gst st) L steps * T l (mr m' XCell [c]) (mr m' YCell [c]))%R))|intros m' (m & _ & Q); exact Q].
  intros m Hx. destruct (prologue_spec S Hok st _ m Hx) as (Hr & Z & I).
  assert (I' : forall k, 0 <= k < NL ->
      (forall c, 0 <= c < NC -> mr m (HCell St) [c; k] = H) /\
      (forall e, 0 <= e < d_nedges (sdims S) -> mr m (VnEdge St) [e; k] = 0%R) /\
      (forall l c, 0 <= l < ntracers P -> 0 <= c < NC -> mr m (TrCell St) [l; c; k] = T l (mr m XCell [c]) (mr m YCell [c]))).
  { intros k Hk. destruct (I k Hk) as (I1 & I2 & I3). cbn in I1, I2, I3. repeat split; auto.
    intros e He. rewrite I2 by assumption. apply Rminus_diag_uniq. cbn [F RA]. ring. }
  eapply always_weaken; [apply (run_eig st H m steps Hr)|].
  - intros k Hk. destruct (Z k Hk) as (Z1 & Z2 & _). split; intros _; auto.
  - exact H0.
  - intros k c Hk Hc. now apply I'.
  - intros k e Hk He. now apply I'.
  - intros m' (C & Q). split; [exact (ready_cst S m m' C Hr)|]. intros l L Hl He k c Hk Hc.
    rewrite (mget_r m' m XCell [c]), (mget_r m' m YCell [c]) by now apply C.
    destruct (I' k Hk) as (_ & _ & I3). rewrite <- (I3 l c Hl Hc). apply Q; try assumption.
    pose proof (ready_hex S Hok m Hr) as Hm.
    apply (eig_scal S Hok Hdc m Hr HX Hev L 1%R (fun c => T l (hxc h c) (hyc h c))); [now apply He|].
    intros c' Hc'. rewrite I3 by assumption. rewrite (hm_xc _ _ _ Hm), (hm_yc _ _ _ Hm) by exact Hc'. symmetry. apply Rmult_1_l.
Qed.
End WaveRun.
