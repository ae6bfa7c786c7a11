(** Programs started with a uniform flow and plane waves of the tracers. *)
From Coq Require Import ZArith Reals List Bool Lia Lra.
From Verif Require Import Arith Arrays Prog Conc Launch Mesh AuxVars Tend Model Hex HexComb RSum Spec MeshProof MeshMem MeshFacts MeshR MeshCalc Over Formulas KernBase Terms KernAux KernTend TendFn StepFn Ready Rel RelRun Relate TendVal StepVal StepRun Tableau StepThms RealTend SumParts Diag FieldInv ConsBase ConsThms SteadyThms SuperThms Diffuse DiffuseThms Deriv Stencil Taylor Sample Waves Modes DecayNum Driver DriverFn DriverThms WaveRun WaveThms Frozen Transport Cplx AdvWaves.
Import ListNotations.
Open Scope Z_scope.

Section AdvRun.
Context (S : setup RA) (Hok : setup_ok S) (Hdc : (0 < (dc (mesh_of_setup S) : R))%R) (Hf : hook S = None).
Local Notation P := (par_of S).
Local Notation h := (mesh_of_setup S).
Local Notation NC := (nx (mesh_of_setup S) * ny (mesh_of_setup S)).
Local Notation NL := (d_nlayers (sdims S)).
Local Notation d := (dc (mesh_of_setup S) : R).

(** No tendency of thickness and velocity, as seen by a caller of [compute_tendency]. *)
Definition still_obs (m : mem RA) : Prop :=
  forall time : R, always (sdims S) (compute_tendency S Tend St time Replace) m (fun m' => forall k, 0 <= k < NL ->
    (forall c, 0 <= c < NC -> mr m' (HCell Tend) [c; k] = 0%R) /\ (forall e, 0 <= e < 3 * NC -> mr m' (VnEdge Tend) [e; k] = 0%R)).
Lemma steady_obs m : ready S m -> still_obs m -> steady S m.
Proof.
  intros Hr H time. exists (tendency_fn S Tend St time Replace m). split; [reflexivity|]. intros j Hj.
  destruct (H time) as [H1 [m' X]]. destruct (H1 _ X) as (m2 & E & Q). injection E as <-.
  pose proof (tendency_exec S Hok Tend St time Replace m m' ltac:(discriminate) Hr X) as [_ EM]. destruct (Q j Hj) as [Q1 Q2]. split.
  - intros c Hc. rewrite <- EM. now apply Q1.
  - intros e He. rewrite <- EM. now apply Q2.
Qed.
Lemma uniform_still (HX : 2 <= nx h) (HYY : 2 <= ny h) (H U V : R) m : ready S m -> disabled_zero S Tend m -> (f0 P = 0%R \/ disable_vn P = true) ->
  (forall k c, 0 <= k < NL -> 0 <= c < NC -> mr m (HCell St) [c; k] = H) ->
  (forall k e, 0 <= k < NL -> 0 <= e < 3 * NC -> mr m (VnEdge St) [e; k] = uni m U V e) -> still_obs m.
Proof.
  intros Hr Hz [F0|Dv] Hh Hv.
  - destruct (C31_uniform_flow_proof S Hok Hdc HX HYY Hf F0 (fun _ => H) (fun _ => U) (fun _ => V) m Hr Hz Hh Hv) as [A _]. exact A.
  - intros time. destruct (tendency_ex S Hok time (fld St m)) as [k T].
    destruct (T St m ltac:(discriminate) Hr (holds_fld S St m) Hz) as [C D]. split; [|exact D].
    intros o X. destruct (C o X) as (M & EM & Q). exists M. split; [exact EM|]. intros j Hj.
    destruct (Q j Hj) as (Q1 & Q2 & _). destruct (tend_of S Hok Hdc m Hr time _ k T j Hj) as (A1 & A2 & _). split.
    + intros c Hc. rewrite Q1, A1 by exact Hc. unfold hk_h. rewrite Hf. destruct (disable_h P); [reflexivity|].
      rewrite (outflow_ext S Hok m Hr _ (fun e => H * uni m U V e)%R); [| |exact Hc].
      * rewrite outflow_scal. rewrite (uni_outflow S Hok m Hr) by assumption. rring.
      * intros e He. cbn [fld fh fv]. rewrite Hv by assumption. f_equal. unfold emean.
        rewrite !Hh by (exact Hj || (apply (wf_coe _ _ (ready_wfm S Hok _ Hr)); [exact He|lia])). field.
    + intros e He. rewrite Q2, A2 by exact He. unfold hk_v. rewrite Hf, Dv. reflexivity.
Qed.

Context (HX : 2 <= nx (mesh_of_setup S)) (Hev : Z.even (ny (mesh_of_setup S)) = true).
(** A wave of amplitude [A], phase [p] and [i], [j] periods in the two directions; as a complex number; its rate of change. *)
Definition pu (w : R * R * (Z * Z)) (x y : R) : R := (2 * PI * IZR (fst (snd w)) / period_x h * x + 2 * PI * IZR (snd (snd w)) / period_y h * y + snd (fst w))%R.
Definition pw (w : R * R * (Z * Z)) (x y : R) : R := (fst (fst w) * cos (pu w x y))%R.
Definition pc (w : R * R * (Z * Z)) (x y : R) : R * R := cscal (fst (fst w)) (cis (pu w x y)).
Definition pz (U V : R) (w : R * R * (Z * Z)) : R * R :=
  let k1 := (2 * PI * IZR (fst (snd w)) / period_x h)%R in let k2 := (2 * PI * IZR (snd (snd w)) / period_y h)%R in
  (rate S (lam d k1 k2), (- omeg d U V k1 k2)%R).
Lemma program_uni st (H U V : R) (T : Z -> R -> R -> R) steps : H <> 0%R -> (f0 P = 0%R \/ disable_vn P = true) ->
  always (sdims S) (program S st (mkInitial (A:=RA) (fun _ _ => H) (fun _ _ => U) (fun _ _ => V) T) steps) (mzero RA) (fun m' => ready S m' /\
    forall k, 0 <= k < NL ->
    (forall c, 0 <= c < NC -> mr m' (HCell St) [c; k] = H) /\
    (forall e, 0 <= e < 3 * NC -> mr m' (VnEdge St) [e; k] = uni m' U V e) /\
    forall l ws, 0 <= l < ntracers P -> (forall x y, T l x y = fold_right Rplus 0%R (map (fun w => pw w x y) ws)) ->
      forall c, 0 <= c < NC -> mr m' (TrCell St) [l; c; k] = fold_right Rplus 0%R (map (fun w => fst (cgain (gst st) (pz U V w) steps (pc w (mr m' XCell [c]) (mr m' YCell [c])))) ws)).
Proof.
  intros H0 Hfv. pose proof (HY S Hok Hev) as HYY.
  eapply always_weaken; [apply (program_split S Hok st _ steps (fun m m' => ready S m' /\
    forall k, 0 <= k < NL ->
    (forall c, 0 <= c < NC -> mr m' (HCell St) [c; k] = H) /\
    (forall e, 0 <= e < 3 * NC -> mr m' (VnEdge St) [e; k] = uni m' U V e) /\
    forall l ws, 0 <= l < ntracers P -> (forall x y, T l x y = fold_right Rplus 0%R (map (fun w => pw w x y) ws)) ->
      forall c, 0 <= c < NC -> mr m' (TrCell St) [l; c; k] = fold_right Rplus 0%R (map (fun w => fst (cgain (gst st) (pz U V w) steps (pc w (mr m' XCell [c]) (mr m' YCell [c])))) ws)))|intros m' (m & _ & Q); exact Q].
  intros m Hx. destruct (prologue_spec S Hok st _ m Hx) as (Hr & Z & I).
  assert (I' : forall k, 0 <= k < NL ->
      (forall c, 0 <= c < NC -> mr m (HCell St) [c; k] = H) /\
      (forall e, 0 <= e < 3 * NC -> mr m (VnEdge St) [e; k] = uni m U V e) /\
      (forall l c, 0 <= l < ntracers P -> 0 <= c < NC -> mr m (TrCell St) [l; c; k] = T l (mr m XCell [c]) (mr m YCell [c]))).
  { intros k Hk. destruct (I k Hk) as (I1 & I2 & I3). cbn in I1, I2, I3. repeat split; auto.
    intros e He. rewrite I2 by assumption. unfold uni. apply Rminus_diag_uniq. cbn [F RA]. ring. }
  assert (Hz : disabled_zero S Tend m) by (intros k Hk; destruct (Z k Hk) as (Z1 & Z2 & _); split; intros _; auto).
  assert (St0 : steady S m).
  { apply steady_obs; [exact Hr|]. apply (uniform_still HX HYY H U V m Hr Hz Hfv); intros; now apply I'. }
  eapply always_weaken; [apply (frozen_run S Hok Hdc m Hr Hf st steps Hz St0)|].
  intros m' (C & Q). split; [exact (ready_cst S m m' C Hr)|]. intros k Hk. destruct (Q k Hk) as (Q1 & Q2 & Q3). destruct (I' k Hk) as (J1 & J2 & J3). repeat split.
  - intros c Hc. rewrite Q1 by exact Hc. now apply J1.
  - intros e He. rewrite Q2, J2 by exact He. unfold uni. now rewrite (mget_r m' m AngleEdge [e]) by now apply C.
  - intros l ws Hl HT c Hc. rewrite Q3 by assumption.
    pose proof (ready_hex S Hok m Hr) as Hm.
    assert (Xc : forall c, 0 <= c < NC -> mr m XCell [c] = hxc h c) by (intros; now apply (hm_xc _ _ _ Hm)).
    assert (Yc : forall c, 0 <= c < NC -> mr m YCell [c] = hyc h c) by (intros; now apply (hm_yc _ _ _ Hm)).
    assert (Lx : forall f g c, (forall c, 0 <= c < NC -> f c = g c) -> 0 <= c < NC -> top S m k f c = top S m k g c) by (intros; now apply (topl_ext S Hok m Hr)).
    assert (Ll : forall a b f g c, 0 <= c < NC -> top S m k (fun c => a * f c + b * g c)%R c = (a * top S m k f c + b * top S m k g c)%R) by (intros; now apply (topl_lin S Hok m Hr)).
    set (f := fun w c => (fst (fst w) * cos (pu w (hxc h c) (hyc h c)))%R). set (g := fun w c => (fst (fst w) * sin (pu w (hxc h c) (hyc h c)))%R).
    assert (Tm : forall w, cmode NC (top S m k) (pz U V w) (f w) (g w)).
    { intros [[A p] [i j]] c' Hc'. etransitivity; [|exact (uni_mode S Hok Hdc m Hr HX Hev H U V i j A p H0 c' Hc')]. unfold top. f_equal; apply (topl_flow S Hok m Hr); auto. }
    pose proof (cmode_sum NC (top S m k) Lx Ll (gst st) steps (pz U V) f g ws Tm c Hc) as R0.
    rewrite (zprun_ext' NC (top S m k) Lx (gst st) steps _ (fun c => fold_right Rplus 0 (map (fun w => f w c) ws))%R); [|intros c' Hc'; rewrite J3 by assumption; rewrite HT, Xc, Yc by exact Hc'; reflexivity|exact Hc].
    rewrite R0. rewrite (mget_r m' m XCell [c]), (mget_r m' m YCell [c]) by now apply C. rewrite Xc, Yc by exact Hc. reflexivity.
Qed.
End AdvRun.
(** With both tendencies disabled every flow stands still. *)
Lemma both_disabled_still (S : setup RA) m : setup_ok S -> (0 < (dc (mesh_of_setup S) : R))%R -> hook S = None ->
  disable_h (par_of S) = true -> disable_vn (par_of S) = true -> ready S m -> disabled_zero S Tend m -> still_obs S m.
Proof.
  intros Hok Hdc Hf Dh Dv Hr Hz time. destruct (tendency_ex S Hok time (fld St m)) as [k T].
  destruct (T St m ltac:(discriminate) Hr (holds_fld S St m) Hz) as [C D]. split; [|exact D].
  intros o X. destruct (C o X) as (M & EM & Q). exists M. split; [exact EM|]. intros j Hj.
  destruct (Q j Hj) as (Q1 & Q2 & _). destruct (tend_of S Hok Hdc m Hr time _ k T j Hj) as (A1 & A2 & _). split.
  - intros c Hc. rewrite Q1, A1 by exact Hc. unfold hk_h. rewrite Hf, Dh. reflexivity.
  - intros e He. rewrite Q2, A2 by exact He. unfold hk_v. rewrite Hf, Dv. reflexivity.
Qed.
