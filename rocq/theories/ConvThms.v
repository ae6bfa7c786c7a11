(** Proofs of the properties of [PropsConv.v]. *)
From Coq Require Import ZArith Reals List Bool Lia Lra.
From Verif Require Import Arith Arrays Prog Conc Launch Mesh AuxVars Tend Model Hex HexComb RSum Spec MeshProof MeshMem MeshFacts MeshR MeshCalc Over Formulas KernBase Terms KernAux KernTend TendFn StepFn Ready Rel RelRun Relate TendVal StepVal StepRun Tableau StepThms RealTend SumParts Diag FieldInv ConsBase ConsThms SteadyThms SuperThms Diffuse DiffuseThms Deriv Stencil Taylor Accur Sample Waves Modes DecayNum Driver DriverFn DriverThms WaveRun WaveThms Frozen Transport Cplx AdvWaves AdvRun AdvNum AdvThms LaxAbs UTaylor AdvEnergy AdvLax AdvConv ConvSpec.
Import ListNotations.
Open Scope Z_scope.

(** ** Moving fields *)
Lemma ushift n f (a b : R) (Jt : R -> Prop) : smooth n f -> usmooth n (fun (t : {t : R | Jt t}) x y => f (x + a * proj1_sig t) (y + b * proj1_sig t))%R.
Proof.
  revert f. induction n; intros f (B & H); (split; [destruct B as [M B]; exists M; intros; apply B|]); [exact I|].
  destruct H as (fx & fy & Hx & Hy & Sx & Sy).
  exists (fun t x y => fx (x + a * proj1_sig t) (y + b * proj1_sig t))%R, (fun t x y => fy (x + a * proj1_sig t) (y + b * proj1_sig t))%R. repeat split; auto.
  - intros t x y. eapply D_eq; [apply (derivable_pt_lim_comp (fun x => x + a * proj1_sig t)%R (fun s => f s (y + b * proj1_sig t)%R) x 1); [|apply Hx]|ring].
    eapply D_eq; [apply D_plus; [apply D_id|apply D_const]|ring].
  - intros t x y. eapply D_eq; [apply (derivable_pt_lim_comp (fun y => y + b * proj1_sig t)%R (fun s => f (x + a * proj1_sig t)%R s) y 1); [|apply Hy]|ring].
    eapply D_eq; [apply D_plus; [apply D_id|apply D_const]|ring].
Qed.
Lemma smooth_lin2 n a b f g : smooth n f -> smooth n g -> smooth n (fun x y => - (a * f x y + b * g x y))%R.
Proof.
  intros Sf Sg. pose proof (usmooth_opp n _ (usmooth_plus n _ _ (usmooth_scal n a _ (usmooth_const (J:=Datatypes.unit) n f Sf)) (usmooth_scal n b _ (usmooth_const (J:=Datatypes.unit) n g Sg)))) as Q. exact (usmooth_at n _ tt Q).
Qed.
(** Derivatives of periodic functions are periodic. *)
Lemma dper_x px py f fx : is_dx f fx -> periodic px py f -> periodic px py fx.
Proof.
  intros H P0 x y. split.
  - apply (uniqueness_limite (fun s => f s y) x); [|apply H].
    refine (D_ext _ (fun s => f (s + px) y)%R _ _ _ _); [intros s; symmetry; now apply P0|].
    eapply D_eq; [apply (derivable_pt_lim_comp (fun x => x + px)%R (fun s => f s y) x 1); [|apply H]|ring].
    eapply D_eq; [apply D_plus; [apply D_id|apply D_const]|ring].
  - apply (uniqueness_limite (fun s => f s y) x); [|apply H].
    refine (D_ext _ (fun s => f s (y + py))%R _ _ _ _); [intros s; symmetry; now apply P0|]. apply H.
Qed.
Lemma dper_y px py f fy : is_dy f fy -> periodic px py f -> periodic px py fy.
Proof.
  intros H P0 x y. split.
  - apply (uniqueness_limite (fun s => f x s) y); [|apply H].
    refine (D_ext _ (fun s => f (x + px) s)%R _ _ _ _); [intros s; symmetry; now apply P0|]. apply H.
  - apply (uniqueness_limite (fun s => f x s) y); [|apply H].
    refine (D_ext _ (fun s => f x (s + py))%R _ _ _ _); [intros s; symmetry; now apply P0|].
    eapply D_eq; [apply (derivable_pt_lim_comp (fun x => x + py)%R (fun s => f x s) y 1); [|apply H]|ring].
    eapply D_eq; [apply D_plus; [apply D_id|apply D_const]|ring].
Qed.
(** The derivatives along a uniform flow. *)
Lemma along_flow (U V : R) n k f : smooth (n + k) f -> exists D Gx Gy : nat -> fn2, D 0%nat = f /\
  (forall j, (j <= k)%nat -> smooth n (D j)) /\
  forall j, (j < k)%nat -> is_dx (D j) (Gx j) /\ is_dy (D j) (Gy j) /\ (forall x y, D (S j) x y = - (U * Gx j x y + V * Gy j x y))%R.
Proof.
  revert f. induction k as [|k IH]; intros f Sf.
  - exists (fun _ => f), (fun _ => f), (fun _ => f). split; [reflexivity|]. split; [|lia]. intros j _. now rewrite Nat.add_0_r in Sf.
  - rewrite Nat.add_succ_r in Sf. pose proof Sf as (_ & fx & fy & Hx & Hy & Sx & Sy).
    destruct (IH (fun x y => - (U * fx x y + V * fy x y))%R) as (D & Gx & Gy & E0 & Sd & H); [now apply smooth_lin2|].
    exists (fun j => match j with O => f | S j => D j end), (fun j => match j with O => fx | S j => Gx j end), (fun j => match j with O => fy | S j => Gy j end).
    split; [reflexivity|]. split.
    + intros [|j] Hj; [apply (smooth_le (S (n + k))); [lia|exact Sf]|]. apply Sd. lia.
    + intros [|j] Hj; [|apply H; lia]. split; [exact Hx|]. split; [exact Hy|]. intros x y. now rewrite E0.
Qed.

Lemma const_eq hmin hmax Te Cf Cr M : (0 < hmin)%R -> (0 <= hmax)%R -> conv_const hmin hmax Te Cf Cr M = error_const hmin hmax Te Cf Cr M.
Proof.
  intros Pm P0. unfold conv_const, error_const, CY, BY. cbv zeta. rewrite sqrt_div by assumption. assert (0 < sqrt hmin)%R by now apply sqrt_lt_R0.
  match goal with |- context [exp ?z] => generalize (exp z); intros E end. set (Y := (5 / 2 + (Cf / (2 * hmin) + 1) * Te)%R). clearbody Y. field. lra.
Qed.
Lemma C84_tracer_transport_converges_proof :
  forall (st : stepper) (slack : R), (st = RK4 /\ slack = 0 \/ st = LSRK 5 /\ slack = 1 / 10 ^ 25)%R ->
  forall (S : setup RA), setup_ok S -> let h0 := mesh_of_setup S in let d := (dc h0 : R) in
  2 <= nx h0 -> Z.even (ny h0) = true -> (0 < d)%R -> hook S = None -> disable_h (par_of S) = true -> disable_vn (par_of S) = true ->
  ((eddy_diff2 (par_of S) : R) <= 0)%R -> ((eddy_diff4 (par_of S) : R) <= 0)%R ->
  forall (h U V : fn2) (us FX FY : nat -> R -> fn2) (hmin hmax vmax Te Cf Cr M : R),
  (0 < hmin)%R -> (forall x y, hmin <= h x y <= hmax)%R -> mild d h -> (0 < vmax)%R -> (forall x y, U x y * U x y + V x y * V x y <= vmax * vmax)%R ->
  transported U V us FX FY Te -> transport_bounds d h U V us Te Cf Cr M ->
  let per := periodic (period_x h0) (period_y h0) in per h -> per U -> per V -> (forall t, (0 <= t <= Te)%R -> per (us 0%nat t)) ->
  forall (dt : R) (N : Z) (tr : Z -> fn2), 1 <= N <= INT_MAX -> (0 <= dt)%R -> (dt * vmax <= d)%R -> (IZR N * dt <= Te)%R ->
  always (sdims S) (program S st (mkInitial (A:=RA) h U V tr) (loop_steps (A:=RA) N dt)) (mzero RA) (fun m' =>
    forall l k, 0 <= l < ntracers (par_of S) -> 0 <= k < d_nlayers (sdims S) -> (forall x y, tr l x y = us 0%nat 0%R x y) ->
    let err c := (mr m' (TrCell St) [l; c; k] - us 0%nat (IZR N * dt)%R (mr m' XCell [c]) (mr m' YCell [c]))%R in
    (sqrt (rsum (d_ncells (sdims S)) (fun c => err c * err c) / IZR (d_ncells (sdims S))) <= error_const hmin hmax Te Cf Cr M * (d ^ 2 + dt ^ 4 + slack))%R).
Proof.
  intros st slack Hst S Hok h0 d N1 Hev Hdc Hf Dh Dv E2 E4 h U V us FX FY hmin hmax vmax Te Cf Cr M Pm Hmm Rat Vp Vm HF (Cf0 & Cr0 & M0 & BF & BC & BM) per Ph PU PV Pu0 dt N tr HN D0 Cfl HT.
  assert (HX : forall j t, (j <= 4)%nat -> (0 <= t <= Te)%R -> is_dx (fun x y => us j t x y * U x y)%R (FX j t)) by (intros; now apply HF).
  assert (HY : forall j t, (j <= 4)%nat -> (0 <= t <= Te)%R -> is_dy (fun x y => us j t x y * V x y)%R (FY j t)) by (intros j t Hj Ht; now apply (HF j t)).
  assert (Eq : forall j t x y, (j <= 4)%nat -> (0 <= t <= Te)%R -> us (Datatypes.S j) t x y = (- (FX j t x y + FY j t x y))%R) by (intros j t x y Hj Ht; now apply (HF j t)).
  assert (Dt : forall j t x y, (j <= 4)%nat -> (0 <= t <= Te)%R -> derivable_pt_lim (fun t => us j t x y) t (us (Datatypes.S j) t x y)) by (intros j t x y Hj Ht; now apply (HF j t)).
  assert (Hm : forall x y, (hmin <= h x y)%R) by (intros x y; apply Hmm). assert (Hmax : forall x y, (h x y <= hmax)%R) by (intros x y; apply Hmm).
  rewrite <- const_eq by (try exact Pm; pose proof (Hmm 0%R 0%R); lra).
  assert (Td : tracer_diff_enabled (par_of S) = false) by (now apply disabled_le).
  assert (Th : tracer_hyperdiff_enabled (par_of S) = false) by (now apply disabled_le).
  assert (Pu : forall j t, (j <= 4)%nat -> (0 <= t <= Te)%R -> periodic (period_x h0) (period_y h0) (us j t)).
  { intros j t Hj Ht. revert Hj. induction j as [|j IH]; intros Hj; [now apply Pu0|]. specialize (IH ltac:(lia)).
    assert (A1 : periodic (period_x h0) (period_y h0) (FX j t)).
    { apply (dper_x _ _ _ _ (HX j t ltac:(lia) Ht)). intros x y. destruct (IH x y) as [-> ->]. destruct (PU x y) as [-> ->]. auto. }
    assert (A2 : periodic (period_x h0) (period_y h0) (FY j t)).
    { apply (dper_y _ _ _ _ (HY j t ltac:(lia) Ht)). intros x y. destruct (IH x y) as [-> ->]. destruct (PV x y) as [-> ->]. auto. }
    intros x y. destruct (A1 x y) as [B1 B2]. destruct (A2 x y) as [B3 B4]. rewrite !Eq by (try exact Ht; lia). rewrite B1, B2, B3, B4. auto. }
  set (Q := fun m' : mem RA => forall l k, 0 <= l < ntracers (par_of S) -> 0 <= k < d_nlayers (sdims S) -> (forall x y, tr l x y = us 0%nat 0%R x y) ->
      let err c := (mr m' (TrCell St) [l; c; k] - us 0%nat (IZR N * dt)%R (mr m' XCell [c]) (mr m' YCell [c]))%R in
      (sqrt (rsum (d_ncells (sdims S)) (fun c => err c * err c) / IZR (d_ncells (sdims S))) <= conv_const hmin hmax Te Cf Cr M * (d ^ 2 + dt ^ 4 + slack))%R).
  eapply always_weaken; [apply (program_split S Hok st _ (loop_steps (A:=RA) N dt) (fun m m' => Q m'))|intros m' (m & _ & QQ); exact QQ].
  intros m Hx. destruct (prologue_spec S Hok st _ m Hx) as (Hr & Z & I).
  assert (Hz : disabled_zero S Tend m) by (intros k Hk; destruct (Z k Hk) as (Z1 & Z2 & _); split; intros _; auto).
  pose proof (steady_obs S Hok m Hr (both_disabled_still S m Hok Hdc Hf Dh Dv Hr Hz)) as St0.
  eapply always_weaken; [apply (frozen_run S Hok Hdc m Hr Hf st (loop_steps (A:=RA) N dt) Hz St0)|].
  intros m' (C & R0) l k Hl Hk Htr err. destruct (R0 k Hk) as (_ & _ & R3). destruct (I k Hk) as (I1 & I2 & I3). cbn in I1, I2, I3.
  assert (IN : INR (Z.to_nat N) = IZR N) by (rewrite INR_IZR_INZ, Z2Nat.id by lia; reflexivity).
  assert (DT : (dt <= Te)%R).
  { eapply Rle_trans; [|exact HT]. rewrite <- (Rmult_1_l dt) at 1. apply Rmult_le_compat_r; [exact D0|]. apply IZR_le. lia. }
  pose proof (mesh_conv S Hok Hdc m Hr k N1 Hev Td Th h U V us hmin hmax Te vmax Cf Cr M Pm Hm Hmax Vp Vm Rat Ph PU PV Pu Cf0 Cr0 M0) as G.
  specialize (G BF BC BM Dt).
  specialize (G (fun c Hc => I1 c Hc)).
  assert (Sv : forall e, 0 <= e < 3 * (nx h0 * ny h0) -> mr m (VnEdge St) [e; k] = (cos (mr m AngleEdge [e]) * U (mr m XEdge [e]) (mr m YEdge [e]) + sin (mr m AngleEdge [e]) * V (mr m XEdge [e]) (mr m YEdge [e]))%R).
  { intros e He. rewrite I2 by exact He. reflexivity. }
  specialize (G Sv st slack dt (Z.to_nat N) (fun c => mr m (TrCell St) [l; c; k]) Hst D0 DT Cfl).
  rewrite IN in G. specialize (G HT).
  assert (NI : (IZR N <= 10 ^ 22)%R).
  { apply Rle_trans with (IZR INT_MAX); [apply IZR_le; lia|]. unfold INT_MAX. lra. }
  specialize (G NI). assert (If : forall c, 0 <= c < nx h0 * ny h0 -> mr m (TrCell St) [l; c; k] = us 0%nat 0%R (mr m XCell [c]) (mr m YCell [c])).
  { intros c Hc. rewrite I3 by assumption. apply Htr. }
  specialize (G If). eapply Rle_trans; [right|exact G].
  change (d_ncells (sdims S)) with (nx h0 * ny h0). do 2 f_equal. apply rsum_ext. intros c Hc. unfold err.
  rewrite R3 by assumption. rewrite (zprun_iter _ _ dt) by (intros t0 d0 Hi; exact (loop_snd N dt (t0, d0) Hi)).
  assert (EL : length (loop_steps (A:=RA) N dt) = Z.to_nat N) by (unfold loop_steps; rewrite map_length; unfold zseq; now rewrite map_length, seq_length).
  match goal with |- context [Nat.iter ?n _ _ _] => replace n with (Z.to_nat N) by (symmetry; exact EL) end. rewrite (mget_r m' m XCell [c]), (mget_r m' m YCell [c]) by now apply C. reflexivity.
Qed.

Lemma C84_bounds_exist_proof :
  forall (h U V : fn2) (us FX FY : nat -> R -> fn2) (hmin Te : R),
  smooth 5 h -> smooth 5 U -> smooth 5 V -> (0 < hmin)%R -> (forall x y, hmin <= h x y)%R ->
  (forall j, (j <= 5)%nat -> usmooth 5 (fun t : {t : R | (0 <= t <= Te)%R} => us j (proj1_sig t))) -> transported U V us FX FY Te ->
  exists hmax Cf Cr M : R, (forall x y, h x y <= hmax)%R /\ forall d : R, d <> 0%R -> transport_bounds d h U V us Te Cf Cr M.
Proof.
  intros h U V us FX FY hmin Te Sh SU SV Pm Hm Su HF.
  destruct (flow_bounded h U V Sh SU SV) as (Cf & Cf0 & BF).
  destruct (flow_consistent h U V us FX FY hmin Te Sh SU SV Pm Hm Su) as (Cr & Cr0 & BC).
  { intros j t Hj Ht. now apply (HF j t). } { intros j t Hj Ht. now apply (HF j t). } { intros j t x y Hj Ht. now apply (HF j t). }
  destruct (field_bounded us Te Su) as (M & M0 & BM). destruct (smooth_bounded _ _ Sh) as (hmax & Bh).
  exists hmax, Cf, Cr, M. split; [intros x y; eapply Rle_trans; [apply Rle_abs|apply Bh]|]. intros d D0. unfold transport_bounds. repeat split; auto.
Qed.

Lemma C84_uniform_velocity_proof :
  forall (h u0 : fn2) (U V hmin Te : R), smooth 5 h -> smooth 10 u0 -> (0 < hmin)%R -> (forall x y, hmin <= h x y)%R ->
  exists us FX FY, (forall t x y, us 0%nat t x y = u0 (x - U * t) (y - V * t))%R /\ transported (fun _ _ => U) (fun _ _ => V) us FX FY Te /\
  exists hmax Cf Cr M : R, (forall x y, h x y <= hmax)%R /\ forall d : R, d <> 0%R -> transport_bounds d h (fun _ _ => U) (fun _ _ => V) us Te Cf Cr M.
Proof.
  intros h u0 U V hmin Te Sh Su Pm Hm.
  destruct (along_flow U V 5 5 u0 Su) as (D & Gx & Gy & E0 & Sd & HD).
  pose (us := fun j t x y => D j (x + - U * t)%R (y + - V * t)%R).
  pose (FX := fun j t x y => (U * Gx j (x + - U * t) (y + - V * t))%R). pose (FY := fun j t x y => (V * Gy j (x + - U * t) (y + - V * t))%R).
  assert (Ex : forall j t x y, (j <= 4)%nat -> us (S j) t x y = (- (FX j t x y + FY j t x y))%R).
  { intros j t x y Hj. unfold us, FX, FY. destruct (HD j ltac:(lia)) as (_ & _ & ->). reflexivity. }
  exists us, FX, FY.
  assert (TR : transported (fun _ _ => U) (fun _ _ => V) us FX FY Te).
  { intros j t Hj Ht. destruct (HD j ltac:(lia)) as (Dx & Dy & De). split; [|split; [|split; [now apply Ex|]]].
    + intros x y. unfold us, FX. eapply D_eq; [apply D_mult; [|apply D_const]|].
      * apply (derivable_pt_lim_comp (fun x => x + - U * t)%R (fun s => D j s (y + - V * t)%R) x 1); [|apply Dx]. eapply D_eq; [apply D_plus; [apply D_id|apply D_const]|ring].
      * cbv beta. ring.
    + intros x y. unfold us, FY. eapply D_eq; [apply D_mult; [|apply D_const]|].
      * apply (derivable_pt_lim_comp (fun y => y + - V * t)%R (fun s => D j (x + - U * t)%R s) y 1); [|apply Dy]. eapply D_eq; [apply D_plus; [apply D_id|apply D_const]|ring].
      * cbv beta. ring.
    + unfold us. eapply D_eq; [apply (smooth_line (D j) (Gx j) (Gy j) (smooth_le 5 2 _ ltac:(lia) (Sd j ltac:(lia))) Dx Dy)|]. rewrite De. ring.
  }
  split; [intros t x y; unfold us; rewrite E0; f_equal; ring|]. split; [exact TR|].
  apply (C84_bounds_exist_proof h _ _ us FX FY hmin Te); auto using smooth_cst. intros j Hj. apply ushift. now apply Sd.
Qed.

