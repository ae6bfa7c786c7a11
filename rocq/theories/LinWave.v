(** Gravity waves, and programs that start from a slightly disturbed state of rest. *)
From Coq Require Import ZArith Reals List Bool Lia Lra FunctionalExtensionality.
From Verif Require Import Arith Arrays Prog Conc Launch Mesh AuxVars Tend Model Hex HexComb RSum Spec MeshProof MeshMem MeshFacts MeshR MeshCalc Over StepFn TendFn Ready RealTend SumParts Driver DriverFn FieldInv StepVal Relate Cplx Modes AdvWaves AdvNum AdvThms WaveRun LinStep LinSpec Tangent LinRun LinModes.
Import ListNotations.
Open Scope Z_scope.

Section Wave.
Context (S : setup RA) (Hok : setup_ok S) (m : mem RA) (Hr : ready S m).
Local Notation P := (par_of S).
Local Notation h := (mesh_of_setup S).
Local Notation D := (sdims S).
Local Notation NC := (nx h * ny h).
Local Notation NL := (d_nlayers D).
Let Hm : hexmem h NL m := ready_hex S Hok m Hr.
Context (H : R) (V2 : vel_diff_enabled P = false) (V4 : vel_hyperdiff_enabled P = false) (F0 : f0 P = 0%R).
Local Notation L := (linear_swe S m (fun _ => H)).
Local Notation V := (valid_place S).
Context (phi : Z -> R) (Lam om : R) (Hl : forall c, 0 <= c < NC -> outflow m (grad m phi) c = (Lam * phi c)%R) (Hom : (om * om = - (grav P * H * Lam))%R) (G0 : grav P <> 0%R).

Definition gw (a b : R) (p : place) : R := match p with AtCell c k => (a * phi c)%R | AtEdge e k => (b * grad m phi e)%R end.
(** The complex amplitude of [gw a b]. *)
Definition amp (z : R * R) (a b : R) : Prop := a = fst z /\ (om * b = grav P * snd z)%R.
Lemma gw_L a b p : V p -> L (gw a b) p = gw (- (H * Lam * b)) (- (grav P * a)) p.
Proof.
  destruct p as [c k|e k]; intros [Hc Hk]; cbn [linear_swe gw].
  - rewrite (outflow_ext S Hok m Hr _ (fun e => b * grad m phi e + 0 * grad m phi e)%R) by (try exact Hc; intros; cbn [gw]; ring).
    rewrite outflow_lin2. change (fun e => grad m phi e) with (grad m phi). rewrite (Hl c Hc). ring.
  - rewrite visc2, visc4, V2, V4, F0. unfold grad. cbn [gw]. unfold Rdiv. ring.
Qed.
Lemma amp_L z a b : amp z a b -> amp (cmul (0, - om)%R z) (- (H * Lam * b)) (- (grav P * a)).
Proof.
  intros [A B]. unfold amp, cmul. cbn [fst snd]. split.
  - apply Rmult_eq_reg_l with (grav P); [|exact G0]. replace (grav P * - (H * Lam * b))%R with (- (grav P * H * Lam) * b)%R by ring. rewrite <- Hom.
    replace (om * om * b)%R with (om * (om * b))%R by ring. rewrite B. ring.
  - rewrite A. ring.
Qed.
Lemma gw_pol g dt : forall z a b, amp z a b -> exists a' b', amp (cmul (cpoly g (cscal dt (0, - om)%R)) z) a' b' /\ forall p, V p -> opolyx L g dt (gw a b) p = gw a' b' p.
Proof.
  induction g as [|x g IH]; intros z a b A.
  - exists 0%R, 0%R. split; [unfold amp, cpoly, cmul, cre; cbn [fst snd]; split; ring|]. intros [c k|e k] _; cbn [opolyx gw]; ring.
  - destruct (IH _ _ _ (amp_L z a b A)) as (a' & b' & [A1 A2] & E). destruct A as [B1 B2].
    exists (x * a + dt * a')%R, (x * b + dt * b')%R. split.
    + unfold amp. cbn [cpoly]. set (q := cpoly g _) in *. unfold cmul, cadd, cscal, cre in *. cbn [fst snd] in *. split; [rewrite A1, B1; ring|].
      replace (om * (x * b + dt * b'))%R with (x * (om * b) + dt * (om * b'))%R by ring. rewrite A2, B2. ring.
    + intros p Hp. cbn [opolyx]. rewrite (opolyx_ext V L (L_ext S Hok m Hr (fun _ => H)) g dt (L (gw a b)) (gw (- (H * Lam * b)) (- (grav P * a))) p) by (try exact Hp; intros; now apply gw_L).
      rewrite (E p Hp). destruct p; cbn [gw]; ring.
Qed.
Lemma gw_run g steps : forall z a b, amp z a b -> exists a' b',
  amp (fold_left (fun z (s : R * R) => cmul (cpoly g (cscal (snd s) (0, - om)%R)) z) steps z) a' b' /\
  forall p, V p -> linear_run S m (fun _ => H) g steps (gw a b) p = gw a' b' p.
Proof.
  unfold linear_run. induction steps as [|s l IH]; intros z a b A; [exists a, b; split; [exact A|reflexivity]|].
  cbn [fold_left]. destruct (gw_pol g (snd s) z a b A) as (a1 & b1 & A1 & E1). destruct (IH _ _ _ A1) as (a2 & b2 & A2 & E2).
  exists a2, b2. split; [exact A2|]. intros p Hp.
  rewrite (opolyx_run V L (L_ext S Hok m Hr (fun _ => H)) g l _ (gw a1 b1)); [now apply E2|exact E1|exact Hp].
Qed.
End Wave.
Lemma fold_cgain st om steps : forall z, fold_left (fun z (s : R * R) => cmul (cpoly (glist st) (cscal (snd s) (0, - om)%R)) z) steps z = cgain (gst st) (0, - om)%R steps z.
Proof.
  induction steps as [|s l IH]; intros z; [reflexivity|]. cbn [fold_left]. rewrite IH, cgain_cons, glist_cpoly. reflexivity.
Qed.

(** ** Programs *)
Lemma lin_der (a v : R) : derivable_pt_lim (fun x => a + x * v)%R 0 v.
Proof.
  intros eps He. exists (mkposreal 1 Rlt_0_1). intros z Hz _. replace ((a + (0 + z) * v - (a + 0 * v)) / z - v)%R with 0%R by (field; exact Hz). now rewrite Rabs_R0.
Qed.
Section Prog.
Context (S : setup RA) (Hok : setup_ok S) (Hdc : (0 < (dc (mesh_of_setup S) : R))%R).
Local Notation P := (par_of S).
Local Notation h := (mesh_of_setup S).
Local Notation D := (sdims S).
Context (H : R) (H0 : H <> 0%R) (Hf : hook S = None) (Dh : disable_h P = false) (Dv : disable_vn P = false).
Definition small_init (eta vx vy : R -> R -> R) (tr : Z -> R -> R -> R) (x : R) : initial RA :=
  mkInitial (A:=RA) (fun X Y => H + x * eta X Y)%R (fun X Y => x * vx X Y)%R (fun X Y => x * vy X Y)%R tr.
Lemma program_family st steps eta vx vy tr (M' : R -> mem RA) :
  (forall x, exec D (program S st (small_init eta vx vy tr x) steps) (mzero RA) (OK (M' x))) ->
  exists M : R -> mem RA, (forall x, exec D (stepper_run S st steps) (M x) (OK (M' x))) /\ fam S (M 0%R) M /\ cst (M 0%R) (M' 0%R) /\
    tan S St M (at_rest (fun _ => H)) (fun p => match p with
      | AtCell c k => eta (mr (M 0%R) XCell [c]) (mr (M 0%R) YCell [c])
      | AtEdge e k => (cos (mr (M 0%R) AngleEdge [e]) * vx (mr (M 0%R) XEdge [e]) (mr (M 0%R) YEdge [e]) + sin (mr (M 0%R) AngleEdge [e]) * vy (mr (M 0%R) XEdge [e]) (mr (M 0%R) YEdge [e]))%R end).
Proof.
  intros Hx. destruct (hs_constructors S Hok st) as (m0 & H1 & H2). set (m1 := stepper_fn S st (zero_fn S St m0)) in *.
  set (M := fun x => init_fn S (small_init eta vx vy tr x) m1). exists M.
  assert (Rd : forall x, ready S (M x)) by (intros x; apply (prologue_ready S st _ m0 H1)).
  assert (C1 : forall x, cst m1 (M x)) by (intros x; apply cst_init_state).
  assert (Cs : forall x, cst (M 0%R) (M x)) by (intros x l Hl; rewrite (C1 x l Hl), (C1 0%R l Hl); reflexivity).
  assert (X2 : forall x, exec D (stepper_run S st steps) (M x) (OK (M' x))).
  { intros x. specialize (Hx x). unfold program in Hx. apply exec_app in Hx. destruct Hx as [(m2 & A & B)|[E _]]; [|discriminate].
    assert (E : meq m2 (M x)).
    { apply (exec_fn S (prologue S st (small_init eta vx vy tr x)) (fun _ => M x) (mzero RA) m2); [|exact A]. unfold prologue. eapply hsafe_seq; [exact H2|]. apply hs_init. }
    assert (E' : m2 = M x). { destruct m2 as [i1 r1]. destruct (M x) as [i2 r2]. destruct E as [E1 E2]. cbn in E1, E2. f_equal; apply functional_extensionality; intros a; apply functional_extensionality; intros ix; auto. }
    now rewrite <- E'. }
  split; [exact X2|]. split; [intros x; split; [apply Rd|apply Cs]|]. split.
  - assert (E : meq (M' 0%R) (run_fn S st steps (M 0%R))). { eapply exec_fn; [|apply X2]. apply hs_stepper_run; [exact Hok|]. apply ready_wfm; [exact Hok|apply Rd]. }
    eapply cst_meq; [exact E|]. destruct st; [apply cst_rk4_run|apply cst_lsrk_run].
  - intros p Hp.
    assert (CC : forall x a ix, const_loc (LR a ix) = true -> mr (M x) a ix = mr m1 a ix) by (intros x a ix Ha; apply mget_r; now apply C1).
    destruct p as [c k|e k]; destruct Hp as [Hc Hk]; cbn [value_at at_rest]; rewrite !CC by reflexivity.
    + apply (T1_ext (fun x => H + x * eta (mr m1 XCell [c]) (mr m1 YCell [c]))%R).
      { intros x. unfold M. destruct (holds_init S (small_init eta vx vy tr x) m1 k Hk) as (A & _ & _). rewrite A by exact Hc. reflexivity. }
      split; [ring|]. apply lin_der.
    + set (ve := (cos (mr m1 AngleEdge [e]) * vx (mr m1 XEdge [e]) (mr m1 YEdge [e]) + sin (mr m1 AngleEdge [e]) * vy (mr m1 XEdge [e]) (mr m1 YEdge [e]))%R).
      apply (T1_ext (fun x => 0 + x * ve)%R).
      { intros x. unfold M. destruct (holds_init S (small_init eta vx vy tr x) m1 k Hk) as (_ & A & _). rewrite A by exact Hc. unfold ve. cbn [ini_fields fv small_init ini_vx ini_vy F RA fadd fmul fcos fsin]. ring. }
      split; [ring|]. apply lin_der.
Qed.
End Prog.
