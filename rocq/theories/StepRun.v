(** RK4 and low storage Runge-Kutta steps in terms of the prognostic fields. *)
From Coq Require Import ZArith Reals List Bool Lia Lra.
From Verif Require Import Arith Arrays Prog Conc Launch Mesh AuxVars Tend Model Hex MeshProof MeshMem Over Formulas KernBase Terms KernAux KernTend TendFn StepFn Ready Rel RelRun Relate TendVal StepVal.
Import ListNotations.
Open Scope Z_scope.

Section StepRun.
Context {A : Arith} (S : setup A) (Hok : setup_ok S).
Local Notation cf := (cfg_of S).
Local Notation P := (par_of S).
Local Notation D := (sdims S).
Implicit Types (m : mem A) (y : fields A) (md : add_mode).
Local Notation aux := (aux_fn cf D).

(** ** The loops of the steppers *)
Definition is_st (d : sid) (a : rarr) : bool :=
  match a with HCell s | VnEdge s | TrCell s => if sid_eq_dec s d then true else false | _ => false end.
Ltac nst H := intros ->; cbn in H; destruct (sid_eq_dec _ _); congruence.
Lemma axpy_other d b dt x m a ix : is_st d a = false -> mr (axpy S d b dt x m) a ix = mr m a ix.
Proof.
  intros H. unfold axpy. cbv zeta.
  assert (N1 : a <> HCell d) by nst H. assert (N2 : a <> VnEdge d) by nst H. assert (N3 : a <> TrCell d) by nst H.
  destruct (0 <? ntracers P); now rewrite !upd_other.
Qed.
Lemma holds_other s m m' y : (forall a ix, is_st s a = true -> mr m' a ix = mr m a ix) -> holds S s m y -> holds S s m' y.
Proof.
  intros E H k Hk. destruct (H k Hk) as (H1 & H2 & H3).
  assert (T : (if sid_eq_dec s s then true else false) = true) by (destruct (sid_eq_dec s s); congruence).
  repeat split; intros; rewrite E by exact T; auto.
Qed.
Lemma is_st_ne r d a : r <> d -> is_st r a = true -> is_st d a = false.
Proof.
  intros Hr H. destruct a; cbn in *; try reflexivity; destruct (sid_eq_dec s r), (sid_eq_dec s d); congruence.
Qed.
Lemma holds_axpy_other r d b dt x m y : r <> d -> holds S r m y -> holds S r (axpy S d b dt x m) y.
Proof. intros Hr. apply holds_other. intros a ix Ha. apply axpy_other. now apply (is_st_ne r). Qed.
Lemma holds_axpy d b dt x m y k : holds S b m y -> holds S Tend m k ->
  holds S d (axpy S d b dt x m) (fmap2 (fun u w => u + dt * x * w)%fp y k).
Proof.
  intros Hy Hp j Hj. destruct (Hy j Hj) as (H1 & H2 & H3), (Hp j Hj) as (G1 & G2 & G3).
  unfold axpy. cbv zeta. repeat split; intros.
  - assert (E : forall n, mr (if 0 <? ntracers P then upd D (TrCell d) (upd D (VnEdge d) n (on2 (fun e k x0 => if sid_eq_dec d b then x0 + dt * x * mr m (VnEdge Tend) [e; k] else mr m (VnEdge b) [e; k] + dt * x * mr m (VnEdge Tend) [e; k])))%fp (on3 (fun l c k x0 => if sid_eq_dec d b then x0 + dt * x * mr m (TrCell Tend) [l; c; k] else mr m (TrCell b) [l; c; k] + dt * x * mr m (TrCell Tend) [l; c; k]))%fp
       else upd D (VnEdge d) n (on2 (fun e k x0 => if sid_eq_dec d b then x0 + dt * x * mr m (VnEdge Tend) [e; k] else mr m (VnEdge b) [e; k] + dt * x * mr m (VnEdge Tend) [e; k])))%fp (HCell d) [c; j] = mr n (HCell d) [c; j]).
    { intros n. destruct (0 <? ntracers P); now rewrite !upd_other by discriminate. }
    rewrite E. rewrite upd_same by (cbn [rext]; apply inb2; lia). cbn [on2 fh fmap2].
    destruct (sid_eq_dec d b) as [->|]; now rewrite H1, G1.
  - transitivity (mr (upd D (VnEdge d) m (on2 (fun e k x0 => if sid_eq_dec d b then x0 + dt * x * mr m (VnEdge Tend) [e; k] else mr m (VnEdge b) [e; k] + dt * x * mr m (VnEdge Tend) [e; k])))%fp (VnEdge d) [e; j]).
    { assert (I : inb (rext D (VnEdge d)) [e; j] = true) by (cbn [rext]; apply inb2; lia).
      destruct (0 <? ntracers P); rewrite ?(upd_other D (TrCell d)) by discriminate; rewrite !upd_same by exact I;
        cbn [on2]; rewrite upd_other by discriminate; reflexivity. }
    rewrite upd_same by (cbn [rext]; apply inb2; lia). cbn [on2 fv fmap2].
    destruct (sid_eq_dec d b) as [->|]; now rewrite H2, G2.
  - replace (0 <? ntracers P) with true by (symmetry; apply Z.ltb_lt; lia).
    rewrite upd_same by (cbn [rext]; apply inb3; rewrite d_ntr; lia). cbn [on3 ft fmap2].
    rewrite !upd_other by discriminate. destruct (sid_eq_dec d b) as [->|]; now rewrite H3, G3.
Qed.
Lemma holds_tend_other r t s time md m y : r <> t -> holds S r m y -> holds S r (tendency_fn S t s time md m) y.
Proof.
  intros Hr. apply holds_other. intros a ix Ha.
  assert (N : is_st t a = false) by now apply (is_st_ne r).
  apply tend_other; try (intros ->; discriminate Ha); try nst N. destruct a; try discriminate Ha; reflexivity.
Qed.
Lemma save_other m a ix : is_st Old a = false -> mr (save_fn S m) a ix = mr m a ix.
Proof. intros H. unfold save_fn. cbv zeta. rewrite !upd_other; [reflexivity| | |]; intros ->; discriminate H. Qed.
Lemma holds_save m y : holds S St m y -> holds S Old (save_fn S m) y.
Proof.
  intros H k Hk. destruct (H k Hk) as (H1 & H2 & H3). unfold save_fn. cbv zeta. repeat split; intros.
  - rewrite !(upd_other _ (TrCell Old)), !(upd_other _ (VnEdge Old)) by discriminate.
    rewrite upd_same by (cbn [rext]; apply inb2; lia). auto.
  - rewrite (upd_other _ (TrCell Old)) by discriminate. rewrite upd_same by (cbn [rext]; apply inb2; lia).
    rewrite upd_other by discriminate. auto.
  - rewrite upd_same by (cbn [rext]; apply inb3; rewrite d_ntr; lia). rewrite !upd_other by discriminate. auto.
Qed.

(** ** Components that are not written *)
Definition unforced : Prop := disable_h P = true \/ disable_vn P = true -> hook S = None.
Lemma dz_other m m' : (forall a ix, is_st Tend a = true -> mr m' a ix = mr m a ix) -> disabled_zero S Tend m -> disabled_zero S Tend m'.
Proof.
  intros E H k Hk. destruct (H k Hk) as (H1 & H2). split; intros; rewrite E by reflexivity; auto.
Qed.
Lemma dz_axpy d b dt x m : d <> Tend -> disabled_zero S Tend m -> disabled_zero S Tend (axpy S d b dt x m).
Proof. intros Hd. apply dz_other. intros a ix Ha. apply axpy_other. apply (is_st_ne Tend); congruence. Qed.
Lemma dz_save m : disabled_zero S Tend m -> disabled_zero S Tend (save_fn S m).
Proof. apply dz_other. intros a ix Ha. apply save_other. apply (is_st_ne Tend); congruence. Qed.
Lemma dz_tend s time md m : s <> Tend -> unforced -> wfm D m -> disabled_zero S Tend m ->
  disabled_zero S Tend (tendency_fn S Tend s time md m).
Proof.
  intros Hs Hu Hm H k Hk. destruct (H k Hk) as [H1 H2]. pose proof (ok_wfd S Hok). split; intros E; intros.
  - rewrite val_h by assumption. unfold hk_h. rewrite (Hu (or_introl E)), E. auto.
  - rewrite val_v by assumption. unfold hk_v. rewrite (Hu (or_intror E)), E. auto.
Qed.

(** ** RK4 *)
Definition add (dt : F A) (b : F A) y k : fields A := fmap2 (fun u w => u + dt * b * w)%fp y k.

Lemma tend_holds s time m y k : s <> Tend -> ready S m -> holds S s m y -> disabled_zero S Tend m ->
  tendency_of S time y k -> holds S Tend (tendency_fn S Tend s time Replace m) k.
Proof. intros Hs Hr Hy Hz Hk. apply holds_fn; auto. Qed.

Lemma rk4_eq (t dt : F A) m : rk4_fn S t dt m =
  let m0 := tendency_fn S Tend St t Replace (save_fn S m) in
  let st i n := tendency_fn S Tend Provis (t + rk4_c i * dt)%fp Replace (axpy S Provis Old dt (rk4_a i) (axpy S St St dt (rk4_b i) n)) in
  axpy S St St dt (rk4_b 3) (st 2 (st 1 (st 0 m0))).
Proof. reflexivity. Qed.

Lemma rk4_holds (t dt : F A) m y k1 k2 k3 k4 :
  unforced -> ready S m -> holds S St m y -> disabled_zero S Tend m ->
  tendency_of S t y k1 ->
  tendency_of S (t + rk4_c 0 * dt)%fp (add dt (rk4_a 0) y k1) k2 ->
  tendency_of S (t + rk4_c 1 * dt)%fp (add dt (rk4_a 1) y k2) k3 ->
  tendency_of S (t + rk4_c 2 * dt)%fp (add dt (rk4_a 2) y k3) k4 ->
  let m' := rk4_fn S t dt m in
  holds S St m' (add dt (rk4_b 3) (add dt (rk4_b 2) (add dt (rk4_b 1) (add dt (rk4_b 0) y k1) k2) k3) k4) /\
  disabled_zero S Tend m' /\ ready S m'.
Proof.
  intros Hu Hr Hy Hz T1 T2 T3 T4. cbv zeta. rewrite rk4_eq. cbv zeta.
  (* stage 0 *)
  set (m0 := tendency_fn S Tend St t Replace (save_fn S m)).
  assert (Rs : ready S (save_fn S m)) by (eapply ready_cst; [apply cst_save|exact Hr]).
  assert (Ys : holds S St (save_fn S m) y).
  { eapply holds_other; [|exact Hy]. intros a ix Ha. apply save_other. apply (is_st_ne St); congruence. }
  assert (I0 : ready S m0 /\ holds S St m0 y /\ holds S Old m0 y /\ holds S Tend m0 k1 /\ disabled_zero S Tend m0).
  { unfold m0. split; [eapply ready_cst; [apply cst_tendency|exact Rs]|].
    split; [apply holds_tend_other; [discriminate|exact Ys]|].
    split; [apply holds_tend_other; [discriminate|now apply holds_save]|].
    split; [apply tend_holds with (y := y); auto using dz_save; discriminate|].
    apply dz_tend; auto using dz_save, ready_wfm; discriminate. }
  clearbody m0. clear m Hr Hy Hz Rs Ys.
  (* one stage *)
  assert (step : forall n i x z k, ready S n /\ holds S St n x /\ holds S Old n y /\ holds S Tend n z /\ disabled_zero S Tend n ->
    tendency_of S (t + rk4_c i * dt)%fp (add dt (rk4_a i) y z) k ->
    let n' := tendency_fn S Tend Provis (t + rk4_c i * dt)%fp Replace (axpy S Provis Old dt (rk4_a i) (axpy S St St dt (rk4_b i) n)) in
    ready S n' /\ holds S St n' (add dt (rk4_b i) x z) /\ holds S Old n' y /\ holds S Tend n' k /\ disabled_zero S Tend n').
  { clear - Hok Hu. intros n i x z k (R & Hx & Ho & Hz & Hd) Hk n'.
    set (n1 := axpy S St St dt (rk4_b i) n) in *. set (n2 := axpy S Provis Old dt (rk4_a i) n1) in *.
    assert (R1 : ready S n1) by (eapply ready_cst; [apply cst_axpy|exact R]).
    assert (R2 : ready S n2) by (eapply ready_cst; [apply cst_axpy|exact R1]).
    assert (X1 : holds S St n1 (add dt (rk4_b i) x z)) by now apply holds_axpy.
    assert (O1 : holds S Old n1 y) by (apply holds_axpy_other; [discriminate|exact Ho]).
    assert (Z1 : holds S Tend n1 z) by (apply holds_axpy_other; [discriminate|exact Hz]).
    assert (D1 : disabled_zero S Tend n1) by (apply dz_axpy; [discriminate|exact Hd]).
    assert (X2 : holds S St n2 (add dt (rk4_b i) x z)) by (apply holds_axpy_other; [discriminate|exact X1]).
    assert (O2 : holds S Old n2 y) by (apply holds_axpy_other; [discriminate|exact O1]).
    assert (Q2 : holds S Provis n2 (add dt (rk4_a i) y z)) by now apply holds_axpy.
    assert (D2 : disabled_zero S Tend n2) by (apply dz_axpy; [discriminate|exact D1]).
    split; [eapply ready_cst; [apply cst_tendency|exact R2]|].
    split; [apply holds_tend_other; [discriminate|exact X2]|].
    split; [apply holds_tend_other; [discriminate|exact O2]|].
    split; [apply tend_holds with (y := add dt (rk4_a i) y z); auto; discriminate|].
    apply dz_tend; auto using ready_wfm; discriminate. }
  cbv zeta in step.
  pose proof (step m0 0 y k1 k2 I0 T2) as I1. set (m1 := tendency_fn S Tend Provis _ _ (axpy S Provis Old _ _ (axpy S St St _ _ m0))) in *.
  pose proof (step m1 1 _ k2 k3 I1 T3) as I2. set (m2 := tendency_fn S Tend Provis _ _ (axpy S Provis Old _ _ (axpy S St St _ _ m1))) in *.
  pose proof (step m2 2 _ k3 k4 I2 T4) as I3. set (m3 := tendency_fn S Tend Provis _ _ (axpy S Provis Old _ _ (axpy S St St _ _ m2))) in *.
  destruct I3 as (R3 & X3 & _ & Z3 & D3).
  split; [now apply holds_axpy|]. split; [apply dz_axpy; [discriminate|exact D3]|].
  eapply ready_cst; [apply cst_axpy|exact R3].
Qed.

(** ** Low storage Runge-Kutta *)
Lemma scale_other x m a ix : is_st Tend a = false -> mr (scale_fn S x m) a ix = mr m a ix.
Proof.
  intros H. unfold scale_fn. cbv zeta.
  assert (N1 : a <> HCell Tend) by (intros ->; discriminate H). assert (N2 : a <> VnEdge Tend) by (intros ->; discriminate H).
  assert (N3 : a <> TrCell Tend) by (intros ->; discriminate H).
  destruct (0 <? ntracers P); now rewrite !upd_other.
Qed.
Lemma holds_scale x m p : holds S Tend m p ->
  holds S Tend (scale_fn S x m) (mkFields (fun c k => fh p c k * x) (fun e k => fv p e k * x) (fun l c k => ft p l c k * x))%fp.
Proof.
  intros H k Hk. destruct (H k Hk) as (H1 & H2 & H3). unfold scale_fn. cbv zeta. repeat split; intros; cbn [fh fv ft].
  - transitivity (mr (upd D (HCell Tend) m (on2 (fun c k u => u * x)))%fp (HCell Tend) [c; k]).
    { destruct (0 <? ntracers P); now rewrite ?(upd_other _ (TrCell Tend)), ?(upd_other _ (VnEdge Tend)) by discriminate. }
    rewrite upd_same by (cbn [rext]; apply inb2; lia). cbn [on2]. now rewrite H1.
  - transitivity (mr (upd D (VnEdge Tend) m (on2 (fun c k u => u * x)))%fp (VnEdge Tend) [e; k]).
    { assert (I : inb (rext D (VnEdge Tend)) [e; k] = true) by (cbn [rext]; apply inb2; lia).
      destruct (0 <? ntracers P); rewrite ?(upd_other D (TrCell Tend)) by discriminate; rewrite !upd_same by exact I;
        cbn [on2]; rewrite upd_other by discriminate; reflexivity. }
    rewrite upd_same by (cbn [rext]; apply inb2; lia). cbn [on2]. now rewrite H2.
  - replace (0 <? ntracers P) with true by (symmetry; apply Z.ltb_lt; lia).
    rewrite upd_same by (cbn [rext]; apply inb3; rewrite d_ntr; lia). cbn [on3].
    rewrite !upd_other by discriminate. now rewrite H3.
Qed.
(** ** Invariants of whole runs *)
Lemma rk4_inv (J : mem A -> Prop) :
  (forall m, J m -> J (save_fn S m)) ->
  (forall s time m, s = St \/ s = Provis -> J m -> J (tendency_fn S Tend s time Replace m)) ->
  (forall dt i m, J m -> J (axpy S St St dt (rk4_b i) m)) ->
  (forall dt i m, J m -> J (axpy S Provis Old dt (rk4_a i) m)) ->
  forall steps m, J m -> J (rk4_run_fn S steps m).
Proof.
  intros H1 H2 H3 H4. induction steps as [|[t dt] l IH]; intros m Hm; [exact Hm|].
  change (J (rk4_run_fn S l (rk4_fn S t dt m))). apply IH. rewrite rk4_eq. cbv zeta.
  assert (St' : forall i n, J n -> J (tendency_fn S Tend Provis (t + rk4_c i * dt)%fp Replace (axpy S Provis Old dt (rk4_a i) (axpy S St St dt (rk4_b i) n)))) by auto.
  auto 10.
Qed.
Lemma lsrk_inv n (J : mem A -> Prop) :
  (forall i m, J m -> J (scale_fn S (lsrk_a n i) m)) ->
  (forall time m, J m -> J (tendency_fn S Tend St time Increment m)) ->
  (forall dt i m, J m -> J (axpy S St St dt (lsrk_b n i) m)) ->
  forall steps m, J m -> J (lsrk_run_fn S n steps m).
Proof.
  intros H1 H2 H3. induction steps as [|[t dt] l IH]; intros m Hm; [exact Hm|].
  change (J (lsrk_run_fn S n l (lsrk_fn S n t dt m))). apply IH. clear IH. unfold lsrk_fn. revert m Hm.
  induction (zseq n) as [|i z IHz]; intros m Hm; [exact Hm|]. cbn [fold_left]. apply IHz. unfold lsrk_stage_fn. auto.
Qed.
Lemma rd_rk4_run steps m : ready S m -> hsafe D (rk4_run S steps) m (fun M => meq M (rk4_run_fn S steps m)).
Proof. intros Hr. apply hs_rk4_run; auto using ready_wfm. Qed.
Lemma rd_lsrk_run n steps m : ready S m -> hsafe D (lsrk_run S n steps) m (fun M => meq M (lsrk_run_fn S n steps m)).
Proof. intros Hr. apply hs_lsrk_run; auto using ready_wfm. Qed.
End StepRun.

(** Ring equations between values of [F RA]. *)
Ltac rring := cbn [F fadd fsub fmul fdiv fofZ RA]; apply Rminus_diag_uniq; ring.

(** ** Over the reals: increment mode adds *)
Section StepR.
Context (S : setup RA) (Hok : setup_ok S).
Local Notation cf := (cfg_of S).
Local Notation P := (par_of S).
Local Notation D := (sdims S).
Implicit Types (m : mem RA) (y : fields RA) (md : add_mode).
Local Notation aux := (aux_fn cf D).
Local Open Scope R_scope.

Lemma hadv_add s (m : mem RA) c k (x : R) : t_hadv m s c k x = x + t_hadv (A:=RA) m s c k 0.
Proof. unfold t_hadv. rring. Qed.
Lemma vn_add t s m e k (x : R) : g_vn S t s Increment m e k x = x + g_vn S t s Replace m e k x.
Proof.
  unfold g_vn, t_vhyp, t_vdiff, t_sshgrad, t_kegrad, t_pv, zr. cbn [is_replace].
  destruct (vel_diff_enabled P), (vel_hyperdiff_enabled P), (ksimd cf); rring.
Qed.
Lemma vn_rep t s m e k (x x' : R) : g_vn S t s Replace m e k x = g_vn S t s Replace m e k x'.
Proof. reflexivity. Qed.
Lemma tr_add t s m l c k (x : R) : g_tr S t s Increment m l c k x = x + g_tr S t s Replace m l c k x.
Proof.
  unfold g_tr, t_trhadv, t_trdiff, t_trhyp, zr. cbn [is_replace].
  destruct (tracer_diff_enabled P), (tracer_hyperdiff_enabled P); rring.
Qed.

(** The tendency arrays set to zero. *)
Definition ztend m : mem RA :=
  Mem (mi m) (fun a ix => match a with HCell Tend | VnEdge Tend | TrCell Tend => 0 | _ => mr m a ix end).
Lemma zt_hadv m c k x : t_hadv (aux St (ztend m)) St c k x = t_hadv (aux St m) St c k x.
Proof. reflexivity. Qed.
Lemma zt_vn md m e k x : g_vn S Tend St md (hyp_fn S (aux St (ztend m))) e k x = g_vn S Tend St md (hyp_fn S (aux St m)) e k x.
Proof. unfold hyp_fn, g_vn. destruct (vel_hyperdiff_enabled P); reflexivity. Qed.
Lemma zt_tr md m l c k x : g_tr S Tend St md (trdel2_fn S (aux St (ztend m))) l c k x = g_tr S Tend St md (trdel2_fn S (aux St m)) l c k x.
Proof. unfold trdel2_fn, g_tr. destruct (tracer_hyperdiff_enabled P); reflexivity. Qed.

Lemma inc_holds time m y p k : ready S m -> holds S St m y -> holds S Tend m p -> tendency_of S time y k ->
  holds S Tend (tendency_fn S Tend St time Increment m) (fmap2 (A:=RA) Rplus p k).
Proof.
  intros Hr Hy Hp Hk. pose proof (ok_wfd S Hok) as Hd.
  assert (Rz : ready S (ztend m)).
  { eapply ready_frame; [|exact Hr]. intros [a ix|a ix] Ha; [reflexivity|]. destruct a; try discriminate Ha; reflexivity. }
  assert (Hz : holds S Tend (tendency_fn S Tend St time Replace (ztend m)) k).
  { apply tend_holds with (y := y); auto; try discriminate. intros j Hj. split; intros; reflexivity. }
  pose proof (ready_wfm S Hok m Hr) as W. pose proof (ready_wfm S Hok _ Rz) as Wz.
  intros j Hj. destruct (Hp j Hj) as (P1 & P2 & P3), (Hz j Hj) as (Z1 & Z2 & Z3). repeat split; intros; cbn [fh fv ft fmap2].
  - rewrite <- Z1, <- P1 by assumption. rewrite !val_h by assumption. unfold hk_h, hook_h.
    rewrite zt_hadv. unfold zr. cbn [is_replace fofZ RA]. rewrite (hadv_add St (aux St m) c j (mr m (HCell Tend) [c; j])).
    change (mr (ztend m) (HCell Tend) [c; j]) with 0%R.
    change (mr (ztend m) XCell) with (mr m XCell). change (mr (ztend m) YCell) with (mr m YCell).
    destruct (hook S), (disable_h P); rring.
  - rewrite <- Z2, <- P2 by assumption. rewrite !val_v by (assumption || discriminate). unfold hk_v, hook_v.
    rewrite zt_vn. rewrite vn_add. change (mr (ztend m) (VnEdge Tend) [e; j]) with 0%R.
    rewrite (vn_rep _ _ _ _ _ 0%R (mr m (VnEdge Tend) [e; j])).
    change (mr (ztend m) XEdge) with (mr m XEdge). change (mr (ztend m) YEdge) with (mr m YEdge).
    change (mr (ztend m) AngleEdge) with (mr m AngleEdge).
    destruct (hook S), (disable_vn P); rring.
  - rewrite <- Z3, <- P3 by assumption. rewrite !val_tr by (assumption || discriminate).
    rewrite zt_tr. rewrite tr_add. reflexivity.
Qed.

Lemma lsrk_stage_holds n (t dt : R) i m y p k :
  ready S m -> holds S St m y -> holds S Tend m p -> tendency_of S (t + lsrk_c (A:=RA) n i * dt) y k ->
  let p' := fmap2 (A:=RA) (fun u w => lsrk_a (A:=RA) n i * u + w) p k in
  let m' := lsrk_stage_fn S n t dt i m in
  ready S m' /\ holds S St m' (fmap2 (A:=RA) (fun u w => u + dt * lsrk_b (A:=RA) n i * w) y p') /\ holds S Tend m' p'.
Proof.
  intros Hr Hy Hp Hk p' m'. unfold m', lsrk_stage_fn. clear m'.
  set (m1 := scale_fn S (lsrk_a n i) m).
  assert (R1 : ready S m1) by (eapply ready_cst; [apply cst_scale|exact Hr]).
  assert (Y1 : holds S St m1 y).
  { eapply holds_other; [|exact Hy]. intros a ix Ha. apply scale_other. apply (is_st_ne St); congruence. }
  assert (P1 := holds_scale S (lsrk_a n i) m p Hp). fold m1 in P1. clearbody m1.
  assert (P2 := inc_holds _ m1 y _ k R1 Y1 P1 Hk).
  set (m2 := tendency_fn S Tend St _ Increment m1) in *.
  assert (R2 : ready S m2) by (eapply ready_cst; [apply cst_tendency|exact R1]).
  assert (Y2 : holds S St m2 y) by (apply holds_tend_other; [discriminate|exact Y1]).
  assert (P2' : holds S Tend m2 p').
  { intros j Hj. destruct (P2 j Hj) as (Q1 & Q2 & Q3). unfold p'. cbn [fmap2 fh fv ft] in *. cbn [fmul RA] in *.
    repeat split; intros; [rewrite Q1|rewrite Q2|rewrite Q3]; auto; rring. }
  split; [eapply ready_cst; [apply cst_axpy|exact R2]|]. split.
  - exact (holds_axpy S St St dt (lsrk_b n i) m2 y p' Y2 P2').
  - apply holds_axpy_other; [discriminate|exact P2'].
Qed.

Lemma lsrk_holds n (t dt : R) m (Y Q K : Z -> fields RA) :
  (0 <= n)%Z -> ready S m -> holds S St m (Y 0%Z) -> holds S Tend m (Q 0%Z) ->
  (forall i, (0 <= i < n)%Z -> tendency_of S (t + lsrk_c (A:=RA) n i * dt) (Y i) (K i) /\
     Q (i + 1)%Z = fmap2 (A:=RA) (fun u w => lsrk_a (A:=RA) n i * u + w) (Q i) (K i) /\
     Y (i + 1)%Z = fmap2 (A:=RA) (fun u w => u + dt * lsrk_b (A:=RA) n i * w) (Y i) (Q (i + 1)%Z)) ->
  let m' := lsrk_fn S n t dt m in ready S m' /\ holds S St m' (Y n) /\ holds S Tend m' (Q n).
Proof.
  intros Hn Hr HY HQ H. cbv zeta. unfold lsrk_fn.
  assert (G : forall j, (0 <= j <= n)%Z ->
    let m' := fold_left (fun m i => lsrk_stage_fn S n t dt i m) (zseq j) m in
    ready S m' /\ holds S St m' (Y j) /\ holds S Tend m' (Q j)).
  2:{ apply G. lia. }
  intros j Hj. destruct Hj as [Hj0 Hjn]. revert Hjn. pattern j. apply natlike_ind; [| |exact Hj0].
  - intros _. cbn. auto.
  - clear j Hj0. intros j Hj0 IH Hjn. specialize (IH ltac:(lia)). cbv zeta in *.
    assert (Ez : zseq (Z.succ j) = zseq j ++ [j]).
    { unfold zseq. rewrite Z2Nat.inj_succ by lia. rewrite seq_S, map_app. cbn. now rewrite Z2Nat.id by lia. }
    rewrite Ez, fold_left_app. cbn [fold_left]. set (m1 := fold_left _ (zseq j) m) in *. clearbody m1.
    destruct IH as (R1 & Y1 & Q1). destruct (H j ltac:(lia)) as (Tk & Eq & Ey).
    pose proof (lsrk_stage_holds n t dt j m1 (Y j) (Q j) (K j) R1 Y1 Q1 Tk) as L. cbv zeta in L.
    rewrite <- Eq, <- Ey in L. rewrite <- Z.add_1_r. exact L.
Qed.
End StepR.
