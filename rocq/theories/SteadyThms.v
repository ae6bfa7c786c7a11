(** Proofs of the properties of [PropsSteady.v]. *)
From Coq Require Import ZArith Reals List Bool Lia Lra.
From Verif Require Import Arith Arrays Prog Conc Launch Mesh AuxVars Tend Model Hex RSum Spec MeshProof MeshMem MeshR Over Formulas KernBase Terms KernAux KernTend TendFn StepFn Ready Rel RelRun Relate TendVal StepVal StepRun StepThms RealTend SumParts Diag FieldInv ConsBase ConsThms.
Import ListNotations.
Open Scope Z_scope.

Section Steady.
Context (S : setup RA) (Hok : setup_ok S) (Hdc : (0 < (dc (mesh_of_setup S) : R))%R) (m : mem RA) (Hr : ready S m).
Local Notation P := (par_of S).
Local Notation NC := (nx (mesh_of_setup S) * ny (mesh_of_setup S)).
Local Notation NL := (d_nlayers (sdims S)).
Let Hw : wfm (sdims S) m := ready_wfm S Hok m Hr.

Lemma grad_flat phi e : (forall c c', 0 <= c < NC -> 0 <= c' < NC -> phi c = phi c') -> 0 <= e < 3 * NC -> grad m phi e = 0%R.
Proof. intros E He. apply grad_const. apply E; apply (wf_coe _ _ Hw); lia || assumption. Qed.
Lemma rgrad_flat phi e : (forall c c', 0 <= c < 2 * NC -> 0 <= c' < 2 * NC -> phi c = phi c') -> 0 <= e < 3 * NC -> rgrad m phi e = 0%R.
Proof. intros E He. apply rgrad_const. apply E; apply (wf_voe _ _ Hw); lia || assumption. Qed.
Definition still (u : Z -> R) : Prop := (forall c, 0 <= c < NC -> outflow m u c = 0%R) /\ (forall v, 0 <= v < 2 * NC -> circ m u v = 0%R).
Lemma zero_still u : (forall e, 0 <= e < 3 * NC -> u e = 0%R) -> still u.
Proof. intros E. split; intros; [now apply (outflow_zero S Hok m Hr)|now apply (circ_zero S Hok m Hr)]. Qed.
Lemma vlap'_still u u' e : (forall c, 0 <= c < NC -> outflow m u c = 0%R) -> (forall v, 0 <= v < 2 * NC -> circ m u' v = 0%R) ->
  0 <= e < 3 * NC -> vlap' m u u' e = 0%R.
Proof.
  intros H1 H2 He. unfold vlap'. rewrite grad_flat, rgrad_flat; try assumption; [ring| |].
  - intros v v' Hv Hv'. unfold vort. rewrite !H2 by assumption. unfold Rdiv. ring.
  - intros c c' Hc Hc'. now rewrite !H1.
Qed.
Lemma vlap_still u e : still u -> 0 <= e < 3 * NC -> vlap m u e = 0%R.
Proof. intros [H1 H2] He. now apply (vlap'_still u u). Qed.

Lemma vtend_still s j e (u := fun e => mr m (VnEdge s) [e; j] : R) (u' := fun e => mr m (VnEdge s) [e; rv_layer (cfg_of S) j] : R)
  (q := fun c => mr m (HCell s) [c; j] : R) :
  0 <= e < 3 * NC -> pvflux m (f0 P) q u e = 0%R -> (forall c c', 0 <= c < NC -> 0 <= c' < NC -> kin m u c = kin m u c') ->
  (forall c c', 0 <= c < NC -> 0 <= c' < NC -> q c = q c') -> still u -> still u' -> vtend S m s j e = 0%R.
Proof.
  intros He Hp Hk Hq Hu Hu'. unfold vtend. fold u. fold u'. fold q. rewrite Hp.
  assert (Vu : still (vlap m u)) by (apply zero_still; intros; now apply vlap_still).
  assert (Vu' : still (vlap m u')) by (apply zero_still; intros; now apply vlap_still).
  rewrite (grad_flat (kin m u)), (grad_flat q) by assumption. rewrite (vlap_still u) by assumption.
  rewrite (vlap'_still (vlap m u) (vlap m u') e (proj1 Vu) (proj2 Vu') He).
  destruct (vel_diff_enabled P), (vel_hyperdiff_enabled P); cbn [F RA]; ring.
Qed.
Lemma ttend_rest s j l c : 0 <= c < NC -> (forall e, 0 <= e < 3 * NC -> mr m (VnEdge s) [e; j] = 0%R) ->
  (((eddy_diff2 P : R) <= 0)%R /\ ((eddy_diff4 P : R) <= 0)%R) \/
  (forall c c', 0 <= c < NC -> 0 <= c' < NC -> (mr m (TrCell s) [l; c; j] / mr m (HCell s) [c; j] = mr m (TrCell s) [l; c'; j] / mr m (HCell s) [c'; j])%R) ->
  ttend S m s j l c = 0%R.
Proof.
  intros Hc Hu Ht. unfold ttend. cbv zeta.
  rewrite (outflow_zero S Hok m Hr); [|assumption|]. 2:{ intros e He. rewrite Hu by assumption. ring. }
  destruct Ht as [[T2 T4]|Ht].
  - unfold tracer_diff_enabled, tracer_hyperdiff_enabled. rewrite !disabled_le by assumption. cbn [F RA]. ring.
  - assert (G : forall c, 0 <= c < NC -> outflow m (fun e => emean m (fun c => mr m (HCell s) [c; j]) e * grad m (fun c => mr m (TrCell s) [l; c; j] / mr m (HCell s) [c; j]) e)%R c = 0%R).
    { intros c' Hc'. apply (outflow_zero S Hok m Hr); [assumption|]. intros e He. rewrite (grad_flat (fun c => mr m (TrCell s) [l; c; j] / mr m (HCell s) [c; j])%R) by assumption. ring. }
    rewrite G by assumption. rewrite (outflow_zero S Hok m Hr); [|assumption|].
    + destruct (tracer_diff_enabled P), (tracer_hyperdiff_enabled P); cbn [F RA]; ring.
    + intros e He. apply grad_flat; [|assumption]. intros. now rewrite !G.
Qed.
End Steady.


Lemma Rsum_zero_each l f : (forall x : Z, In x l -> (0 <= f x)%R) -> Rsum l f = 0%R -> forall x, In x l -> f x = 0%R.
Proof.
  induction l as [|a l IH]; intros H E x Hx; [destruct Hx|].
  assert (Q : (0 <= Rsum l f)%R) by (apply Rsum_nonneg; intros; apply H; now right).
  assert (Ha : (0 <= f a)%R) by (apply H; now left). unfold Rsum in E. cbn [fold_right] in E. fold (Rsum l f) in E.
  destruct Hx as [->|Hx]; [lra|]. apply IH; [intros; apply H; now right|lra|exact Hx].
Qed.
Lemma rsum_zero_each n f : (forall i, 0 <= i < n -> (0 <= f i)%R) -> rsum n f = 0%R -> forall i, 0 <= i < n -> f i = 0%R.
Proof. intros H E i Hi. apply (Rsum_zero_each (zseq n) f); [intros x Hx; apply H; now apply in_zseq|exact E|now apply in_zseq]. Qed.

(** The same setup with another coefficient. *)
Definition set_eddy_diff2 {A} (S : setup A) (x : F A) : setup A := let P := par_of S in
  mkSetup (cfg_of S) (mesh_of_setup S) (mkParams (f0 P) (grav P) (drag_coeff P) (visc_del2 P) (visc_del4 P) x (eddy_diff4 P) (ntracers P) (disable_h P) (disable_vn P)) (hook S).
Definition set_visc_del2 {A} (S : setup A) (x : F A) : setup A := let P := par_of S in
  mkSetup (cfg_of S) (mesh_of_setup S) (mkParams (f0 P) (grav P) (drag_coeff P) x (visc_del4 P) (eddy_diff2 P) (eddy_diff4 P) (ntracers P) (disable_h P) (disable_vn P)) (hook S).
Definition set_visc_del4 {A} (S : setup A) (x : F A) : setup A := let P := par_of S in
  mkSetup (cfg_of S) (mesh_of_setup S) (mkParams (f0 P) (grav P) (drag_coeff P) (visc_del2 P) x (eddy_diff2 P) (eddy_diff4 P) (ntracers P) (disable_h P) (disable_vn P)) (hook S).


Lemma hyper_diff (S : setup RA) (Hok : setup_ok S) (Hdc : (0 < (dc (mesh_of_setup S) : R))%R) t s time md (m m1 m0 : mem RA) : s <> t -> ready S m ->
  exec (sdims S) (compute_tendency S t s time md) m (OK m1) ->
  exec (sdims S) (compute_tendency (set_visc_del4 S (IZR 0)) t s time md) m (OK m0) ->
  forall k, 0 <= k < d_nlayers (sdims S) -> forall (u := fun e => mr m (VnEdge s) [e; k] : R) (u' := fun e => mr m (VnEdge s) [e; rv_layer (cfg_of S) k] : R),
  rsum (d_nedges (sdims S)) (fun e => (mr m DcEdge [e] : R) * mr m DvEdge [e] * mr m (VnEdge s) [e; k] * (mr m1 (VnEdge t) [e; k] - mr m0 (VnEdge t) [e; k]))%R =
  (- (if disable_vn (par_of S) then 0 else if vel_hyperdiff_enabled (par_of S) then visc_del4 (par_of S) : R else 0) *
   rsum (3 * (nx (mesh_of_setup S) * ny (mesh_of_setup S))) (fun e => (mr m DcEdge [e] : R) * mr m DvEdge [e] * u e * vlap' m (vlap m u) (vlap m u') e))%R.
Proof.
  intros Hs Hr X1 X0 k Hk u u'.
  apply (tendency_exec S Hok) in X1; auto. apply (tendency_exec (set_visc_del4 S (IZR 0)) Hok) in X0; auto.
  destruct X1 as [_ X1], X0 as [_ X0].
  rewrite <- rsum_scal. apply rsum_ext.
  intros e He. rewrite X1, X0. rewrite (T_v S Hok Hdc m Hr), (T_v (set_visc_del4 S (IZR 0)) Hok Hdc m Hr) by assumption.
  unfold hk_v, hook_v, vtend. cbn [set_visc_del4 par_of hook cfg_of].
  assert (E0 : vel_hyperdiff_enabled (mkParams (f0 (par_of S)) (grav (par_of S)) (drag_coeff (par_of S)) (visc_del2 (par_of S)) (IZR 0) (eddy_diff2 (par_of S)) (eddy_diff4 (par_of S)) (ntracers (par_of S)) (disable_h (par_of S)) (disable_vn (par_of S))) = false)
    by (apply disabled_le; apply Rle_refl).
  rewrite E0. unfold vel_diff_enabled. cbn [f0 grav visc_del2 disable_vn]. fold u. fold u'. change (mr m (VnEdge s) [e; k]) with (u e).
  destruct (disable_vn (par_of S)), (vel_hyperdiff_enabled (par_of S)), (hook S); try match goal with |- context [flt ?x ?y] => destruct (flt x y) end; rring.
Qed.

Lemma C30_lake_at_rest_proof :
  forall (S : setup RA), setup_ok S -> (0 < (dc (mesh_of_setup S) : R))%R ->
  hook S = None ->
  forall (H : Z -> R) (m : mem RA), ready S m -> disabled_zero S Tend m ->
  (forall k c, 0 <= k < d_nlayers (sdims S) -> 0 <= c < d_ncells (sdims S) -> mr m (HCell St) [c; k] = H k) ->
  (forall k e, 0 <= k < d_nlayers (sdims S) -> 0 <= e < d_nedges (sdims S) -> mr m (VnEdge St) [e; k] = 0%R) ->
  (((eddy_diff2 (par_of S) : R) <= 0)%R /\ ((eddy_diff4 (par_of S) : R) <= 0)%R \/
   exists T : Z -> Z -> R, forall l k c, 0 <= l < ntracers (par_of S) -> 0 <= k < d_nlayers (sdims S) -> 0 <= c < d_ncells (sdims S) ->
     mr m (TrCell St) [l; c; k] = T l k) ->
  (forall time, always (sdims S) (compute_tendency S Tend St time Replace) m (fun m' => forall k, 0 <= k < d_nlayers (sdims S) ->
    (forall c, 0 <= c < d_ncells (sdims S) -> mr m' (HCell Tend) [c; k] = 0%R) /\
    (forall e, 0 <= e < d_nedges (sdims S) -> mr m' (VnEdge Tend) [e; k] = 0%R) /\
    (forall l c, 0 <= l < ntracers (par_of S) -> 0 <= c < d_ncells (sdims S) -> mr m' (TrCell Tend) [l; c; k] = 0%R))) /\
  let unchanged (m' : mem RA) := forall k, 0 <= k < d_nlayers (sdims S) ->
    (forall c, 0 <= c < d_ncells (sdims S) -> mr m' (HCell St) [c; k] = mr m (HCell St) [c; k]) /\
    (forall e, 0 <= e < d_nedges (sdims S) -> mr m' (VnEdge St) [e; k] = mr m (VnEdge St) [e; k]) /\
    (forall l c, 0 <= l < ntracers (par_of S) -> 0 <= c < d_ncells (sdims S) -> mr m' (TrCell St) [l; c; k] = mr m (TrCell St) [l; c; k]) in
  forall steps : list (R * R), always (sdims S) (rk4_run S steps) m unchanged /\ forall n, always (sdims S) (lsrk_run S n steps) m unchanged.
Proof.
  intros S Hok Hdc Hf H m Hr Hz Hh Hv Ht.
  set (zero := fun (k : fields RA) => forall j, 0 <= j < d_nlayers (sdims S) ->
    (forall c, 0 <= c < d_ncells (sdims S) -> fh k c j = 0%R) /\ (forall e, 0 <= e < d_nedges (sdims S) -> fv k e j = 0%R) /\
    (forall l c, 0 <= l < ntracers (par_of S) -> 0 <= c < d_ncells (sdims S) -> ft k l c j = 0%R)).
  set (L := fun y => holds S St m y).
  assert (HK : forall time y k, L y -> tendency_of S time y k -> zero k).
  { intros time y k Ly T j Hj. destruct (tend_of S Hok Hdc m Hr time y k T j Hj) as (A1 & A2 & A3).
    pose proof (ymem_ready S m Hr y) as Ry.
    assert (Vz : forall i e, 0 <= i < d_nlayers (sdims S) -> 0 <= e < d_nedges (sdims S) -> fv y e i = 0%R).
    { intros i e Hi He. destruct (Ly i Hi) as (_ & E & _). rewrite <- E by assumption. auto. }
    assert (Hc0 : forall c, 0 <= c < d_ncells (sdims S) -> fh y c j = H j).
    { intros c Hc. destruct (Ly j Hj) as (E & _). rewrite <- E by assumption. auto. }
    repeat split.
    - intros c Hc. rewrite A1 by assumption. unfold hk_h. rewrite Hf. destruct (disable_h (par_of S)); [reflexivity|].
      rewrite (outflow_zero S Hok m Hr); [lra|assumption|]. intros e He. rewrite Vz by assumption. ring.
    - intros e He. rewrite A2 by assumption. unfold hk_v. rewrite Hf. destruct (disable_vn (par_of S)); [reflexivity|].
      apply (vtend_still S Hok (ymem m y) Ry); [assumption| | | | |].
      + unfold pvflux. apply rsum_zero. intros i Hi. cbv zeta.
        change (mr (ymem m y) (VnEdge St) [mi (ymem m y) EdgesOnEdge [e; i]; j]) with (fv y (mi (ymem m y) EdgesOnEdge [e; i]) j).
        rewrite Vz; [ring|assumption|]. apply (wf_eoe _ _ (ready_wfm S Hok _ Ry)); assumption.
      + assert (Kz : forall c, 0 <= c < nx (mesh_of_setup S) * ny (mesh_of_setup S) -> kin (ymem m y) (fun e => mr (ymem m y) (VnEdge St) [e; j]) c = 0%R).
        { intros c Hc. unfold kin. rewrite rsum_zero; [unfold Rdiv; ring|]. intros i Hi. cbv zeta.
          change (mr (ymem m y) (VnEdge St) [mi (ymem m y) EdgesOnCell [c; i]; j]) with (fv y (mi (ymem m y) EdgesOnCell [c; i]) j).
          rewrite Vz; [ring|assumption|]. rewrite (hm_noc _ _ _ (ready_hex S Hok _ Ry)) in Hi by assumption. now apply (wf_eoc _ _ (ready_wfm S Hok _ Ry)). }
        intros. now rewrite !Kz.
      + intros c c' Hc Hc'. change (fh y c j = fh y c' j). now rewrite !Hc0.
      + apply zero_still; [exact Hok|exact Ry|]. intros e' He'. now apply Vz.
      + apply zero_still; [exact Hok|exact Ry|]. intros e' He'. apply Vz; [|assumption]. now apply (rv_range S (ok_wfd S Hok)).
    - intros l c Hl Hc. rewrite A3 by assumption. apply (ttend_rest S Hok (ymem m y) Ry); [assumption| |].
      + intros e He. now apply Vz.
      + destruct Ht as [Ht|[T0 Ht]]; [now left|right]. intros c1 c2 H1 H2.
        change ((ft y l c1 j / fh y c1 j)%R = (ft y l c2 j / fh y c2 j)%R). rewrite !Hc0 by assumption.
        destruct (Ly j Hj) as (_ & _ & E). rewrite <- !E, !Ht by assumption. reflexivity. }
  split.
  - intros time. destruct (tendency_ex S Hok time (fld St m)) as [k T].
    assert (Zk : zero k) by (eapply HK; [apply holds_fld|exact T]).
    destruct (T St m ltac:(discriminate) Hr (holds_fld S St m) Hz) as [C D]. split; [|exact D].
    intros o X. destruct (C o X) as (M & EM & Q). exists M. split; [exact EM|]. intros j Hj.
    destruct (Q j Hj) as (Q1 & Q2 & Q3). destruct (Zk j Hj) as (Z1 & Z2 & Z3).
    repeat split; intros; rewrite ?Q1, ?Q2, ?Q3 by assumption; auto.
  - intros unchanged steps.
    assert (HL : forall b y k, L y -> zero k -> L (fmap2 (A:=RA) (fun u w => (u + b * w)%R) y k)).
    { intros b y k Ly Zk j Hj. destruct (Ly j Hj) as (E1 & E2 & E3). destruct (Zk j Hj) as (Z1 & Z2 & Z3).
      split; [|split]; intros; cbn [fmap2 fh fv ft]; rewrite ?E1, ?E2, ?E3, ?Z1, ?Z2, ?Z3 by assumption; rring. }
    assert (HA : forall a q k, zero q -> zero k -> zero (fmap2 (A:=RA) (fun u w => (a * u + w)%R) q k)).
    { intros a q k Zq Zk j Hj. destruct (Zq j Hj) as (E1 & E2 & E3). destruct (Zk j Hj) as (Z1 & Z2 & Z3).
      repeat split; intros; cbn [fmap2 fh fv ft]; rewrite ?E1, ?E2, ?E3, ?Z1, ?Z2, ?Z3 by assumption; rring. }
    assert (U : forall M N y, meq M N -> holds S St N y -> L y -> unchanged M).
    { intros M N y [_ E] Hy Ly j Hj. destruct (Hy j Hj) as (E1 & E2 & E3). destruct (Ly j Hj) as (Z1 & Z2 & Z3).
      repeat split; intros; rewrite E; rewrite ?E1, ?E2, ?E3, ?Z1, ?Z2, ?Z3 by assumption; reflexivity. }
    split; [|intros n].
    + eapply always_fn; [apply rd_rk4_run; auto|]. intros M E.
      destruct (closed_rk4 S Hok L zero HK HL steps m (fld St m)) as (y & Hy & Ly); auto using holds_fld; [intros _; exact Hf|apply holds_fld|].
      eapply U; eauto.
    + eapply always_fn; [apply rd_lsrk_run; auto|]. intros M E.
      destruct (closed_lsrk S Hok L zero HK HL HA n steps m (fld St m)) as (y & Hy & Ly); auto using holds_fld; [apply holds_fld|].
      eapply U; eauto.
Qed.

Lemma C31_uniform_flow_proof :
  forall (S : setup RA), setup_ok S -> (0 < (dc (mesh_of_setup S) : R))%R ->
  2 <= nx (mesh_of_setup S) -> 2 <= ny (mesh_of_setup S) ->
  hook S = None -> f0 (par_of S) = 0%R ->
  forall (H U V : Z -> R) (m : mem RA), ready S m -> disabled_zero S Tend m ->
  (forall k c, 0 <= k < d_nlayers (sdims S) -> 0 <= c < d_ncells (sdims S) -> mr m (HCell St) [c; k] = H k) ->
  (forall k e, 0 <= k < d_nlayers (sdims S) -> 0 <= e < d_nedges (sdims S) ->
    mr m (VnEdge St) [e; k] = (U k * cos (mr m AngleEdge [e]) + V k * sin (mr m AngleEdge [e]))%R) ->
  (forall time, always (sdims S) (compute_tendency S Tend St time Replace) m (fun m' => forall k, 0 <= k < d_nlayers (sdims S) ->
    (forall c, 0 <= c < d_ncells (sdims S) -> mr m' (HCell Tend) [c; k] = 0%R) /\
    (forall e, 0 <= e < d_nedges (sdims S) -> mr m' (VnEdge Tend) [e; k] = 0%R))) /\
  let unchanged (m' : mem RA) := forall k, 0 <= k < d_nlayers (sdims S) ->
    (forall c, 0 <= c < d_ncells (sdims S) -> mr m' (HCell St) [c; k] = mr m (HCell St) [c; k]) /\
    (forall e, 0 <= e < d_nedges (sdims S) -> mr m' (VnEdge St) [e; k] = mr m (VnEdge St) [e; k]) in
  forall steps : list (R * R), always (sdims S) (rk4_run S steps) m unchanged /\ forall n, always (sdims S) (lsrk_run S n steps) m unchanged.
Proof.
  intros S Hok Hdc N1 N2 Hf Hf0 H U V m Hr Hz Hh Hv.
  set (zero := fun (k : fields RA) => forall j, 0 <= j < d_nlayers (sdims S) ->
    (forall c, 0 <= c < d_ncells (sdims S) -> fh k c j = 0%R) /\ (forall e, 0 <= e < d_nedges (sdims S) -> fv k e j = 0%R)).
  set (L := fun (y : fields RA) => forall j, 0 <= j < d_nlayers (sdims S) ->
    (forall c, 0 <= c < d_ncells (sdims S) -> mr m (HCell St) [c; j] = fh y c j) /\ (forall e, 0 <= e < d_nedges (sdims S) -> mr m (VnEdge St) [e; j] = fv y e j)).
  assert (HK : forall time y k, L y -> tendency_of S time y k -> zero k).
  { intros time y k Ly T j Hj. destruct (tend_of S Hok Hdc m Hr time y k T j Hj) as (A1 & A2 & _).
    pose proof (ymem_ready S m Hr y) as Ry.
    assert (Vz : forall i e, 0 <= i < d_nlayers (sdims S) -> 0 <= e < d_nedges (sdims S) -> fv y e i = uni m (U i) (V i) e).
    { intros i e Hi He. destruct (Ly i Hi) as (_ & E). rewrite <- E by assumption. rewrite Hv by assumption. reflexivity. }
    assert (Hc0 : forall c, 0 <= c < d_ncells (sdims S) -> fh y c j = H j).
    { intros c Hc. destruct (Ly j Hj) as (E & _). rewrite <- E by assumption. auto. }
    assert (Us : forall i, 0 <= i < d_nlayers (sdims S) -> still S m (fun e => fv y e i)).
    { intros i Hi. split; intros x Hx.
      - rewrite (outflow_ext S Hok m Hr _ (uni m (U i) (V i))) by (intros; auto). now apply (uni_outflow S Hok m Hr).
      - rewrite (circ_ext S Hok m Hr _ (uni m (U i) (V i))) by (intros; auto). now apply (uni_circ S Hok m Hr). }
    split.
    - intros c Hc. rewrite A1 by assumption. unfold hk_h. rewrite Hf. destruct (disable_h (par_of S)); [reflexivity|].
      rewrite (outflow_ext S Hok m Hr _ (fun e => H j * fv y e j)%R); [| |assumption].
      + rewrite outflow_scal. rewrite (proj1 (Us j Hj)) by assumption. rring.
      + intros e He. f_equal. unfold emean. rewrite !Hc0 by (apply (wf_coe _ _ (ready_wfm S Hok _ Hr)); lia || assumption). field.
    - intros e He. rewrite A2 by assumption. unfold hk_v. rewrite Hf. destruct (disable_vn (par_of S)); [reflexivity|].
      apply (vtend_still S Hok (ymem m y) Ry); [assumption| | | | |].
      + assert (Pz : forall e, 0 <= e < d_nedges (sdims S) -> pvedge (ymem m y) (f0 (par_of S)) (fun c => mr (ymem m y) (HCell St) [c; j]) (fun e => mr (ymem m y) (VnEdge St) [e; j]) e = 0%R).
        { intros e' He'. unfold pvedge, pvort, vort. rewrite Hf0.
          assert (C0 : forall v, 0 <= v < d_nvertices (sdims S) -> circ (ymem m y) (fun e => mr (ymem m y) (VnEdge St) [e; j]) v = 0%R)
            by (intros v Hv'; exact (proj2 (Us j Hj) v Hv')).
          rewrite !C0 by (apply (wf_voe _ _ (ready_wfm S Hok _ Ry)); lia || assumption). unfold Rdiv. ring. }
        unfold pvflux. apply rsum_zero. intros i Hi. cbv zeta.
        rewrite (Pz e He), Pz; [unfold Rdiv; ring|]. apply (wf_eoe _ _ (ready_wfm S Hok _ Ry)); assumption.
      + assert (Kz : forall c, 0 <= c < nx (mesh_of_setup S) * ny (mesh_of_setup S) -> kin (ymem m y) (fun e => mr (ymem m y) (VnEdge St) [e; j]) c = ((U j * U j + V j * V j) / 2)%R).
        { intros c Hc. rewrite <- (uni_kin S Hok Hdc m Hr (U j) (V j) c Hc).
          change (kin m (fun e => fv y e j) c = kin m (uni m (U j) (V j)) c). apply (kin_ext S Hok m Hr); [|assumption]. intros; auto. }
        intros. now rewrite !Kz.
      + intros c c' Hc Hc'. change (fh y c j = fh y c' j). now rewrite !Hc0.
      + exact (Us j Hj).
      + exact (Us _ (rv_range S (ok_wfd S Hok) j Hj)). }
  split.
  - intros time. destruct (tendency_ex S Hok time (fld St m)) as [k T].
    assert (Zk : zero k) by (eapply HK; [|exact T]; split; reflexivity).
    destruct (T St m ltac:(discriminate) Hr (holds_fld S St m) Hz) as [C D]. split; [|exact D].
    intros o X. destruct (C o X) as (M & EM & Q). exists M. split; [exact EM|]. intros j Hj.
    destruct (Q j Hj) as (Q1 & Q2 & Q3). destruct (Zk j Hj) as (Z1 & Z2).
    repeat split; intros; rewrite ?Q1, ?Q2 by assumption; auto.
  - intros unchanged steps.
    assert (HL : forall b y k, L y -> zero k -> L (fmap2 (A:=RA) (fun u w => (u + b * w)%R) y k)).
    { intros b y k Ly Zk j Hj. destruct (Ly j Hj) as (E1 & E2). destruct (Zk j Hj) as (Z1 & Z2).
      split; intros; cbn [fmap2 fh fv ft]; rewrite ?E1, ?E2, ?Z1, ?Z2 by assumption; rring. }
    assert (HA : forall a q k, zero q -> zero k -> zero (fmap2 (A:=RA) (fun u w => (a * u + w)%R) q k)).
    { intros a q k Zq Zk j Hj. destruct (Zq j Hj) as (E1 & E2). destruct (Zk j Hj) as (Z1 & Z2).
      repeat split; intros; cbn [fmap2 fh fv ft]; rewrite ?E1, ?E2, ?Z1, ?Z2 by assumption; rring. }
    assert (U' : forall M N y, meq M N -> holds S St N y -> L y -> unchanged M).
    { intros M N y [_ E] Hy Ly j Hj. destruct (Hy j Hj) as (E1 & E2 & E3). destruct (Ly j Hj) as (Z1 & Z2).
      repeat split; intros; rewrite E; rewrite ?E1, ?E2, ?Z1, ?Z2 by assumption; reflexivity. }
    split; [|intros n].
    + eapply always_fn; [apply rd_rk4_run; auto|]. intros M E.
      destruct (closed_rk4 S Hok L zero HK HL steps m (fld St m)) as (y & Hy & Ly); auto using holds_fld; [intros _; exact Hf|split; reflexivity|].
      eapply U'; eauto.
    + eapply always_fn; [apply rd_lsrk_run; auto|]. intros M E.
      destruct (closed_lsrk S Hok L zero HK HL HA n steps m (fld St m)) as (y & Hy & Ly); auto using holds_fld; [split; reflexivity|].
      eapply U'; eauto.
Qed.

Lemma C33_diffusion_dissipates_proof :
  forall (S : setup RA), setup_ok S -> (0 < (dc (mesh_of_setup S) : R))%R ->
  2 <= nx (mesh_of_setup S) -> 2 <= ny (mesh_of_setup S) ->
  forall (t s : sid) (time : R) (md : add_mode) (m m1 m0 : mem RA), s <> t -> ready S m ->
  exec (sdims S) (compute_tendency S t s time md) m (OK m1) ->
  exec (sdims S) (compute_tendency (set_eddy_diff2 S (IZR 0)) t s time md) m (OK m0) ->
  forall l k, 0 <= l < ntracers (par_of S) -> 0 <= k < d_nlayers (sdims S) ->
  let thickness e := ((mr m (HCell s) [mi m CellsOnEdge [e; 0%Z]; k] + mr m (HCell s) [mi m CellsOnEdge [e; 1%Z]; k]) / 2)%R in
  let r c := (mr m (TrCell s) [l; c; k] / mr m (HCell s) [c; k])%R in
  let work := rsum (d_ncells (sdims S)) (fun c => (mr m AreaCell [c] : R) * r c * (mr m1 (TrCell t) [l; c; k] - mr m0 (TrCell t) [l; c; k]))%R in
  (forall e, 0 <= e < d_nedges (sdims S) -> (0 <= thickness e)%R) ->
  (work <= 0)%R /\
  ((0 < (eddy_diff2 (par_of S) : R))%R -> work = 0%R ->
   forall e, 0 <= e < d_nedges (sdims S) -> (0 < thickness e)%R -> r (mi m CellsOnEdge [e; 0]) = r (mi m CellsOnEdge [e; 1])).
Proof.
  intros S Hok Hdc N1 N2 t s time md m m1 m0 Hs Hr X1 X0 l k Hl Hk thickness r work Ht.
  apply (tendency_exec S Hok) in X1; auto. apply (tendency_exec (set_eddy_diff2 S (IZR 0)) Hok) in X0; auto.
  destruct X1 as [_ X1], X0 as [_ X0].
  set (q := fun c => mr m (HCell s) [c; k] : R).
  assert (E : work = ((if tracer_diff_enabled (par_of S) then eddy_diff2 (par_of S) : R else 0) *
     - rsum (3 * (nx (mesh_of_setup S) * ny (mesh_of_setup S))) (fun e => (mr m DcEdge [e] : R) * mr m DvEdge [e] * (emean m q e * (grad m r e * grad m r e))))%R).
  { rewrite <- (diff_work S Hok Hdc m Hr (emean m q) r N1 N2), <- rsum_scal. apply rsum_ext. intros c Hc.
    rewrite X1, X0. rewrite (T_tr S Hok m Hr), (T_tr (set_eddy_diff2 S (IZR 0)) Hok m Hr) by assumption.
    unfold ttend. cbv zeta. cbn [set_eddy_diff2 par_of]. 
    assert (E0 : tracer_diff_enabled (mkParams (f0 (par_of S)) (grav (par_of S)) (drag_coeff (par_of S)) (visc_del2 (par_of S)) (visc_del4 (par_of S)) (IZR 0) (eddy_diff4 (par_of S)) (ntracers (par_of S)) (disable_h (par_of S)) (disable_vn (par_of S))) = false)
      by (apply disabled_le; apply Rle_refl).
    rewrite E0. unfold tracer_hyperdiff_enabled. cbn [eddy_diff4]. fold q. fold r.
    destruct (tracer_diff_enabled (par_of S)); try match goal with |- context [flt ?x ?y] => destruct (flt x y) end; cbn [F RA]; ring. }
  assert (P0 : forall e, 0 <= e < 3 * (nx (mesh_of_setup S) * ny (mesh_of_setup S)) ->
     (0 <= (mr m DcEdge [e] : R) * mr m DvEdge [e] * (emean m q e * (grad m r e * grad m r e)))%R).
  { intros e He. apply Rmult_le_pos; [apply Rlt_le; now apply (cb_dcdv S Hok Hdc m Hr)|]. apply Rmult_le_pos; [exact (Ht e He)|apply Rle_0_sqr]. }
  pose proof (rsum_nonneg _ _ P0) as Q.
  rewrite E. unfold tracer_diff_enabled. split.
  - destruct (flt (a:=RA) _ _) eqn:Fl; [apply enabled_pos in Fl|]; nra.
  - intros Hp Hz e He Hte.
    destruct (flt (a:=RA) _ _) eqn:Fl; [|exfalso; revert Fl; cbn [flt RA fofZ]; destruct (Rlt_dec _ _); [discriminate|contradiction]].
    assert (Z0 : rsum (3 * (nx (mesh_of_setup S) * ny (mesh_of_setup S))) (fun e => (mr m DcEdge [e] : R) * mr m DvEdge [e] * (emean m q e * (grad m r e * grad m r e)))%R = 0%R).
    { apply Rmult_integral in Hz. destruct Hz as [Hz|Hz]; [lra|]. lra. }
    pose proof (rsum_zero_each _ _ P0 Z0 e He) as Ze. cbv beta in Ze.
    pose proof (cb_dcdv S Hok Hdc m Hr e He) as D0. apply Rmult_integral in Ze. destruct Ze as [Ze|Ze]; [lra|].
    apply Rmult_integral in Ze. destruct Ze as [Ze|Ze]; [unfold thickness in Hte; unfold emean, q in Ze; lra|].
    apply Rmult_integral in Ze. assert (G : grad m r e = 0%R) by (destruct Ze; assumption). unfold grad in G.
    pose proof (cb_dc S Hok Hdc m Hr e He) as D1. apply (Rmult_eq_compat_r (mr m DcEdge [e])) in G. unfold Rdiv in G. rewrite Rmult_assoc, Rinv_l in G by lra. lra.
Qed.

Lemma C34_viscosity_dissipates_proof :
  forall (S : setup RA), setup_ok S -> (0 < (dc (mesh_of_setup S) : R))%R ->
  2 <= nx (mesh_of_setup S) -> 2 <= ny (mesh_of_setup S) ->
  forall (t s : sid) (time : R) (md : add_mode) (m m1 m0 : mem RA), s <> t -> ready S m ->
  exec (sdims S) (compute_tendency S t s time md) m (OK m1) ->
  exec (sdims S) (compute_tendency (set_visc_del2 S (IZR 0)) t s time md) m (OK m0) ->
  forall k, 0 <= k < d_nlayers (sdims S) ->
  (rsum (d_nedges (sdims S)) (fun e => (mr m DcEdge [e] : R) * mr m DvEdge [e] * mr m (VnEdge s) [e; k] * (mr m1 (VnEdge t) [e; k] - mr m0 (VnEdge t) [e; k])) <= 0)%R.
Proof.
  intros S Hok Hdc N1 N2 t s time md m m1 m0 Hs Hr X1 X0 k Hk.
  apply (tendency_exec S Hok) in X1; auto. apply (tendency_exec (set_visc_del2 S (IZR 0)) Hok) in X0; auto.
  destruct X1 as [_ X1], X0 as [_ X0].
  set (u := fun e => mr m (VnEdge s) [e; k] : R).
  set (a := (if disable_vn (par_of S) then 0 else if vel_diff_enabled (par_of S) then visc_del2 (par_of S) : R else 0)%R).
  rewrite (rsum_ext _ _ (fun e => a * ((mr m DcEdge [e] : R) * mr m DvEdge [e] * u e * vlap m u e))%R).
  - rewrite rsum_scal. pose proof (vlap_work S Hok Hdc m Hr u N1 N2) as Q.
    assert (0 <= a)%R.
    { unfold a, vel_diff_enabled. destruct (disable_vn (par_of S)); [lra|]. destruct (flt (a:=RA) _ _) eqn:Fl; [apply enabled_pos in Fl; lra|lra]. }
    change (d_nedges (sdims S)) with (3 * (nx (mesh_of_setup S) * ny (mesh_of_setup S))). nra.
  - intros e He. rewrite X1, X0. rewrite (T_v S Hok Hdc m Hr), (T_v (set_visc_del2 S (IZR 0)) Hok Hdc m Hr) by assumption.
    unfold hk_v, hook_v, vtend, a. cbn [set_visc_del2 par_of hook cfg_of].
    assert (E0 : vel_diff_enabled (mkParams (f0 (par_of S)) (grav (par_of S)) (drag_coeff (par_of S)) (IZR 0) (visc_del4 (par_of S)) (eddy_diff2 (par_of S)) (eddy_diff4 (par_of S)) (ntracers (par_of S)) (disable_h (par_of S)) (disable_vn (par_of S))) = false)
      by (apply disabled_le; apply Rle_refl).
    rewrite E0. unfold vel_hyperdiff_enabled. cbn [f0 grav visc_del4 disable_vn]. fold u. change (mr m (VnEdge s) [e; k]) with (u e).
    destruct (disable_vn (par_of S)), (vel_diff_enabled (par_of S)), (hook S); try match goal with |- context [flt ?x ?y] => destruct (flt x y) end; rring.
Qed.

Lemma C34_hyperviscosity_dissipates_proof :
  forall (S : setup RA), setup_ok S -> (0 < (dc (mesh_of_setup S) : R))%R ->
  2 <= nx (mesh_of_setup S) -> 2 <= ny (mesh_of_setup S) ->
  ksimd (cfg_of S) = false \/ vector_length (cfg_of S) = 1 ->
  forall (t s : sid) (time : R) (md : add_mode) (m m1 m0 : mem RA), s <> t -> ready S m ->
  exec (sdims S) (compute_tendency S t s time md) m (OK m1) ->
  exec (sdims S) (compute_tendency (set_visc_del4 S (IZR 0)) t s time md) m (OK m0) ->
  forall k, 0 <= k < d_nlayers (sdims S) ->
  (rsum (d_nedges (sdims S)) (fun e => (mr m DcEdge [e] : R) * mr m DvEdge [e] * mr m (VnEdge s) [e; k] * (mr m1 (VnEdge t) [e; k] - mr m0 (VnEdge t) [e; k])) <= 0)%R.
Proof.
  intros S Hok Hdc N1 N2 Hl t s time md m m1 m0 Hs Hr X1 X0 k Hk.
  rewrite (hyper_diff S Hok Hdc t s time md m m1 m0 Hs Hr X1 X0 k Hk). rewrite (rv_self _ _ Hl).
  set (u := fun e => mr m (VnEdge s) [e; k] : R). set (a := (if disable_vn (par_of S) then _ else _)%R).
  pose proof (hyper_work S Hok Hdc m Hr u N1 N2) as W. cbv beta delta [u] in W. cbv beta delta [u]. rewrite W. fold u. clear W.
  assert (0 <= a)%R.
  { unfold a, vel_hyperdiff_enabled. destruct (disable_vn (par_of S)); [lra|]. destruct (flt (a:=RA) _ _) eqn:Fl; [apply enabled_pos in Fl; lra|lra]. }
  assert (0 <= rsum (3 * (nx (mesh_of_setup S) * ny (mesh_of_setup S))) (fun e => (mr m DcEdge [e] : R) * mr m DvEdge [e] * (vlap m u e * vlap m u e)))%R.
  { apply rsum_nonneg. intros e He. apply Rmult_le_pos; [apply Rlt_le; now apply (cb_dcdv S Hok Hdc m Hr)|apply Rle_0_sqr]. }
  nra.
Qed.

Lemma C35_clamp_inert_proof :
  forall (S : setup RA), setup_ok S -> (0 < (dc (mesh_of_setup S) : R))%R ->
  forall m : mem RA, ready S m -> forall e, 0 <= e < d_nedges (sdims S) ->
  fmax (mr m DvEdge [e]) (fquarter * mr m DcEdge [e])%fp = mr m DvEdge [e] /\ ((mr m DcEdge [e] : R) / 4 < mr m DvEdge [e])%R.
Proof.
  intros S Hok Hdc m Hr e He. split; [now apply (clamp_inert S Hok Hdc m Hr)|].
  rewrite (hm_dve _ _ _ (ready_hex S Hok m Hr)), (hm_dce _ _ _ (ready_hex S Hok m Hr)) by assumption.
  rewrite hdve_R. assert (1 < sqrt 3)%R by (rewrite <- sqrt_1; apply sqrt_lt_1; lra). nra.
Qed.

Lemma C35_clamp_never_taken_proof :
  forall (S : setup RA), setup_ok S -> (0 < (dc (mesh_of_setup S) : R))%R ->
  (0 < (visc_del4 (par_of S) : R))%R -> disable_vn (par_of S) = false ->
  forall (t s : sid) (time : R) (md : add_mode) (m M : mem RA), s <> t -> ready S m ->
  exec (sdims S) (compute_tendency S t s time md) m (OK M) ->
  forall e k, 0 <= e < d_nedges (sdims S) -> 0 <= k < d_nlayers (sdims S) ->
  (mr M VelDel2Edge [e; k] : R) =
  ((mr M VelDivCell [mi m CellsOnEdge [e; 1%Z]; k] - mr M VelDivCell [mi m CellsOnEdge [e; 0%Z]; k]) / mr m DcEdge [e] -
   (mr M RvortVertex [mi m VerticesOnEdge [e; 1%Z]; k] - mr M RvortVertex [mi m VerticesOnEdge [e; 0%Z]; k]) / mr m DvEdge [e])%R.
Proof.
  intros S Hok Hdc Hnu Hdv t s time md m M Hs Hr X e k He Hk.
  apply (tendency_exec S Hok) in X; auto. destruct X as [_ X]. rewrite !X. clear X M.
  pose proof (clamp_inert S Hok Hdc m Hr e He) as C.
  rewrite (tend_prehook S), !(hook_other S) by discriminate. unfold prehook. cbv zeta. rewrite Hdv. cbn [negb].
  assert (Hy : vel_hyperdiff_enabled (par_of S) = true).
  { unfold vel_hyperdiff_enabled. cbn [flt RA fofZ]. destruct (Rlt_dec _ _); [reflexivity|contradiction]. }
  set (b := if negb (disable_h (par_of S)) then _ else _).
  assert (B : forall x ix, x <> HCell t -> mr b x ix = mr (aux_fn (cfg_of S) (sdims S) s m) x ix).
  { intros x ix Hx. unfold b. destruct (disable_h (par_of S)); [reflexivity|now apply h_other]. }
  assert (Bi : mi b = mi m) by (unfold b; destruct (disable_h (par_of S)); reflexivity).
  set (d := vn_fn S t s md b).
  assert (E : forall x ix, x <> TracerDel2Cell -> x <> TrCell t -> mr (if 0 <? ntracers (par_of S) then tr_fn S t s md d else d) x ix = mr d x ix).
  { intros x ix H1 H2. destruct (0 <? ntracers (par_of S)); [now apply tr_other|reflexivity]. }
  rewrite !E by discriminate. unfold d, vn_fn. cbv zeta. rewrite !upd_other by discriminate.
  rewrite !(hyp_other S b VelDivCell), !(hyp_other S b RvortVertex) by discriminate.
  unfold hyp_fn. rewrite Hy. unfold del2d_fn, del2r_fn, del2_fn. rewrite !upd_other by discriminate.
  rewrite upd_same by (cbn [rext]; apply inb2; auto). cbn [on2].
  rewrite RealOps.R_del2.
  - unfold grad, rgrad. rewrite Bi. rewrite !(B DcEdge), !(B DvEdge) by discriminate. rewrite !aux_other by reflexivity. reflexivity.
  - rewrite !(B DcEdge), !(B DvEdge) by discriminate. rewrite !aux_other by reflexivity. exact C.
Qed.

Lemma C49_diagnostics_proof :
  forall (S : setup RA), setup_ok S ->
  forall (s : sid) (m : mem RA), ready S m ->
  ((exists r, mass_integral S s m r) /\ forall r, mass_integral S s m r ->
     r = Some (rsum (d_ncells (sdims S)) (fun c => rsum (d_nlayers (sdims S)) (fun k => (mr m AreaCell [c] : R) * mr m (HCell s) [c; k])))%R) /\
  ((exists r, energy_integral S s m r) /\ forall r, energy_integral S s m r ->
     r = Some (rsum (d_ncells (sdims S)) (fun c => rsum (d_nlayers (sdims S)) (fun k =>
       let ke := (rsum 6 (fun j => let e := mi m EdgesOnCell [c; j] in (mr m DvEdge [e] : R) * mr m DcEdge [e] * (mr m (VnEdge s) [e; k] * mr m (VnEdge s) [e; k]) / 4) / mr m AreaCell [c])%R in
       (mr m AreaCell [c] : R) * (grav (par_of S) * mr m (HCell s) [c; k] * mr m (HCell s) [c; k] / 2 + mr m (HCell s) [c; k] * ke))))%R).
Proof.
  intros S Hok s m Hr. split; split; try apply reduces_ex; intros r Q.
  - now apply (mass_sum S Hok m Hr) in Q.
  - apply (energy_sum S Hok m Hr) in Q. rewrite Q. f_equal. apply rsum_ext. intros c Hc. apply rsum_ext. intros k Hk. cbv zeta.
    unfold ecell, kin. rewrite (hm_noc _ _ _ (ready_hex S Hok m Hr)) by assumption.
    cbv zeta.
    assert (E4 : forall f : Z -> R, rsum 6 (fun j => f j / 4)%R = (rsum 6 f / 4)%R) by (intros; unfold Rdiv; apply rsum_scal_r).
    rewrite E4. unfold Rdiv. ring.
Qed.

