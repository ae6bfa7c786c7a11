(** Proofs of the properties of [PropsStep.v]. *)
From Coq Require Import ZArith Reals List Bool Lia Lra FunctionalExtensionality SpecFloat.
From Verif Require Import Arith Arrays Prog Conc Launch Mesh AuxVars Tend Model Hex MeshProof MeshMem Over Formulas KernBase Terms KernAux KernTend TendFn StepFn Ready Rel RelRun Relate TendVal StepVal StepRun StepTake Tableau.
Import ListNotations.
Open Scope Z_scope.

Lemma tendency_exec {A} (S : setup A) (Hok : setup_ok S) t s time md m m' : s <> t -> ready S m ->
  exec (sdims S) (compute_tendency S t s time md) m (OK m') -> meq m' (tendency_fn S t s time md m).
Proof. intros Hs Hr. apply exec_fn. apply rd_tendency; auto. Qed.

(** Step of a run: the first. *)
Lemma rk4_run1 {A} (S : setup A) t dt m : rk4_run_fn S [(t, dt)] m = rk4_fn S t dt m.
Proof. reflexivity. Qed.

Lemma feq {A} (y z : fields A) : (forall c k, fh y c k = fh z c k) -> (forall e k, fv y e k = fv z e k) ->
  (forall l c k, ft y l c k = ft z l c k) -> y = z.
Proof.
  destruct y, z. cbn. intros H1 H2 H3. f_equal; repeat (apply functional_extensionality; intro); auto.
Qed.

(** The stages of a low storage step exist. *)
Lemma stages_ex (S : setup RA) (Hok : setup_ok S) n (t dt : R) (y p : fields RA) : 0 <= n ->
  exists Y Q K : Z -> fields RA, Y 0 = y /\ Q 0 = p /\
  forall i, 0 <= i < n -> tendency_of S (t + lsrk_c (A:=RA) n i * dt)%R (Y i) (K i) /\
     Q (i + 1) = fmap2 (A:=RA) (fun u w => lsrk_a (A:=RA) n i * u + w)%R (Q i) (K i) /\
     Y (i + 1) = fmap2 (A:=RA) (fun u w => u + dt * lsrk_b (A:=RA) n i * w)%R (Y i) (Q (i + 1)).
Proof.
  intros Hn.
  assert (G : forall j, 0 <= j -> exists Y Q K : Z -> fields RA, Y 0 = y /\ Q 0 = p /\
    forall i, 0 <= i < j -> tendency_of S (t + lsrk_c (A:=RA) n i * dt)%R (Y i) (K i) /\
     Q (i + 1) = fmap2 (A:=RA) (fun u w => lsrk_a (A:=RA) n i * u + w)%R (Q i) (K i) /\
     Y (i + 1) = fmap2 (A:=RA) (fun u w => u + dt * lsrk_b (A:=RA) n i * w)%R (Y i) (Q (i + 1))); [|now apply G].
  apply natlike_ind.
  - exists (fun _ => y), (fun _ => p), (fun _ => p). repeat split; intros; lia.
  - intros j Hj (Y & Q & K & EY & EQ & H).
    destruct (tendency_ex S Hok (t + lsrk_c (A:=RA) n j * dt)%R (Y j)) as [k Hk].
    pose (q := fmap2 (A:=RA) (fun u w => lsrk_a (A:=RA) n j * u + w)%R (Q j) k).
    exists (fun i => if i =? j + 1 then fmap2 (A:=RA) (fun u w => u + dt * lsrk_b (A:=RA) n j * w)%R (Y j) q else Y i),
           (fun i => if i =? j + 1 then q else Q i), (fun i => if i =? j then k else K i).
    destruct (0 =? j + 1) eqn:E0; [apply Z.eqb_eq in E0; lia|]. split; [exact EY|]. split; [exact EQ|].
    intros i Hi. assert (C : i = j \/ 0 <= i < j) by lia. destruct C as [->|C].
    + rewrite !Z.eqb_refl. destruct (j =? j + 1) eqn:E1; [apply Z.eqb_eq in E1; lia|]. auto.
    + destruct (i =? j) eqn:E1; [apply Z.eqb_eq in E1; lia|].
      destruct (i =? j + 1) eqn:E2; [apply Z.eqb_eq in E2; lia|].
      destruct (i + 1 =? j + 1) eqn:E3; [apply Z.eqb_eq in E3; lia|]. now apply H.
Qed.

(** The first stage of a low storage step forgets the previous tendency. *)
Lemma lsrk_a0 n : lsrk_a (A:=RA) n 0 = 0%R.
Proof. unfold lsrk_a. destruct (n =? 5); reflexivity. Qed.
Lemma lsrk_forget (S : setup RA) (Hok : setup_ok S) n (t dt : R) m1 m2 : 0 <= n -> ready S m1 -> ready S m2 ->
  state_eq S (allK S) St m1 m2 -> state_eq S (allK S) St (lsrk_fn S n t dt m1) (lsrk_fn S n t dt m2).
Proof.
  intros Hn R1 R2 E. assert (C : n = 0 \/ 1 <= n) by lia. destruct C as [->|Hn1]; [exact E|].
  set (f s (m : mem RA) := mkFields (fun c k => mr m (HCell s) [c; k]) (fun e k => mr m (VnEdge s) [e; k]) (fun l c k => mr m (TrCell s) [l; c; k])).
  destruct (stages_ex S Hok n t dt (f St m1) (f Tend m1) Hn) as (Y & Q & K & EY & EQ & H).
  pose (Q2 := fun i => if i =? 0 then f Tend m2 else Q i).
  destruct (lsrk_holds S Hok n t dt m1 Y Q K Hn R1) as (_ & X1 & _).
  { rewrite EY. apply holds_self. } { rewrite EQ. apply holds_self. } { exact H. }
  destruct (lsrk_holds S Hok n t dt m2 Y Q2 K Hn R2) as (_ & X2 & _).
  { rewrite EY. eapply eq_holds; [exact E|]. apply holds_self. }
  { apply holds_self. }
  { intros i Hi. destruct (H i Hi) as (H1 & H2 & H3). split; [exact H1|]. unfold Q2.
    destruct (i + 1 =? 0) eqn:E1; [apply Z.eqb_eq in E1; lia|]. split; [|exact H3].
    destruct (i =? 0) eqn:E2; [|exact H2]. apply Z.eqb_eq in E2. subst i. rewrite H2, lsrk_a0.
    apply feq; intros; cbn [fmap2 fh fv ft]; unfold F, RA; ring. }
  eapply holds_eq; eassumption.
Qed.

Definition comb (s : (Z -> R) -> R) (y : fields RA) (dt : R) (w : Z -> R) (K : Z -> fields RA) : fields RA :=
  mkFields (A:=RA) (fun c k => (fh y c k + dt * s (fun j => w j * fh (K j) c k))%R)
           (fun e k => (fv y e k + dt * s (fun j => w j * fv (K j) e k))%R)
           (fun l c k => (ft y l c k + dt * s (fun j => w j * ft (K j) l c k))%R).

Lemma tendency_runs {A} (S : setup A) (Hok : setup_ok S) t s time md m : s <> t -> ready S m ->
  exists m', exec (sdims S) (compute_tendency S t s time md) m (OK m').
Proof. intros Hs Hr. pose proof (rd_tendency S Hok t s time md m Hr Hs) as H. apply hsafe_always in H. apply H. Qed.

Open Scope Z_scope.

Lemma C22_replace_forgets_proof :
  forall (A : Arith) (S : setup A), setup_ok S -> 
  forall (t s : sid) (time : F A) (m1 m2 m1' m2' : mem A), s <> t -> ready S m1 -> ready S m2 ->
  state_eq S (fun k => 0 <= k < d_nlayers (sdims S)) s m1 m2 ->
  exec (sdims S) (compute_tendency S t s time Replace) m1 (OK m1') ->
  exec (sdims S) (compute_tendency S t s time Replace) m2 (OK m2') ->
  forall k, 0 <= k < d_nlayers (sdims S) ->
  (disable_h (par_of S) = false -> forall c, 0 <= c < d_ncells (sdims S) -> mr m1' (HCell t) [c; k] = mr m2' (HCell t) [c; k]) /\
  (disable_vn (par_of S) = false -> forall e, 0 <= e < d_nedges (sdims S) -> mr m1' (VnEdge t) [e; k] = mr m2' (VnEdge t) [e; k]) /\
  (forall l c, 0 <= l < ntracers (par_of S) -> 0 <= c < d_ncells (sdims S) -> mr m1' (TrCell t) [l; c; k] = mr m2' (TrCell t) [l; c; k]).
Proof.
  intros A S Hok t s time m1 m2 m1' m2' Hs R1 R2 E X1 X2 k Hk.
  apply (tendency_exec S Hok) in X1; auto. apply (tendency_exec S Hok) in X2; auto.
  destruct X1 as [_ X1], X2 as [_ X2].
  pose proof (take_det S Hok t s time Replace m1 m2 Hs R1 R2 E) as (G1 & G2 & G3); [exact Hk|].
  pose proof (ok_wfd S Hok) as Hd. pose proof (ready_wfm S Hok m2 R2) as W2.
  pose proof (ready_wfm S Hok _ (take_ready S t m1 m2 R2)) as W3.
  repeat split.
  - intros Hh c Hc. rewrite X1, X2, (G1 c Hc). rewrite !val_h by assumption. unfold hk_h. rewrite Hh, take_hadv by exact Hs. reflexivity.
  - intros Hv e He. rewrite X1, X2, (G2 e He). rewrite !val_v by (assumption || congruence). unfold hk_v. rewrite Hv, take_vn by exact Hs. reflexivity.
  - intros l c Hl Hc. rewrite X1, X2, (G3 l c Hl Hc). rewrite !val_tr by (assumption || congruence). rewrite take_tr by exact Hs. reflexivity.
Qed.

Lemma C22_increment_adds_proof :
  forall (S : setup RA), setup_ok S ->
  forall (t s : sid) (time : R) (m1 m2 m1' m2' : mem RA), s <> t -> ready S m1 -> ready S m2 ->
  state_eq S (fun k => 0 <= k < d_nlayers (sdims S)) s m1 m2 ->
  exec (sdims S) (compute_tendency S t s time Increment) m1 (OK m1') ->
  exec (sdims S) (compute_tendency S t s time Replace) m2 (OK m2') ->
  forall k, 0 <= k < d_nlayers (sdims S) ->
  (disable_h (par_of S) = false -> forall c, 0 <= c < d_ncells (sdims S) ->
     mr m1' (HCell t) [c; k] = (mr m1 (HCell t) [c; k] + mr m2' (HCell t) [c; k])%R) /\
  (disable_vn (par_of S) = false -> forall e, 0 <= e < d_nedges (sdims S) ->
     mr m1' (VnEdge t) [e; k] = (mr m1 (VnEdge t) [e; k] + mr m2' (VnEdge t) [e; k])%R) /\
  (forall l c, 0 <= l < ntracers (par_of S) -> 0 <= c < d_ncells (sdims S) ->
     mr m1' (TrCell t) [l; c; k] = (mr m1 (TrCell t) [l; c; k] + mr m2' (TrCell t) [l; c; k])%R).
Proof.
  intros S Hok t s time m1 m2 m1' m2' Hs R1 R2 E X1 X2.
  assert (I2 : exists M, exec (sdims S) (compute_tendency S t s time Replace) m1 (OK M)).
  { assert (H : s <> t) by exact Hs.
    pose proof (rd_tendency S Hok t s time Replace m1 R1 Hs) as Hh.
    apply hsafe_always in Hh. apply Hh. }
  destruct I2 as [M XM]. intros k Hk.
  destruct (C22_replace_forgets_proof RA S Hok t s time m1 m2 M m2' Hs R1 R2 E XM X2 k Hk) as (G1 & G2 & G3).
  apply (tendency_exec S Hok) in X1; auto. apply (tendency_exec S Hok) in XM; auto.
  destruct X1 as [_ X1], XM as [_ XM].
  pose proof (ok_wfd S Hok) as Hd. pose proof (ready_wfm S Hok m1 R1) as W1.
  repeat split.
  - intros Hh c Hc. rewrite <- (G1 Hh c Hc), X1, XM. rewrite !val_h by assumption. unfold hk_h, hook_h. rewrite Hh.
    unfold zr. cbn [is_replace].
    rewrite hadv_add. rewrite (hadv_add s (aux_fn (cfg_of S) (sdims S) s m1) c k (@fofZ RA 0)).
    destruct (hook S); rring.
  - intros Hv e He. rewrite <- (G2 Hv e He), X1, XM. rewrite !val_v by (assumption || congruence). unfold hk_v, hook_v. rewrite Hv.
    rewrite vn_add. destruct (hook S); rring.
  - intros l c Hl Hc. rewrite <- (G3 l c Hl Hc), X1, XM. rewrite !val_tr by (assumption || congruence). apply tr_add.
Qed.

Lemma C23_disabled_tendency_not_reset_proof :
  forall (A : Arith) (S : setup A), setup_ok S -> 
  forall (t s : sid) (time : F A) (md : add_mode) (m : mem A), s <> t -> ready S m ->
  always (sdims S) (compute_tendency S t s time md) m (fun m' => forall k, 0 <= k < d_nlayers (sdims S) ->
  (disable_h (par_of S) = true -> forall c, 0 <= c < d_ncells (sdims S) -> mr m' (HCell t) [c; k] =
     match hook S with
     | None => mr m (HCell t) [c; k]
     | Some f => mr m (HCell t) [c; k] + force_h f (mr m XCell [c]) (mr m YCell [c]) time
     end)%fp /\
  (disable_vn (par_of S) = true -> forall e, 0 <= e < d_nedges (sdims S) -> mr m' (VnEdge t) [e; k] =
     match hook S with
     | None => mr m (VnEdge t) [e; k]
     | Some f => mr m (VnEdge t) [e; k] +
         (fcos (mr m AngleEdge [e]) * force_vx f (mr m XEdge [e]) (mr m YEdge [e]) time +
          fsin (mr m AngleEdge [e]) * force_vy f (mr m XEdge [e]) (mr m YEdge [e]) time)
     end)%fp).
Proof.
  intros A S Hok t s time md m Hs Hr. pose proof (rd_tendency S Hok t s time md m Hr Hs) as H.
  eapply always_fn; [exact H|]. intros M [_ E] k Hk. pose proof (ok_wfd S Hok). pose proof (ready_wfm S Hok m Hr).
  split; intros Hx i Hi; rewrite E; [rewrite val_h by assumption; unfold hk_h, hook_h|rewrite val_v by (assumption || congruence); unfold hk_v, hook_v];
    rewrite Hx; destruct (hook S); reflexivity.
Qed.

Lemma C23_disabled_forcing_accumulates_proof :
  forall (S : setup RA) (f : R) (fvx fvy : R -> R -> R -> R), setup_ok S ->
  disable_h (par_of S) = true -> hook S = Some (mkForcing RA (fun _ _ _ => f) fvx fvy) ->
  forall (t dt : R) (m : mem RA), ready S m ->
  always (sdims S) (rk4_step S t dt) m (fun m' => forall k c, 0 <= k < d_nlayers (sdims S) -> 0 <= c < d_ncells (sdims S) ->
    let h := mr m (HCell St) [c; k] in let h' := mr m' (HCell St) [c; k] in
    let p := mr m (HCell Tend) [c; k] in let p' := mr m' (HCell Tend) [c; k] in
    (h' = h + dt * (p + 5 / 2 * f) /\ p' = p + 4 * f /\ (p = 0 -> dt <> 0 -> f <> 0 -> h' <> h + dt * f))%R).
Proof.
  intros S f fvx fvy Hok Hh Hf t dt m Hr.
  eapply always_fn; [apply rd_rk4; auto|]. intros M [_ E] k c Hk Hc. cbv zeta. rewrite !E. clear E M.
  pose proof (ok_wfd S Hok) as Hd.
  assert (V : forall s time n, s <> Tend -> ready S n -> mr (tendency_fn S Tend s time Replace n) (HCell Tend) [c; k] = (mr n (HCell Tend) [c; k] + f)%R).
  { intros s time n Hs Hn. rewrite val_h by auto using ready_wfm. unfold hk_h, hook_h. rewrite Hh, Hf. reflexivity. }
  assert (V0 : forall s time n, s <> Tend -> mr (tendency_fn S Tend s time Replace n) (HCell St) [c; k] = mr n (HCell St) [c; k]).
  { intros s time n Hs. apply tend_other; try discriminate; reflexivity. }
  assert (X : forall b n, mr (axpy S St St dt b n) (HCell St) [c; k] = (mr n (HCell St) [c; k] + dt * b * mr n (HCell Tend) [c; k])%R).
  { intros b n. destruct (holds_axpy S St St dt b n _ _ (holds_self S St n) (holds_self S Tend n) k Hk) as (G & _ & _). exact (G c Hc). }
  assert (X0 : forall b n, mr (axpy S St St dt b n) (HCell Tend) [c; k] = mr n (HCell Tend) [c; k]) by (intros; now apply axpy_other).
  assert (X1 : forall b n, mr (axpy S Provis Old dt b n) (HCell St) [c; k] = mr n (HCell St) [c; k]) by (intros; now apply axpy_other).
  assert (X2 : forall b n, mr (axpy S Provis Old dt b n) (HCell Tend) [c; k] = mr n (HCell Tend) [c; k]) by (intros; now apply axpy_other).
  assert (Rt : forall s time n, ready S n -> ready S (tendency_fn S Tend s time Replace n)) by (intros; eapply ready_cst; [apply cst_tendency|assumption]).
  assert (Ra : forall d b x n, ready S n -> ready S (axpy S d b dt x n)) by (intros; eapply ready_cst; [apply cst_axpy|assumption]).
  assert (Rs : ready S (save_fn S m)) by (eapply ready_cst; [apply cst_save|assumption]).
  assert (S1 : mr (save_fn S m) (HCell St) [c; k] = mr m (HCell St) [c; k]) by now apply save_other.
  assert (S2 : mr (save_fn S m) (HCell Tend) [c; k] = mr m (HCell Tend) [c; k]) by now apply save_other.
  rewrite rk4_eq. cbv zeta.
  rewrite !X, !X0, !V0, !X1, !X, !V0, !X1, !X, !V0, !X1, !X, !V0, S1 by discriminate.
  do 4 (rewrite ?V by (auto 20; discriminate); rewrite ?X2, ?X0). rewrite S2.
  unfold rk4_b. cbn [Z.eqb orb fofZ fdiv RA Pos.eqb].
  set (h := mr m (HCell St) [c; k] : R). set (p := mr m (HCell Tend) [c; k] : R).
  split; [apply Rminus_diag_uniq; field|]. split; [apply Rminus_diag_uniq; ring|]. intros Hp Hdt Hf0 Q. rewrite Hp in Q.
  assert (dt * f = 0)%R by (field_simplify in Q; lra). apply Rmult_integral in H. tauto.
Qed.

Lemma C39_tendency_exists_proof :
  forall (A : Arith) (S : setup A), setup_ok S -> forall (t : F A) (y : fields A),
  exists k, tendency_of S t y k.
Proof.
  intros A S Hok t y. now apply tendency_ex.
Qed.

Lemma C39_rk4_in_floating_point_proof :
  forall (A : Arith) (S : setup A), setup_ok S ->
  (disable_h (par_of S) = true \/ disable_vn (par_of S) = true -> hook S = None) ->
  forall (t dt : F A) (m : mem A) (y k1 k2 k3 k4 : fields A), ready S m -> holds S St m y -> disabled_zero S Tend m ->
  let add (b : F A) (x k : fields A) := fmap2 (fun u w => u + dt * b * w)%fp x k in
  let half := (#1 / #2)%fp in let third := (#1 / #3)%fp in let sixth := (#1 / #6)%fp in
  tendency_of S t y k1 ->
  tendency_of S (t + half * dt)%fp (add half y k1) k2 ->
  tendency_of S (t + half * dt)%fp (add half y k2) k3 ->
  tendency_of S (t + #1 * dt)%fp (add (#1)%fp y k3) k4 ->
  always (sdims S) (rk4_step S t dt) m (fun m' =>
    holds S St m' (add sixth (add third (add third (add sixth y k1) k2) k3) k4) /\ disabled_zero S Tend m' /\ ready S m').
Proof.
  intros A S Hok Hu t dt m y k1 k2 k3 k4 Hr Hy Hz add0 half third sixth T1 T2 T3 T4.
  eapply always_fn; [apply rd_rk4; auto|]. intros M E.
  destruct (rk4_holds S Hok t dt m y k1 k2 k3 k4 Hu Hr Hy Hz T1 T2 T3 T4) as (G1 & G2 & G3).
  apply meq_sym in E. split; [eapply holds_meq; [exact E|exact G1]|]. split.
  - eapply dz_other; [|exact G2]. intros. symmetry. apply E.
  - eapply ready_meq; [exact E|exact G3].
Qed.

Lemma C39_rk4_is_classical_proof :
  forall (S : setup RA), setup_ok S ->
  (disable_h (par_of S) = true \/ disable_vn (par_of S) = true -> hook S = None) ->
  forall (t dt : R) (m : mem RA) (y k1 k2 k3 k4 : fields RA), ready S m -> holds S St m y -> disabled_zero S Tend m ->
  let add (b : R) (x k : fields RA) := fmap2 (A:=RA) (fun u w => u + b * w)%R x k in
  tendency_of S t y k1 ->
  tendency_of S (t + dt / 2)%R (add (dt / 2)%R y k1) k2 ->
  tendency_of S (t + dt / 2)%R (add (dt / 2)%R y k2) k3 ->
  tendency_of S (t + dt)%R (add dt y k3) k4 ->
  let formula (a b c d e : R) := (a + dt / 6 * (b + 2 * c + 2 * d + e))%R in
  always (sdims S) (rk4_step S t dt) m (fun m' =>
    holds S St m' (mkFields (A:=RA)
      (fun c k => formula (fh y c k) (fh k1 c k) (fh k2 c k) (fh k3 c k) (fh k4 c k))
      (fun e k => formula (fv y e k) (fv k1 e k) (fv k2 e k) (fv k3 e k) (fv k4 e k))
      (fun l c k => formula (ft y l c k) (ft k1 l c k) (ft k2 l c k) (ft k3 l c k) (ft k4 l c k)))).
Proof.
  intros S Hok Hu t dt m y k1 k2 k3 k4 Hr Hy Hz add0 T1 T2 T3 T4 formula.
  pose proof (C39_rk4_in_floating_point_proof RA S Hok Hu t dt m y k1 k2 k3 k4 Hr Hy Hz) as G. cbv beta zeta in G.
  assert (Eh : forall z k : fields RA, fmap2 (A:=RA) (fun u w => u + (dt : F RA) * (#1 / #2) * w)%fp z k = add0 (dt / 2)%R z k).
  { intros z k. apply feq; intros; cbn [fmap2 add0 fh fv ft fadd fmul fdiv fofZ F RA]; apply Rminus_diag_uniq; field. }
  assert (E1 : forall z k : fields RA, fmap2 (A:=RA) (fun u w => u + (dt : F RA) * #1 * w)%fp z k = add0 dt z k).
  { intros z k. apply feq; intros; cbn [fmap2 add0 fh fv ft fadd fmul fdiv fofZ F RA]; apply Rminus_diag_uniq; ring. }
  rewrite !Eh, E1 in G.
  replace ((t : F RA) + #1 / #2 * (dt : F RA))%fp with (t + dt / 2)%R in G by (cbn; field).
  replace ((t : F RA) + #1 * (dt : F RA))%fp with (t + dt)%R in G by (cbn; ring).
  specialize (G T1 T2 T3 T4). destruct G as [G1 G2]. split; [|exact G2].
  intros o Ho. destruct (G1 o Ho) as (M & EM & HM & _). exists M. split; [exact EM|].
  intros j Hj. destruct (HM j Hj) as (Q1 & Q2 & Q3). cbn [fmap2 fh fv ft fadd fmul fdiv fofZ RA] in Q1, Q2, Q3. cbn [fh fv ft]. unfold formula.
  repeat split; intros; [rewrite Q1|rewrite Q2|rewrite Q3]; auto; apply Rminus_diag_uniq; field.
Qed.

Lemma C40_lsrk_is_low_storage_scheme_proof :
  forall (S : setup RA), setup_ok S -> forall (n : Z) (a b c : Z -> R),
  (n = 5%Z /\
   a 0%Z = 0 /\ a 1%Z = - (567301805773 / 1357537059087) /\ a 2%Z = - (2404267990393 / 2016746695238) /\
   a 3%Z = - (3550918686646 / 2091501179385) /\ a 4%Z = - (1275806237668 / 842570457699) /\
   b 0%Z = 1432997174477 / 9575080441755 /\ b 1%Z = 5161836677717 / 13612068292357 /\
   b 2%Z = 1720146321549 / 2090206949498 /\ b 3%Z = 3134564353537 / 4481467310338 /\
   b 4%Z = 2277821191437 / 14882151754819 /\
   c 0%Z = 0 /\ c 1%Z = 1432997174477 / 9575080441755 /\ c 2%Z = 2526269341429 / 6820363962896 /\
   c 3%Z = 2006345519317 / 3224310063776 /\ c 4%Z = 2802321613138 / 2924317926251 \/
   n = 1%Z /\ a 0%Z = 0 /\ b 0%Z = 1 /\ c 0%Z = 0)%R ->
  forall (t dt : R) (m : mem RA) (y p : fields RA), ready S m -> holds S St m y -> holds S Tend m p ->
  exists Y Q K : Z -> fields RA, Y 0 = y /\ Q 0 = p /\
  (forall i, 0 <= i < n -> tendency_of S (t + c i * dt)%R (Y i) (K i) /\
     Q (i + 1) = fmap2 (A:=RA) (fun u w => a i * u + w)%R (Q i) (K i) /\
     Y (i + 1) = fmap2 (A:=RA) (fun u w => u + dt * b i * w)%R (Y i) (Q (i + 1))) /\
  always (sdims S) (lsrk_step S n t dt) m (fun m' => ready S m' /\ holds S St m' (Y n) /\ holds S Tend m' (Q n)).
Proof.
  intros S Hok n a b c Hc t dt m y p Hr Hy Hp.
  assert (Hn : 0 <= n) by (destruct Hc as [Hc|Hc]; lia).
  assert (EC : forall i, 0 <= i < n -> a i = lsrk_a (A:=RA) n i /\ b i = lsrk_b (A:=RA) n i /\ c i = lsrk_c (A:=RA) n i).
  { intros i Hi. destruct Hc as [(-> & H0 & H1 & H2 & H3 & H4 & B0 & B1 & B2 & B3 & B4 & C0 & C1 & C2 & C3 & C4)|(-> & H0 & B0 & C0)].
    - assert (Ci : i = 0 \/ i = 1 \/ i = 2 \/ i = 3 \/ i = 4) by lia.
      unfold lsrk_a, lsrk_b, lsrk_c. cbn [Z.eqb Pos.eqb].
      destruct Ci as [->|[->|[->|[->| ->]]]]; cbn [fofZ fdiv RA]; rewrite ?H0, ?H1, ?H2, ?H3, ?H4, ?B0, ?B1, ?B2, ?B3, ?B4, ?C0, ?C1, ?C2, ?C3, ?C4;
        repeat split; try reflexivity; cbn [IZR]; lra.
    - assert (i = 0) by lia. subst i. rewrite H0, B0, C0. repeat split; reflexivity. }
  destruct (stages_ex S Hok n t dt y p Hn) as (Y & Q & K & EY & EQ & H).
  exists Y, Q, K. split; [exact EY|]. split; [exact EQ|]. split.
  - intros i Hi. destruct (EC i Hi) as (-> & -> & ->). exact (H i Hi).
  - eapply always_fn; [apply rd_lsrk; auto|]. intros M E. apply meq_sym in E.
    rewrite <- EY in Hy. rewrite <- EQ in Hp. destruct (lsrk_holds S Hok n t dt m Y Q K Hn Hr Hy Hp H) as (G1 & G2 & G3).
    split; [eapply ready_meq; [exact E|exact G1]|]. split; (eapply holds_meq; [exact E|assumption]).
Qed.

Lemma C41_lsrk_history_independent_proof :
  forall (S : setup RA), setup_ok S -> forall (n : Z) (steps : list (R * R)) (m1 m2 m1' m2' : mem RA), 0 <= n ->
  ready S m1 -> ready S m2 -> state_eq S (fun k => 0 <= k < d_nlayers (sdims S)) St m1 m2 ->
  exec (sdims S) (lsrk_run S n steps) m1 (OK m1') -> exec (sdims S) (lsrk_run S n steps) m2 (OK m2') ->
  state_eq S (fun k => 0 <= k < d_nlayers (sdims S)) St m1' m2' .
Proof.
  intros S Hok n steps m1 m2 m1' m2' Hn R1 R2 E X1 X2.
  apply (exec_fn S _ (lsrk_run_fn S n steps)) in X1; [|now apply rd_lsrk_run].
  apply (exec_fn S _ (lsrk_run_fn S n steps)) in X2; [|now apply rd_lsrk_run].
  assert (G : state_eq S (allK S) St (lsrk_run_fn S n steps m1) (lsrk_run_fn S n steps m2)).
  { clear X1 X2 m1' m2'. revert m1 m2 R1 R2 E. induction steps as [|[t dt] l IH]; intros m1 m2 Ra Rb E; [exact E|].
    change (state_eq S (allK S) St (lsrk_run_fn S n l (lsrk_fn S n t dt m1)) (lsrk_run_fn S n l (lsrk_fn S n t dt m2))).
    apply IH; [eapply ready_cst; [apply cst_lsrk|exact Ra]|eapply ready_cst; [apply cst_lsrk|exact Rb]|].
    now apply lsrk_forget. }
  destruct X1 as [_ X1], X2 as [_ X2]. intros k Hk. destruct (G k Hk) as (G1 & G2 & G3).
  repeat split; intros; rewrite X1, X2; auto.
Qed.

Lemma C42_nan_persists_proof :
  forall (fc fs : spec_float -> spec_float) (fp : spec_float), let A := SFA fc fs fp in
  forall (S : setup A), setup_ok S -> forall (n : Z) (steps : list (F A * F A)) (m : mem A), 1 <= n -> steps <> [] -> ready S m ->
  always (sdims S) (lsrk_run S n steps) m (fun m' => forall k, 0 <= k < d_nlayers (sdims S) ->
   (forall c, 0 <= c < d_ncells (sdims S) -> mr m (HCell Tend) [c; k] = S754_nan ->
      mr m' (HCell Tend) [c; k] = S754_nan /\ mr m' (HCell St) [c; k] = S754_nan) /\
   (forall e, 0 <= e < d_nedges (sdims S) -> mr m (VnEdge Tend) [e; k] = S754_nan ->
      mr m' (VnEdge Tend) [e; k] = S754_nan /\ mr m' (VnEdge St) [e; k] = S754_nan) /\
   (forall l c, 0 <= l < ntracers (par_of S) -> 0 <= c < d_ncells (sdims S) -> mr m (TrCell Tend) [l; c; k] = S754_nan ->
      mr m' (TrCell Tend) [l; c; k] = S754_nan /\ mr m' (TrCell St) [l; c; k] = S754_nan)).
Proof.
  intros fc fs fp A S Hok n steps m Hn Hs Hr.
  assert (N1 : forall x : F A, (x + S754_nan : F A)%fp = S754_nan) by (intros []; reflexivity).
  assert (N2 : forall x : F A, (x * S754_nan : F A)%fp = S754_nan) by (intros []; reflexivity).
  assert (N3 : forall x : F A, ((S754_nan : F A) + x)%fp = S754_nan) by reflexivity.
  assert (N4 : forall x : F A, ((S754_nan : F A) - x)%fp = S754_nan) by reflexivity.
  assert (N5 : forall x : F A, ((S754_nan : F A) * x)%fp = S754_nan) by reflexivity.
  pose proof (ok_wfd S Hok) as Hd.
  (* what a stage does *)
  assert (G : forall k, 0 <= k < d_nlayers (sdims S) -> forall (a : sid -> rarr) ix,
    ((exists c, a = HCell /\ ix = [c; k] /\ 0 <= c < d_ncells (sdims S)) \/ (exists e, a = VnEdge /\ ix = [e; k] /\ 0 <= e < d_nedges (sdims S)) \/
     (exists l c, a = TrCell /\ ix = [l; c; k] /\ 0 <= l < ntracers (par_of S) /\ 0 <= c < d_ncells (sdims S))) ->
    (forall (x : F A) (n : mem A), mr n (a Tend) ix = S754_nan -> mr (scale_fn S x n) (a Tend) ix = S754_nan) /\
    (forall (time : F A) (n : mem A), ready S n -> mr n (a Tend) ix = S754_nan -> mr (tendency_fn S Tend St time Increment n) (a Tend) ix = S754_nan) /\
    (forall (dt b : F A) (n : mem A), mr n (a Tend) ix = S754_nan -> mr (axpy S St St dt b n) (a Tend) ix = S754_nan /\ mr (axpy S St St dt b n) (a St) ix = S754_nan)).
  { intros k Hk a ix HC. split; [|split].
    - intros x n0 Hx. destruct (holds_scale S x n0 _ (holds_self S Tend n0) k Hk) as (G1 & G2 & G3). cbn [fh fv ft] in G1, G2, G3.
      destruct HC as [(c & -> & -> & Hc)|[(e & -> & -> & He)|(l & c & -> & -> & Hl & Hc)]]; [rewrite G1|rewrite G2|rewrite G3]; auto; rewrite Hx; apply N5.
    - intros time n0 R0 Hx. pose proof (ready_wfm S Hok n0 R0) as W.
      destruct HC as [(c & -> & -> & Hc)|[(e & -> & -> & He)|(l & c & -> & -> & Hl & Hc)]].
      + rewrite val_h by assumption. unfold hk_h, hook_h, t_hadv, zr. cbn [is_replace]. rewrite Hx.
        destruct (disable_h (par_of S)), (hook S); reflexivity.
      + rewrite val_v by (assumption || discriminate). unfold hk_v, hook_v, g_vn, t_vhyp, t_vdiff, t_sshgrad, t_kegrad, t_pv, zr. cbn [is_replace]. rewrite Hx.
        destruct (disable_vn (par_of S)), (hook S), (vel_diff_enabled (par_of S)), (vel_hyperdiff_enabled (par_of S)), (ksimd (cfg_of S)); reflexivity.
      + rewrite val_tr by (assumption || discriminate). unfold g_tr, t_trhadv, t_trdiff, t_trhyp, zr. cbn [is_replace]. rewrite Hx.
        destruct (tracer_diff_enabled (par_of S)), (tracer_hyperdiff_enabled (par_of S)); reflexivity.
    - intros dt b n0 Hx. split.
      + rewrite axpy_other; [exact Hx|]. destruct HC as [(c & -> & -> & Hc)|[(e & -> & -> & He)|(l & c & -> & -> & Hl & Hc)]]; reflexivity.
      + destruct (holds_axpy S St St dt b n0 _ _ (holds_self S St n0) (holds_self S Tend n0) k Hk) as (G1 & G2 & G3). cbn [fh fv ft fmap2] in G1, G2, G3.
        destruct HC as [(c & -> & -> & Hc)|[(e & -> & -> & He)|(l & c & -> & -> & Hl & Hc)]]; [rewrite G1|rewrite G2|rewrite G3]; auto; rewrite Hx, N2; apply N1. }
  assert (G' : forall k, 0 <= k < d_nlayers (sdims S) -> forall (a : sid -> rarr) ix,
    ((exists c, a = HCell /\ ix = [c; k] /\ 0 <= c < d_ncells (sdims S)) \/ (exists e, a = VnEdge /\ ix = [e; k] /\ 0 <= e < d_nedges (sdims S)) \/
     (exists l c, a = TrCell /\ ix = [l; c; k] /\ 0 <= l < ntracers (par_of S) /\ 0 <= c < d_ncells (sdims S))) ->
    mr m (a Tend) ix = S754_nan ->
    mr (lsrk_run_fn S n steps m) (a Tend) ix = S754_nan /\ mr (lsrk_run_fn S n steps m) (a St) ix = S754_nan).
  { intros k Hk a ix HC Hx. destruct (G k Hk a ix HC) as (A1 & A2 & A3). clear G.
    assert (Rg : forall (dt t : F A) i n0, ready S n0 -> ready S (lsrk_stage_fn S n t dt i n0)).
    { intros dt t i n0 R0. unfold lsrk_stage_fn. eapply ready_cst; [apply cst_axpy|]. eapply ready_cst; [apply cst_tendency|].
      eapply ready_cst; [apply cst_scale|exact R0]. }
    assert (Sg : forall (t dt : F A) i (n0 : mem A), ready S n0 -> mr n0 (a Tend) ix = S754_nan ->
      mr (lsrk_stage_fn S n t dt i n0) (a Tend) ix = S754_nan /\ mr (lsrk_stage_fn S n t dt i n0) (a St) ix = S754_nan).
    { intros t dt i n0 R0 H0. unfold lsrk_stage_fn. apply A3. apply A2; [|now apply A1]. eapply ready_cst; [apply cst_scale|exact R0]. }
    assert (Lg : forall (t dt : F A) l (n0 : mem A), ready S n0 -> mr n0 (a Tend) ix = S754_nan ->
      let n1 := fold_left (fun m i => lsrk_stage_fn S n t dt i m) l n0 in
      ready S n1 /\ mr n1 (a Tend) ix = S754_nan /\ (l <> [] \/ mr n0 (a St) ix = S754_nan -> mr n1 (a St) ix = S754_nan)).
    { intros t dt l. induction l as [|i l IH]; intros n0 R0 H0; cbn [fold_left].
      - cbv zeta. split; [exact R0|]. split; [exact H0|]. intros [C|C]; [congruence|exact C].
      - destruct (Sg t dt i n0 R0 H0) as [B1 B2]. destruct (IH _ (Rg dt t i n0 R0) B1) as (C1 & C2 & C3). cbv zeta. auto. }
    assert (Hz : zseq n <> []).
    { unfold zseq. destruct (Z.to_nat n) eqn:En; [lia|]. discriminate. }
    revert m Hr Hx. induction steps as [|[t dt] l IH]; [congruence|]. intros m Hr Hx.
    change (lsrk_run_fn S n ((t, dt) :: l) m) with (lsrk_run_fn S n l (lsrk_fn S n t dt m)).
    destruct (Lg t dt (zseq n) m Hr Hx) as (B1 & B2 & B3). fold (lsrk_fn S n t dt m) in B1, B2, B3.
    destruct l as [|y l]; [split; [exact B2|apply B3; now left]|]. apply IH; [discriminate|exact B1|exact B2]. }
  eapply always_fn; [apply rd_lsrk_run; auto|]. intros M [_ E] k Hk. repeat setoid_rewrite E.
  split; [|split].
  - intros c Hc. apply (G' k Hk HCell [c; k]). left. exists c. auto.
  - intros e He. apply (G' k Hk VnEdge [e; k]). right. left. exists e. auto.
  - intros l c Hl Hc. apply (G' k Hk TrCell [l; c; k]). right. right. exists l, c. auto.
Qed.

Lemma C43_unsupported_stage_count_does_nothing_proof :
  forall (S : setup RA), setup_ok S -> forall (n : Z) (steps : list (R * R)) (m : mem RA), n <> 1 -> n <> 5 -> ready S m ->
  always (sdims S) (lsrk_run S n steps) m (fun m' => state_eq S (fun k => 0 <= k < d_nlayers (sdims S)) St m m').
Proof.
  intros S Hok n steps m H1 H5 Hr.
  assert (Eb : forall i, lsrk_b (A:=RA) n i = 0%R).
  { intros i. unfold lsrk_b. apply Z.eqb_neq in H1, H5. now rewrite H1, H5. }
  eapply always_fn; [apply rd_lsrk_run; auto|]. intros M E.
  assert (G : state_eq S (allK S) St m (lsrk_run_fn S n steps m)).
  { apply (lsrk_inv S n (fun m' => state_eq S (allK S) St m m')).
    - intros i n0 H k Hk. destruct (H k Hk) as (A1 & A2 & A3). repeat split; intros; rewrite scale_other by reflexivity; auto.
    - intros time n0 H k Hk. destruct (H k Hk) as (A1 & A2 & A3). repeat split; intros; rewrite tend_other by (reflexivity || discriminate); auto.
    - intros dt i n0 H k Hk. destruct (H k Hk) as (A1 & A2 & A3).
      destruct (holds_axpy S St St dt (lsrk_b n i) n0 _ _ (holds_self S St n0) (holds_self S Tend n0) k Hk) as (G1 & G2 & G3).
      cbn [fh fv ft fmap2] in G1, G2, G3. rewrite Eb in G1, G2, G3. rewrite Eb.
      repeat split; intros; [rewrite G1, A1|rewrite G2, A2|rewrite G3, A3]; auto; rring.
    - intros k Hk. repeat split. }
  destruct E as [_ E]. intros k Hk. destruct (G k Hk) as (A1 & A2 & A3). repeat split; intros; rewrite E; auto.
Qed.

Lemma C44_rk4_order_conditions_proof :
  exists (a : Z -> Z -> R) (b c : Z -> R),
  (forall (S : setup RA), setup_ok S ->
   (disable_h (par_of S) = true \/ disable_vn (par_of S) = true -> hook S = None) ->
   forall (t dt : R) (m : mem RA) (y : fields RA), ready S m -> holds S St m y -> disabled_zero S Tend m ->
   exists K : Z -> fields RA,
     (forall i, 0 <= i < 4 -> tendency_of S (t + c i * dt)%R (comb s4 y dt (a i) K) (K i)) /\
     always (sdims S) (rk4_step S t dt) m (fun m' => holds S St m' (comb s4 y dt b K))) /\
  (forall i j, 0 <= i < 4 -> i <= j < 4 -> a i j = 0%R) /\
  (forall i, 0 <= i < 4 -> c i = s4 (a i)) /\
  (s4 b = 1 /\ s4 (fun i => b i * c i) = 1 / 2 /\
   s4 (fun i => b i * c i ^ 2) = 1 / 3 /\ s4 (fun i => b i * s4 (fun j => a i j * c j)) = 1 / 6 /\
   s4 (fun i => b i * c i ^ 3) = 1 / 4 /\ s4 (fun i => b i * c i * s4 (fun j => a i j * c j)) = 1 / 8 /\
   s4 (fun i => b i * s4 (fun j => a i j * c j ^ 2)) = 1 / 12 /\
   s4 (fun i => b i * s4 (fun j => a i j * s4 (fun l => a j l * c l))) = 1 / 24)%R.
Proof.
  exists (fun i j => if (i =? 1) && (j =? 0) then (1 / 2)%R else if (i =? 2) && (j =? 1) then (1 / 2)%R else if (i =? 3) && (j =? 2) then 1%R else 0%R),
    (fun i => if (i =? 0) || (i =? 3) then (1 / 6)%R else (1 / 3)%R), (fun i => if i =? 0 then 0%R else if i =? 3 then 1%R else (1 / 2)%R).
  split; [|split; [|split]].
  - intros S Hok Hu t dt m y Hr Hy Hz.
    pose (add b (x k : fields RA) := fmap2 (A:=RA) (fun u w => u + b * w)%R x k).
    destruct (tendency_ex S Hok t y) as [k1 T1].
    destruct (tendency_ex S Hok (t + dt / 2)%R (add (dt / 2)%R y k1)) as [k2 T2].
    destruct (tendency_ex S Hok (t + dt / 2)%R (add (dt / 2)%R y k2)) as [k3 T3].
    destruct (tendency_ex S Hok (t + dt)%R (add dt y k3)) as [k4 T4].
    pose proof (C39_rk4_is_classical_proof S Hok Hu t dt m y k1 k2 k3 k4 Hr Hy Hz T1 T2 T3 T4) as G. cbv zeta in G.
    exists (fun i => if i =? 0 then k1 else if i =? 1 then k2 else if i =? 2 then k3 else k4). split.
    + intros i Hi. assert (Ci : i = 0 \/ i = 1 \/ i = 2 \/ i = 3) by lia.
      destruct Ci as [->|[->|[->| ->]]]; cbn [Z.eqb Pos.eqb andb orb].
      * replace (t + 0 * dt)%R with t by ring. erewrite (feq (comb _ _ _ _ _)); [exact T1|..]; intros; unfold comb, s4; cbn [fh fv ft Z.eqb Pos.eqb andb orb]; apply Rminus_diag_uniq; ring.
      * replace (t + 1 / 2 * dt)%R with (t + dt / 2)%R by field. erewrite (feq (comb _ _ _ _ _)); [exact T2|..]; intros; unfold comb, s4, add; cbn [fmap2 fh fv ft Z.eqb Pos.eqb andb orb]; apply Rminus_diag_uniq; field.
      * replace (t + 1 / 2 * dt)%R with (t + dt / 2)%R by field. erewrite (feq (comb _ _ _ _ _)); [exact T3|..]; intros; unfold comb, s4, add; cbn [fmap2 fh fv ft Z.eqb Pos.eqb andb orb]; apply Rminus_diag_uniq; field.
      * replace (t + 1 * dt)%R with (t + dt)%R by ring. erewrite (feq (comb _ _ _ _ _)); [exact T4|..]; intros; unfold comb, s4, add; cbn [fmap2 fh fv ft Z.eqb Pos.eqb andb orb]; apply Rminus_diag_uniq; ring.
    + erewrite (feq (comb _ _ _ _ _)); [exact G|..]; intros; unfold comb, s4; cbn [fh fv ft Z.eqb Pos.eqb andb orb]; apply Rminus_diag_uniq; field.
  - intros i j Hi Hj. destruct (i =? 1) eqn:E1, (i =? 2) eqn:E2, (i =? 3) eqn:E3, (j =? 0) eqn:F1, (j =? 1) eqn:F2, (j =? 2) eqn:F3; cbn; try reflexivity; lia.
  - intros i Hi. assert (Ci : i = 0 \/ i = 1 \/ i = 2 \/ i = 3) by lia.
    destruct Ci as [->|[->|[->| ->]]]; unfold s4; cbn [Z.eqb Pos.eqb andb orb]; field.
  - unfold s4. cbn [Z.eqb Pos.eqb andb orb]. repeat split; field.
Qed.

Lemma C45_lsrk5_order_conditions_proof :
  exists (a : Z -> Z -> R) (b c : Z -> R), let eps := (1 / 10 ^ 25)%R in
  (forall (S : setup RA), setup_ok S ->
   forall (t dt : R) (m : mem RA) (y : fields RA), ready S m -> holds S St m y ->
   exists K : Z -> fields RA,
     (forall i, 0 <= i < 5 -> tendency_of S (t + c i * dt)%R (comb s5 y dt (a i) K) (K i)) /\
     always (sdims S) (lsrk_step S 5 t dt) m (fun m' => holds S St m' (comb s5 y dt b K))) /\
  (forall i j, 0 <= i < 5 -> i <= j < 5 -> a i j = 0%R) /\
  (forall i, 0 <= i < 5 -> (Rabs (c i - s5 (a i)) <= eps)%R) /\
  (Rabs (s5 b - 1) <= eps /\ Rabs (s5 (fun i => b i * s5 (a i)) - 1 / 2) <= eps /\
   Rabs (s5 (fun i => b i * s5 (a i) ^ 2) - 1 / 3) <= eps /\ Rabs (s5 (fun i => b i * s5 (fun j => a i j * s5 (a j))) - 1 / 6) <= eps /\
   Rabs (s5 (fun i => b i * s5 (a i) ^ 3) - 1 / 4) <= eps /\ Rabs (s5 (fun i => b i * s5 (a i) * s5 (fun j => a i j * s5 (a j))) - 1 / 8) <= eps /\
   Rabs (s5 (fun i => b i * s5 (fun j => a i j * s5 (a j) ^ 2)) - 1 / 12) <= eps /\
   Rabs (s5 (fun i => b i * s5 (fun j => a i j * s5 (fun l => a j l * s5 (a l)))) - 1 / 24) <= eps)%R.
Proof.
  exists (tabA tab_a tab_b), (tabA tab_a tab_b 5), tab_c. cbv zeta. split; [|split; [|split]].
  - intros S Hok t dt m y Hr Hy.
    destruct (stages_ex S Hok 5 t dt y (mkFields (fun c k => mr m (HCell Tend) [c; k]) (fun e k => mr m (VnEdge Tend) [e; k]) (fun l c k => mr m (TrCell Tend) [l; c; k])) ltac:(lia)) as (Y & Q & K & EY & EQ & H).
    assert (C : forall i, 0 <= i < 5 -> lsrk_a (A:=RA) 5 i = tab_a i /\ lsrk_b (A:=RA) 5 i = tab_b i /\ lsrk_c (A:=RA) 5 i = tab_c i).
    { intros i Hi. assert (Ci : i = 0 \/ i = 1 \/ i = 2 \/ i = 3 \/ i = 4) by lia.
      destruct Ci as [->|[->|[->|[->| ->]]]]; repeat split; reflexivity. }
    destruct (H 0 ltac:(lia)) as (_ & Q0 & Y0), (H 1 ltac:(lia)) as (_ & Q1 & Y1), (H 2 ltac:(lia)) as (_ & Q2 & Y2),
      (H 3 ltac:(lia)) as (_ & Q3 & Y3), (H 4 ltac:(lia)) as (_ & Q4 & Y4).
    cbn [Z.add Pos.add Pos.succ] in *.
    destruct (C 0 ltac:(lia)) as (A0 & B0 & _), (C 1 ltac:(lia)) as (A1 & B1 & _), (C 2 ltac:(lia)) as (A2 & B2 & _),
      (C 3 ltac:(lia)) as (A3 & B3 & _), (C 4 ltac:(lia)) as (A4 & B4 & _).
    rewrite A0 in Q0. rewrite A1 in Q1. rewrite A2 in Q2. rewrite A3 in Q3. rewrite A4 in Q4.
    rewrite B0 in Y0. rewrite B1 in Y1. rewrite B2 in Y2. rewrite B3 in Y3. rewrite B4 in Y4.
    change (tab_a 0) with 0%R in Q0.
    assert (EC : forall i, 0 <= i <= 5 -> comb s5 y dt (tabA tab_a tab_b i) K = Y i).
    { generalize tab_a tab_b Q1 Q2 Q3 Q4 Y0 Y1 Y2 Y3 Y4. clear - EY EQ Q0. intros ta tb Q1 Q2 Q3 Q4 Y0 Y1 Y2 Y3 Y4 i Hi.
      assert (Ci : i = 0 \/ i = 1 \/ i = 2 \/ i = 3 \/ i = 4 \/ i = 5) by lia.
      destruct Ci as [->|[->|[->|[->|[->| ->]]]]]; rewrite ?Y4, ?Y3, ?Y2, ?Y1, ?Y0, ?Q4, ?Q3, ?Q2, ?Q1, ?Q0, ?EY;
        apply feq; intros; unfold comb, s5, tabA; cbn [fmap2 fh fv ft Z.leb Z.compare Pos.compare Pos.compare_cont]; apply Rminus_diag_uniq; ring. }
    exists K. split.
    + intros i Hi. destruct (H i Hi) as (T & _ & _). rewrite EC by lia. destruct (C i Hi) as (_ & _ & <-). exact T.
    + rewrite EC by lia. eapply always_fn; [apply rd_lsrk; auto|]. intros M E. apply meq_sym in E.
      destruct (lsrk_holds S Hok 5 t dt m Y Q K) as (_ & G & _); auto; try lia.
      * now rewrite EY.
      * rewrite EQ. apply holds_self.
      * eapply holds_meq; [exact E|exact G].
  - intros i j Hi Hj. assert (Ci : i = 0 \/ i = 1 \/ i = 2 \/ i = 3 \/ i = 4) by lia. assert (Cj : j = 0 \/ j = 1 \/ j = 2 \/ j = 3 \/ j = 4) by lia.
    destruct Ci as [->|[->|[->|[->| ->]]]], Cj as [->|[->|[->|[->| ->]]]]; try lia; unfold tabA; cbn [Z.leb Z.compare Pos.compare Pos.compare_cont]; ring.
  - apply tab_rows.
  - apply tab_order.
Qed.

Lemma C47_disabled_variables_frozen_proof :
  forall (S : setup RA), setup_ok S -> forall (n : Z) (steps : list (R * R)) (m : mem RA), ready S m ->
  (hook S = None -> forall Ls, Ls = rk4_run S steps \/ Ls = lsrk_run S n steps ->
   (disable_h (par_of S) = true ->
    (forall c k, 0 <= c < d_ncells (sdims S) -> 0 <= k < d_nlayers (sdims S) -> mr m (HCell Tend) [c; k] = 0%R) ->
    always (sdims S) Ls m (fun m' => forall c k, 0 <= c < d_ncells (sdims S) -> 0 <= k < d_nlayers (sdims S) ->
      mr m' (HCell St) [c; k] = mr m (HCell St) [c; k])) /\
   (disable_vn (par_of S) = true ->
    (forall e k, 0 <= e < d_nedges (sdims S) -> 0 <= k < d_nlayers (sdims S) -> mr m (VnEdge Tend) [e; k] = 0%R) ->
    always (sdims S) Ls m (fun m' => forall e k, 0 <= e < d_nedges (sdims S) -> 0 <= k < d_nlayers (sdims S) ->
      mr m' (VnEdge St) [e; k] = mr m (VnEdge St) [e; k]))) /\
  (ntracers (par_of S) = 0 ->
   (forall s ix, inb (rext (sdims S) (TrCell s)) ix = false) /\ (forall ix, inb (rext (sdims S) NormTrCell) ix = false) /\
   (forall Ls, Ls = rk4_run S steps \/ Ls = lsrk_run S n steps -> forall o, exec (sdims S) Ls m o -> exists m', o = OK m')).
Proof.
  intros S Hok n steps m Hr. pose proof (ok_wfd S Hok) as Hd.
  assert (Run : forall (J : mem RA -> Prop), (forall M N, meq M N -> J N -> J M) ->
    (forall n, J n -> J (save_fn S n)) -> (forall x n, J n -> J (scale_fn S x n)) ->
    (forall s time md n, s = St \/ s = Provis -> ready S n -> J n -> J (tendency_fn S Tend s time md n)) ->
    (forall dt b n, J n -> J (axpy S St St dt b n)) -> (forall dt b n, J n -> J (axpy S Provis Old dt b n)) ->
    J m -> forall Ls, Ls = rk4_run S steps \/ Ls = lsrk_run S n steps -> always (sdims S) Ls m J).
  { intros J HM H1 H2 H3 H4 H5 Hm Ls [->| ->].
    - eapply always_fn; [apply rd_rk4_run; auto|]. intros M E. eapply HM; [exact E|].
      apply (rk4_inv S (fun n => ready S n /\ J n)); auto; intros.
      + destruct H; split; [eapply ready_cst; [apply cst_save|assumption]|auto].
      + destruct H0; split; [eapply ready_cst; [apply cst_tendency|assumption]|auto].
      + destruct H; split; [eapply ready_cst; [apply cst_axpy|assumption]|auto].
      + destruct H; split; [eapply ready_cst; [apply cst_axpy|assumption]|auto].
    - eapply always_fn; [apply rd_lsrk_run; auto|]. intros M E. eapply HM; [exact E|].
      apply (lsrk_inv S n (fun n => ready S n /\ J n)); auto; intros.
      + destruct H; split; [eapply ready_cst; [apply cst_scale|assumption]|auto].
      + destruct H; split; [eapply ready_cst; [apply cst_tendency|assumption]|auto].
      + destruct H; split; [eapply ready_cst; [apply cst_axpy|assumption]|auto]. }
  split; [intros Hk Ls HL; split|].
  - intros Hh H0.
    assert (G : always (sdims S) Ls m (fun m' => forall c k, 0 <= c < d_ncells (sdims S) -> 0 <= k < d_nlayers (sdims S) ->
      mr m' (HCell Tend) [c; k] = 0%R /\ mr m' (HCell St) [c; k] = mr m (HCell St) [c; k])).
    { apply (Run (fun m' => forall c k, 0 <= c < d_ncells (sdims S) -> 0 <= k < d_nlayers (sdims S) ->
      mr m' (HCell Tend) [c; k] = 0%R /\ mr m' (HCell St) [c; k] = mr m (HCell St) [c; k])); [ | | | | | | |exact HL].
      - intros M N [_ E] H c k Hc Hk'. rewrite !E. auto.
      - intros n0 H c k Hc Hk'. rewrite !save_other by reflexivity. auto.
      - intros x n0 H c k Hc Hk'. destruct (H c k Hc Hk') as [A1 A2].
        destruct (holds_scale S x n0 _ (holds_self S Tend n0) k Hk') as (G1 & _). cbn [fh] in G1.
        rewrite G1 by assumption. rewrite scale_other by reflexivity. rewrite A1. split; [cbn [fmul RA]; apply Rmult_0_l|exact A2].
      - intros s time md n0 Hs R0 H c k Hc Hk'. destruct (H c k Hc Hk') as [A1 A2].
        rewrite val_h by auto using ready_wfm. rewrite tend_other by (reflexivity || discriminate).
        unfold hk_h. rewrite Hk, Hh. auto.
      - intros dt b n0 H c k Hc Hk'. destruct (H c k Hc Hk') as [A1 A2]. rewrite axpy_other by reflexivity. split; [exact A1|].
        destruct (holds_axpy S St St dt b n0 _ _ (holds_self S St n0) (holds_self S Tend n0) k Hk') as (G1 & _).
        cbn [fh fmap2] in G1. rewrite G1 by assumption. rewrite A1, A2. rring.
      - intros dt b n0 H c k Hc Hk'. rewrite !axpy_other by reflexivity. auto.
      - intros c k Hc Hk'. rewrite H0 by assumption. auto. }
    destruct G as [G1 G2]. split; [|exact G2]. intros o Ho. destruct (G1 o Ho) as (M & EM & HM). exists M. split; [exact EM|]. intros; now apply HM.
  - intros Hh H0.
    assert (G : always (sdims S) Ls m (fun m' => forall c k, 0 <= c < d_nedges (sdims S) -> 0 <= k < d_nlayers (sdims S) ->
      mr m' (VnEdge Tend) [c; k] = 0%R /\ mr m' (VnEdge St) [c; k] = mr m (VnEdge St) [c; k])).
    { apply (Run (fun m' => forall c k, 0 <= c < d_nedges (sdims S) -> 0 <= k < d_nlayers (sdims S) ->
      mr m' (VnEdge Tend) [c; k] = 0%R /\ mr m' (VnEdge St) [c; k] = mr m (VnEdge St) [c; k])); [ | | | | | | |exact HL].
      - intros M N [_ E] H c k Hc Hk'. rewrite !E. auto.
      - intros n0 H c k Hc Hk'. rewrite !save_other by reflexivity. auto.
      - intros x n0 H c k Hc Hk'. destruct (H c k Hc Hk') as [A1 A2].
        destruct (holds_scale S x n0 _ (holds_self S Tend n0) k Hk') as (_ & G1 & _). cbn [fv] in G1.
        rewrite G1 by assumption. rewrite scale_other by reflexivity. rewrite A1. split; [cbn [fmul RA]; apply Rmult_0_l|exact A2].
      - intros s time md n0 Hs R0 H c k Hc Hk'. destruct (H c k Hc Hk') as [A1 A2].
        rewrite val_v by (auto using ready_wfm; destruct Hs; subst; discriminate). rewrite tend_other by (reflexivity || discriminate).
        unfold hk_v. rewrite Hk, Hh. auto.
      - intros dt b n0 H c k Hc Hk'. destruct (H c k Hc Hk') as [A1 A2]. rewrite axpy_other by reflexivity. split; [exact A1|].
        destruct (holds_axpy S St St dt b n0 _ _ (holds_self S St n0) (holds_self S Tend n0) k Hk') as (_ & G1 & _).
        cbn [fv fmap2] in G1. rewrite G1 by assumption. rewrite A1, A2. rring.
      - intros dt b n0 H c k Hc Hk'. rewrite !axpy_other by reflexivity. auto.
      - intros c k Hc Hk'. rewrite H0 by assumption. auto. }
    destruct G as [G1 G2]. split; [|exact G2]. intros o Ho. destruct (G1 o Ho) as (M & EM & HM). exists M. split; [exact EM|]. intros; now apply HM.
  - intros Hn. assert (Z : forall (y z : Z) ix, inb [0; y; z] ix = false).
    { intros y z [|a ix]; [reflexivity|]. cbn [inb]. replace ((0 <=? a) && (a <? 0)) with false; [reflexivity|].
      symmetry. apply andb_false_iff. destruct (0 <=? a) eqn:E; [right|now left]. apply Z.leb_le in E. apply Z.ltb_ge. lia. }
    split; [|split].
    + intros s ix. cbn [rext]. rewrite d_ntr, Hn. apply Z.
    + intros ix. cbn [rext]. rewrite d_ntr, Hn. apply Z.
    + intros Ls HL o Ho.
      assert (G : always (sdims S) Ls m (fun _ => True)) by (apply (Run (fun _ => True)); auto).
      destruct G as [G _]. destruct (G o Ho) as (M & EM & _). eauto.
Qed.

