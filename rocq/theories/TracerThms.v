(** Proofs of the properties of [PropsTracer.v]. *)
From Coq Require Import ZArith Reals List Bool Lia Lra.
From Verif Require Import Arith Arrays Prog Conc Launch Mesh AuxVars Tend Model Hex RSum Spec MeshProof MeshMem Over Formulas KernBase Terms KernAux KernTend TendFn StepFn Ready Rel RelRun Relate TendVal StepVal StepRun StepThms RealTend FieldInv ConsBase ConsThms SteadyThms TrSwap.
Import ListNotations.
Open Scope Z_scope.

(** The thickness hook adds nothing. *)
Definition hook_h_zero (S : setup RA) : Prop :=
  match hook S with None => True | Some f => forall x y t : R, force_h f x y t = 0%R end.
Lemma hk_h_zero S (time : R) m c k x : hook_h_zero S -> hk_h S (time : F RA) m c k x = x.
Proof.
  unfold hook_h_zero, hk_h, hook_h. destruct (hook S); [|reflexivity]. intros H. rewrite H. cbn [fadd RA F]. apply Rplus_0_r.
Qed.

Section Uni.
Context (S : setup RA) (Hok : setup_ok S) (m : mem RA) (Hr : ready S m) (s : sid) (k l : Z) (Hk : 0 <= k < d_nlayers (sdims S)) (q : R).
Local Notation NC := (nx (mesh_of_setup S) * ny (mesh_of_setup S)).
Context (Hl : 0 <= l < ntracers (par_of S))
  (Hnz : forall c, 0 <= c < NC -> (mr m (HCell s) [c; k] : R) <> 0%R)
  (Hq : forall c, 0 <= c < NC -> mr m (TrCell s) [l; c; k] = (q * mr m (HCell s) [c; k])%R).
Lemma ttend_uniform c : 0 <= c < NC ->
  ttend S m s k l c = (- (q * outflow m (fun e => emean m (fun c => mr m (HCell s) [c; k]) e * mr m (VnEdge s) [e; k])%R c))%R.
Proof.
  intros Hc. unfold ttend. cbv zeta.
  set (r := fun c => (mr m (TrCell s) [l; c; k] / mr m (HCell s) [c; k])%R).
  assert (Er : forall c, 0 <= c < NC -> r c = q).
  { intros c' Hc'. unfold r. rewrite Hq by assumption. pose proof (Hnz c' Hc') as N. cbn [F RA] in *. field. exact N. }
  assert (G0 : forall e, 0 <= e < 3 * NC -> grad m r e = 0%R).
  { intros e He. apply (grad_flat S Hok m Hr); [|assumption]. intros a b Ha Hb. now rewrite !Er. }
  assert (O0 : forall c, 0 <= c < NC -> outflow m (fun e => emean m (fun c => mr m (HCell s) [c; k]) e * grad m r e)%R c = 0%R).
  { intros c' Hc'. apply (outflow_zero S Hok m Hr); [assumption|]. intros e He. cbv beta. rewrite G0 by assumption. ring. }
  assert (O1 : outflow m (grad m (outflow m (fun e => emean m (fun c => mr m (HCell s) [c; k]) e * grad m r e)%R)) c = 0%R).
  { apply (outflow_zero S Hok m Hr); [assumption|]. intros e He. apply (grad_flat S Hok m Hr); [|assumption]. intros a b Ha Hb. now rewrite !O0. }
  rewrite O0, O1 by assumption.
  rewrite (outflow_ext S Hok m Hr _ (fun e => q * (emean m (fun c => mr m (HCell s) [c; k]) e * mr m (VnEdge s) [e; k]))%R); [|..|assumption].
  - rewrite outflow_scal. destruct (tracer_diff_enabled (par_of S)), (tracer_hyperdiff_enabled (par_of S)); cbn [F RA]; ring.
  - intros e He. cbv beta. unfold emean at 2.
    rewrite !Er by (apply (wf_coe _ _ (ready_wfm S Hok m Hr)); lia || assumption). cbn [F RA]. field.
Qed.
Lemma uniform_tend t (time : R) md c : s <> t -> disable_h (par_of S) = false -> hook_h_zero S -> 0 <= c < NC ->
  (md = Replace \/ mr m (TrCell t) [l; c; k] = (q * mr m (HCell t) [c; k])%R) ->
  mr (tendency_fn S t s (time : F RA) md m) (TrCell t) [l; c; k] = (q * mr (tendency_fn S t s (time : F RA) md m) (HCell t) [c; k])%R.
Proof.
  intros Hst Hh Hf Hc Hmd. rewrite (T_tr S Hok m Hr), (T_h S Hok m Hr) by assumption. rewrite hk_h_zero by exact Hf. rewrite Hh.
  rewrite ttend_uniform by assumption. unfold zr.
  destruct md; cbn [is_replace fofZ RA]; [|destruct Hmd as [Hmd|Hmd]; [discriminate|]; rewrite Hmd]; cbn [F RA]; ring.
Qed.
End Uni.

(** Fields with uniform concentrations. *)
Definition unif (S : setup RA) (q : Z -> Z -> R) (y : fields RA) : Prop := forall l c k,
  0 <= l < ntracers (par_of S) -> 0 <= c < d_ncells (sdims S) -> 0 <= k < d_nlayers (sdims S) -> ft y l c k = (q l k * fh y c k)%R.
Definition nzh (S : setup RA) (y : fields RA) : Prop := forall c k,
  0 <= c < d_ncells (sdims S) -> 0 <= k < d_nlayers (sdims S) -> (fh y c k : R) <> 0%R.
Section Run.
Context (S : setup RA) (Hok : setup_ok S) (Hh : disable_h (par_of S) = false) (Hf : hook_h_zero S) (q : Z -> Z -> R).
Lemma unif_tend (time : R) y k : unif S q y -> nzh S y -> tendency_of S (time : F RA) y k -> unif S q k.
Proof.
  intros U N T l c j Hl Hc Hj.
  destruct (ready_any S Hok (fun a ix => match a, ix with
    | HCell St, [c; k] => fh y c k | VnEdge St, [e; k] => fv y e k | TrCell St, [l; c; k] => ft y l c k | _, _ => 0%R end)) as (m & R & E).
  assert (Hy : holds S St m y) by (intros j' Hj'; repeat split; intros; now rewrite E).
  assert (Hz : disabled_zero S Tend m) by (intros j' Hj'; split; intros; now rewrite E).
  assert (X : holds S Tend (tendency_fn S Tend St (time : F RA) Replace m) k) by (apply tend_holds with (y := y); auto; discriminate).
  destruct (X j Hj) as (X1 & _ & X3). rewrite <- X1, <- X3 by assumption. destruct (Hy j Hj) as (Y1 & _ & Y3).
  apply uniform_tend; auto; [..|discriminate].
  - intros c' Hc'. rewrite Y1 by assumption. now apply N.
  - intros c' Hc'. rewrite Y1, Y3 by assumption. now apply U.
Qed.
Lemma unif_lin a b y k : unif S q y -> unif S q k -> unif S q (fmap2 (A:=RA) (fun u w => (a * u + b * w)%R) y k).
Proof. intros U1 U2 l c j Hl Hc Hj. cbn [fmap2 fh ft]. rewrite U1, U2 by assumption. cbn [F RA]. ring. Qed.
Lemma unif_add b y k : unif S q y -> unif S q k -> unif S q (fmap2 (A:=RA) (fun u w => (u + b * w)%R) y k).
Proof. intros U1 U2 l c j Hl Hc Hj. cbn [fmap2 fh ft]. rewrite U1, U2 by assumption. cbn [F RA]. ring. Qed.
Lemma unif_sc a y k : unif S q y -> unif S q k -> unif S q (fmap2 (A:=RA) (fun u w => (a * u + w)%R) y k).
Proof. intros U1 U2 l c j Hl Hc Hj. cbn [fmap2 fh ft]. rewrite U1, U2 by assumption. cbn [F RA]. ring. Qed.
Lemma unif_holds s m y : holds S s m y -> unif S q y <-> unif S q (fld s m).
Proof.
  intros H. unfold unif. split; intros U l c k Hl Hc Hk; destruct (H k Hk) as (H1 & _ & H3); specialize (U l c k Hl Hc Hk).
  - cbn [fld fh ft]. now rewrite H1, H3.
  - cbn [fld fh ft] in U. now rewrite H1, H3 in U.
Qed.
End Run.

Lemma C32_uniform_concentration_tendency_proof :
  forall (S : setup RA), setup_ok S -> disable_h (par_of S) = false ->
  match hook S with None => True | Some f => forall x y t : R, force_h f x y t = 0%R end ->
  forall (t s : sid) (time : R) (md : add_mode) (m : mem RA) (k l : Z) (q : R), s <> t -> ready S m ->
  0 <= k < d_nlayers (sdims S) -> 0 <= l < ntracers (par_of S) ->
  (forall c, 0 <= c < d_ncells (sdims S) -> (mr m (HCell s) [c; k] : R) <> 0%R /\ mr m (TrCell s) [l; c; k] = (q * mr m (HCell s) [c; k])%R) ->
  (md = Increment -> forall c, 0 <= c < d_ncells (sdims S) -> mr m (TrCell t) [l; c; k] = (q * mr m (HCell t) [c; k])%R) ->
  always (sdims S) (compute_tendency S t s time md) m (fun m' => forall c, 0 <= c < d_ncells (sdims S) ->
    mr m' (TrCell t) [l; c; k] = (q * mr m' (HCell t) [c; k])%R).
Proof.
  intros S Hok Hh Hf t s time md m k l q Hst Hr Hk Hl Hu Hi. eapply always_fn; [apply (rd_tendency S Hok); auto|].
  intros m' [_ E] c Hc. rewrite !E. apply uniform_tend; auto.
  - intros c' Hc'. now apply Hu.
  - intros c' Hc'. now apply Hu.
  - destruct md; [now left|right; now apply Hi].
Qed.

Lemma C32_uniform_concentration_rk4_proof :
  forall (S : setup RA), setup_ok S -> disable_h (par_of S) = false ->
  match hook S with None => True | Some f => forall x y t : R, force_h f x y t = 0%R end ->
  (disable_vn (par_of S) = true -> hook S = None) ->
  forall (q : Z -> Z -> R) (steps : list (R * R)) (m m' : mem RA), ready S m -> disabled_zero S Tend m ->
  let uniform (m : mem RA) := forall l c k, 0 <= l < ntracers (par_of S) -> 0 <= c < d_ncells (sdims S) -> 0 <= k < d_nlayers (sdims S) ->
    mr m (TrCell St) [l; c; k] = (q l k * mr m (HCell St) [c; k])%R in
  let nonzero (y : fields RA) := forall c k, 0 <= c < d_ncells (sdims S) -> 0 <= k < d_nlayers (sdims S) -> (fh y c k : R) <> 0%R in
  let add (b : R) (x k : fields RA) := fmap2 (A:=RA) (fun u w => u + b * w)%R x k in
  uniform m ->
  (forall done t dt rest n y k1 k2 k3, steps = done ++ (t, dt) :: rest ->
     exec (sdims S) (rk4_run S done) m (OK n) -> holds S St n y ->
     tendency_of S t y k1 -> tendency_of S (t + dt / 2)%R (add (dt / 2)%R y k1) k2 -> tendency_of S (t + dt / 2)%R (add (dt / 2)%R y k2) k3 ->
     nonzero y /\ nonzero (add (dt / 2)%R y k1) /\ nonzero (add (dt / 2)%R y k2) /\ nonzero (add dt y k3)) ->
  exec (sdims S) (rk4_run S steps) m (OK m') -> uniform m' .
Proof.
  intros S Hok Hh Hf Hv q steps m m' Hr Hz uniform nonzero ad. 
  change (uniform m) with (forall l c k, 0 <= l < ntracers (par_of S) -> 0 <= c < d_ncells (sdims S) -> 0 <= k < d_nlayers (sdims S) -> ft (fld St m) l c k = (q l k * fh (fld St m) c k)%R).
  fold (unif S q (fld St m)). change (uniform m') with (unif S q (fld St m')).
  assert (Hu : unforced S) by (intros [X|X]; [congruence|auto]).
  clear uniform. revert m Hr Hz. induction steps as [|[t dt] l IH]; intros m Hr Hz U N X.
  { cbn in X. inversion X; subst. exact U. }
  change (rk4_run S ((t, dt) :: l)) with (rk4_step S t dt ++ rk4_run S l) in X. apply exec_app in X.
  destruct X as [(m1 & X1 & X2)|[X _]]; [|discriminate].
  set (y := fld St m).
  assert (Ea : forall b (x : fields RA) k, add (A:=RA) dt b x k = ad (dt * b)%R x k) by reflexivity.
  assert (A0 : (dt * rk4_a (A:=RA) 0 = dt / 2)%R) by (unfold rk4_a; cbn [Z.eqb Pos.eqb fdiv fofZ RA F]; field).
  assert (A1 : (dt * rk4_a (A:=RA) 1 = dt / 2)%R) by (unfold rk4_a; cbn [Z.eqb Pos.eqb fdiv fofZ RA F]; field).
  assert (A2 : (dt * rk4_a (A:=RA) 2 = dt)%R) by (unfold rk4_a; cbn [Z.eqb Pos.eqb fdiv fofZ RA F]; ring).
  assert (C0 : (t + rk4_c (A:=RA) 0 * dt = t + dt / 2)%R) by (unfold rk4_c; cbn [Z.eqb Pos.eqb fdiv fofZ RA F]; field).
  assert (C1 : (t + rk4_c (A:=RA) 1 * dt = t + dt / 2)%R) by (unfold rk4_c; cbn [Z.eqb Pos.eqb fdiv fofZ RA F]; field).
  destruct (tendency_ex S Hok t y) as [k1 T1].
  destruct (tendency_ex S Hok (t + rk4_c (A:=RA) 0 * dt)%R (add (A:=RA) dt (rk4_a 0) y k1)) as [k2 T2].
  destruct (tendency_ex S Hok (t + rk4_c (A:=RA) 1 * dt)%R (add (A:=RA) dt (rk4_a 1) y k2)) as [k3 T3].
  destruct (tendency_ex S Hok (t + rk4_c (A:=RA) 2 * dt)%R (add (A:=RA) dt (rk4_a 2) y k3)) as [k4 T4].
  destruct (N [] t dt l m y k1 k2 k3 eq_refl (ex_nil _ _) (holds_fld S St m) T1) as (N1 & N2 & N3 & N4).
  { rewrite Ea, A0 in T2. rewrite <- C0. exact T2. }
  { rewrite Ea, A1 in T3. rewrite <- C1. exact T3. }
  assert (Ad : forall b x k, unif S q x -> unif S q k -> unif S q (add (A:=RA) dt b x k)) by (intros; rewrite Ea; now apply unif_add).
  assert (U1 : unif S q k1) by (exact (unif_tend S Hok Hh Hf q t y k1 U N1 T1)).
  assert (U2 : unif S q k2) by (refine (unif_tend S Hok Hh Hf q _ _ k2 _ _ T2); [now apply Ad|rewrite Ea, A0; exact N2]).
  assert (U3 : unif S q k3) by (refine (unif_tend S Hok Hh Hf q _ _ k3 _ _ T3); [now apply Ad|rewrite Ea, A1; exact N3]).
  assert (U4 : unif S q k4) by (refine (unif_tend S Hok Hh Hf q _ _ k4 _ _ T4); [now apply Ad|rewrite Ea, A2; exact N4]).
  destruct (rk4_holds S Hok t dt m y k1 k2 k3 k4 Hu Hr (holds_fld S St m) Hz T1 T2 T3 T4) as (G1 & G2 & G3).
  pose proof (exec_fn _ _ _ _ _ (rd_rk4 S Hok t dt m Hr) X1) as E1.
  apply IH with (m := m1).
  - eapply ready_meq; [apply meq_sym; exact E1|exact G3].
  - destruct E1 as [_ E1]. intros k Hk. destruct (G2 k Hk) as [Z1 Z2]. split; intros; rewrite E1; auto.
  - apply (unif_holds S q St m1 _ (holds_meq S _ _ _ _ (meq_sym _ _ E1) G1)). auto 10.
  - intros done t' dt' rest n y' j1 j2 j3 El Xd. apply (N ((t, dt) :: done) t' dt' rest n y' j1 j2 j3); [now rewrite El|].
    change (rk4_run S ((t, dt) :: done)) with (rk4_step S t dt ++ rk4_run S done). apply exec_app. left. eauto.
  - exact X2.
Qed.

Lemma C32_uniform_concentration_lsrk_proof :
  forall (S : setup RA), setup_ok S -> disable_h (par_of S) = false ->
  match hook S with None => True | Some f => forall x y t : R, force_h f x y t = 0%R end ->
  forall (q : Z -> Z -> R) (ns : Z) (steps : list (R * R)) (m m' : mem RA), ready S m ->
  let uniform (m : mem RA) := forall l c k, 0 <= l < ntracers (par_of S) -> 0 <= c < d_ncells (sdims S) -> 0 <= k < d_nlayers (sdims S) ->
    mr m (TrCell St) [l; c; k] = (q l k * mr m (HCell St) [c; k])%R in
  let nonzero (y : fields RA) := forall c k, 0 <= c < d_ncells (sdims S) -> 0 <= k < d_nlayers (sdims S) -> (fh y c k : R) <> 0%R in
  uniform m ->
  (forall done t dt rest n (Y Q K : Z -> fields RA), steps = done ++ (t, dt) :: rest ->
     exec (sdims S) (lsrk_run S ns done) m (OK n) -> holds S St n (Y 0) -> holds S Tend n (Q 0) ->
     (forall i, 0 <= i < ns -> tendency_of S (t + lsrk_c (A:=RA) ns i * dt)%R (Y i) (K i) /\
       Q (i + 1) = fmap2 (A:=RA) (fun u w => lsrk_a (A:=RA) ns i * u + w)%R (Q i) (K i) /\
       Y (i + 1) = fmap2 (A:=RA) (fun u w => u + dt * lsrk_b (A:=RA) ns i * w)%R (Y i) (Q (i + 1))) ->
     forall i, 0 <= i < ns -> nonzero (Y i)) ->
  exec (sdims S) (lsrk_run S ns steps) m (OK m') -> uniform m' .
Proof.
  intros S Hok Hh Hf q ns steps m m' Hr uniform nonzero.
  change (uniform m) with (unif S q (fld St m)). change (uniform m') with (unif S q (fld St m')).
  clear uniform. revert m Hr. induction steps as [|[t dt] l IH]; intros m Hr U N X.
  { cbn in X. inversion X; subst. exact U. }
  change (lsrk_run S ns ((t, dt) :: l)) with (lsrk_step S ns t dt ++ lsrk_run S ns l) in X. apply exec_app in X.
  destruct X as [(m1 & X1 & X2)|[X _]]; [|discriminate].
  assert (Nx : forall done t' dt' rest n (Y Q K : Z -> fields RA), l = done ++ (t', dt') :: rest ->
     exec (sdims S) (lsrk_run S ns done) m1 (OK n) -> holds S St n (Y 0) -> holds S Tend n (Q 0) ->
     (forall i, 0 <= i < ns -> tendency_of S (t' + lsrk_c (A:=RA) ns i * dt')%R (Y i) (K i) /\
       Q (i + 1) = fmap2 (A:=RA) (fun u w => lsrk_a (A:=RA) ns i * u + w)%R (Q i) (K i) /\
       Y (i + 1) = fmap2 (A:=RA) (fun u w => u + dt' * lsrk_b (A:=RA) ns i * w)%R (Y i) (Q (i + 1))) ->
     forall i, 0 <= i < ns -> nonzero (Y i)).
  { intros done t' dt' rest n Y Q K El Xd. apply (N ((t, dt) :: done) t' dt' rest n Y Q K); [now rewrite El|].
    change (lsrk_run S ns ((t, dt) :: done)) with (lsrk_step S ns t dt ++ lsrk_run S ns done). apply exec_app. left. eauto. }
  assert (C : ns <= 0 \/ 1 <= ns) by lia. destruct C as [C|C].
  { unfold lsrk_step in X1. rewrite zseq_neg in X1 by exact C. cbn in X1. inversion X1; subst m1. now apply IH with (m := m). }
  destruct (stages_ex S Hok ns t dt (fld St m) (fld Tend m) ltac:(lia)) as (Y & Q & K & EY & EQ & H).
  destruct (lsrk_holds S Hok ns t dt m Y Q K ltac:(lia) Hr) as (G1 & G2 & _).
  { rewrite EY. apply holds_fld. } { rewrite EQ. apply holds_fld. } { exact H. }
  pose proof (exec_fn _ _ _ _ _ (rd_lsrk S Hok ns t dt m Hr) X1) as E1.
  assert (Nz : forall i, 0 <= i < ns -> nonzero (Y i)).
  { apply (N [] t dt l m Y Q K eq_refl (ex_nil _ _)); [rewrite EY; apply holds_fld|rewrite EQ; apply holds_fld|exact H]. }
  apply IH with (m := m1); [..|exact X2].
  - eapply ready_meq; [apply meq_sym; exact E1|exact G1].
  - apply (unif_holds S q St m1 _ (holds_meq S _ _ _ _ (meq_sym _ _ E1) G2)).
    assert (G : forall j, 0 <= j -> j <= ns -> unif S q (Y j) /\ (1 <= j -> unif S q (Q j))); [|apply G; lia].
    apply (natlike_ind (fun j => j <= ns -> unif S q (Y j) /\ (1 <= j -> unif S q (Q j)))).
    + intros _. rewrite EY. split; [exact U|lia].
    + intros j Hj IHj Hn. destruct (IHj ltac:(lia)) as [L1 K1]. destruct (H j ltac:(lia)) as (Tj & Qj & Yj).
      rewrite <- Z.add_1_r. pose proof (unif_tend S Hok Hh Hf q _ _ _ L1 (Nz j ltac:(lia)) Tj) as Kj.
      assert (KQ : unif S q (Q (j + 1))).
      { rewrite Qj. assert (C' : j = 0 \/ 1 <= j) by lia. destruct C' as [->|C'].
        - rewrite lsrk_a0. replace (fmap2 (A:=RA) _ _ _) with (K 0); [exact Kj|].
          apply feq; intros; cbn [fmap2 fh fv ft]; rring.
        - apply unif_sc; auto. }
      split; [|auto]. rewrite Yj. now apply unif_add.
  - exact Nx.
Qed.

Lemma C38_mean_and_flux_thickness_identical_proof :
  forall (A : Arith) (S : setup A), setup_ok S -> forall (t s : sid) (time : F A) (md : add_mode) (m : mem A), s <> t -> ready S m ->
  always (sdims S) (compute_tendency S t s time md) m (fun m' => forall e k, 0 <= e < d_nedges (sdims S) -> 0 <= k < d_nlayers (sdims S) ->
    mr m' MeanHEdge [e; k] = mr m' FluxHEdge [e; k]).
Proof.
  intros A S Hok t s time md m Hst Hr. eapply always_fn; [apply (rd_tendency S Hok); auto|].
  intros m' [_ E] e k He Hk. rewrite !E, !tend_aux by reflexivity. now apply (same_h_aux S (ok_wfd S Hok)).
Qed.

Lemma C38_exchanged_names_harmless_proof :
  forall (A : Arith) (S : setup A), setup_ok S -> forall (t s : sid) (time : F A) (md : add_mode) (m : mem A), s <> t -> ready S m ->
  compute_tendency S t s time md = tendency_with S MeanHEdge FluxHEdge t s time md /\
  always (sdims S) (tendency_with S FluxHEdge MeanHEdge t s time md) m (fun m2 =>
    forall m1, exec (sdims S) (compute_tendency S t s time md) m (OK m1) -> meq m1 m2).
Proof.
  intros A S Hok t s time md m Hst Hr. split; [reflexivity|].
  pose proof (ok_wfd S Hok) as Hd. pose proof (ready_wfm S Hok m Hr) as Hm.
  assert (Hn : 0 <= d_ntracers (sdims S)) by (rewrite d_ntr; apply Hok).
  eapply always_fn; [apply (hs_tendency_with S Hd Hn); auto; [now right|now left]|].
  intros m2 E2 m1 X1. apply (tendency_exec S Hok) in X1; auto.
  rewrite (tendency_fn_swap S Hd) in X1 by assumption. eapply meq_trans; [exact X1|]. now apply meq_sym.
Qed.

