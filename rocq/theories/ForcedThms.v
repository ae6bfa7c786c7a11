(** Proofs of the properties of [PropsForced.v]. *)
From Coq Require Import ZArith Reals List Bool Lia Lra Psatz.
From Verif Require Import Arith Arrays Prog Conc Launch Mesh AuxVars Tend Model Hex RSum Spec MeshProof MeshMem Over Formulas KernBase Terms KernAux KernTend TendFn StepFn Ready Rel RelRun Relate TendVal StepVal StepRun StepThms RealTend FieldInv ConsBase ConsThms SteadyThms Forced.
Import ListNotations.
Open Scope Z_scope.

Lemma C44_rk4_exact_for_cubic_thickness_forcing_proof :
  forall (S : setup RA) (g : forcing RA), setup_ok S -> (0 < (dc (mesh_of_setup S) : R))%R ->
  disable_h (par_of S) = false -> disable_vn (par_of S) = false -> grav (par_of S) = 0%R -> hook S = Some g ->
  (forall x y t : R, force_vx g x y t = 0%R /\ force_vy g x y t = 0%R) ->
  forall a0 a1 a2 a3 : R -> R -> R,
  (forall x y t : R, force_h g x y t = (a0 x y + a1 x y * t + a2 x y * t ^ 2 + a3 x y * t ^ 3)%R) ->
  let integral (x y t : R) := (a0 x y * t + a1 x y * t ^ 2 / 2 + a2 x y * t ^ 3 / 3 + a3 x y * t ^ 4 / 4)%R in
  forall (t dt : R) (m : mem RA), ready S m ->
  (forall e k, 0 <= e < d_nedges (sdims S) -> 0 <= k < d_nlayers (sdims S) -> mr m (VnEdge St) [e; k] = 0%R) ->
  always (sdims S) (rk4_step S t dt) m (fun m' => forall k, 0 <= k < d_nlayers (sdims S) ->
    (forall c, 0 <= c < d_ncells (sdims S) -> mr m' (HCell St) [c; k] =
       (mr m (HCell St) [c; k] + (integral (mr m XCell [c]) (mr m YCell [c]) (t + dt) - integral (mr m XCell [c]) (mr m YCell [c]) t))%R) /\
    (forall e, 0 <= e < d_nedges (sdims S) -> mr m' (VnEdge St) [e; k] = 0%R)).
Proof.
  intros S g Hok Hdc Eh Ev G0 Hg V0 a0 a1 a2 a3 Hh integral t dt m Hr Hv.
  assert (Ar : atrest S (fld St m)) by (intros j Hj e He; now apply Hv).
  destruct (rest_rk4 S Hok Hdc Eh Ev m Hr g Hg G0 V0 t dt _ (holds_fld S St m) Ar) as [G1 G2].
  split; [|exact G2]. intros o X. destruct (G1 o X) as (M & EM & y' & HM & Ry & Fy). exists M. split; [exact EM|].
  intros k Hk. destruct (HM k Hk) as (Q1 & Q2 & _). split.
  - intros c Hc. rewrite Q1, Fy by assumption. rewrite !Hh. unfold integral. cbn [fld fh]. apply Rminus_diag_uniq. cbn [F RA]. field.
  - intros e He. rewrite Q2 by assumption. now apply Ry.
Qed.

Lemma C44_rk4_exact_for_uniform_cubic_forcing_proof :
  forall (S : setup RA) (g : forcing RA), setup_ok S -> (0 < (dc (mesh_of_setup S) : R))%R ->
  2 <= nx (mesh_of_setup S) -> 2 <= ny (mesh_of_setup S) ->
  disable_h (par_of S) = false -> disable_vn (par_of S) = false -> f0 (par_of S) = 0%R -> hook S = Some g ->
  forall a b c : Z -> R,
  let cubic (a : Z -> R) (t : R) := (a 0%Z + a 1%Z * t + a 2%Z * t ^ 2 + a 3%Z * t ^ 3)%R in
  let integral (a : Z -> R) (t : R) := (a 0%Z * t + a 1%Z * t ^ 2 / 2 + a 2%Z * t ^ 3 / 3 + a 3%Z * t ^ 4 / 4)%R in
  (forall x y t : R, force_h g x y t = cubic a t /\ force_vx g x y t = cubic b t /\ force_vy g x y t = cubic c t) ->
  forall (t dt : R) (H U V : Z -> R) (m : mem RA), ready S m ->
  let uniform (m : mem RA) (H U V : Z -> R) := forall k, 0 <= k < d_nlayers (sdims S) ->
    (forall c, 0 <= c < d_ncells (sdims S) -> mr m (HCell St) [c; k] = H k) /\
    (forall e, 0 <= e < d_nedges (sdims S) -> mr m (VnEdge St) [e; k] = (U k * cos (mr m AngleEdge [e]) + V k * sin (mr m AngleEdge [e]))%R) in
  uniform m H U V ->
  always (sdims S) (rk4_step S t dt) m (fun m' => uniform m'
    (fun k => H k + (integral a (t + dt) - integral a t))%R
    (fun k => U k + (integral b (t + dt) - integral b t))%R
    (fun k => V k + (integral c (t + dt) - integral c t))%R).
Proof.
  intros S g Hok Hdc N1 N2 Eh Ev F0 Hg a b c cubic integral Hp t dt H U V m Hr uniform Hu.
  assert (Fg : uniform_forcing S (cubic a) (cubic b) (cubic c)) by (unfold uniform_forcing; rewrite Hg; exact Hp).
  assert (Uy : ustate S m H U V (fld St m)) by (intros j Hj; destruct (Hu j Hj) as [H1 H2]; split; intros; [now apply H1|now apply H2]).
  pose proof (ustate_rk4 S Hok Hdc N1 N2 Eh Ev m Hr _ _ _ Fg t dt H U V _ (holds_fld S St m) Uy (or_introl F0)) as G.
  destruct G as [G1 G2]. split; [|exact G2]. intros o X. destruct (G1 o X) as (M & EM & y' & HM & Uy'). exists M. split; [exact EM|].
  assert (EA : forall e, mr M AngleEdge [e] = mr m AngleEdge [e]).
  { intros e. rewrite EM in X. pose proof (exec_fn _ _ _ _ _ (rd_rk4 S Hok t dt m Hr) X) as [_ EQ]. rewrite EQ.
    pose proof (cst_rk4 S t dt m (LR AngleEdge [e]) eq_refl) as EC. now injection EC. }
  intros k Hk. destruct (HM k Hk) as (Q1 & Q2 & _). destruct (Uy' k Hk) as [U1 U2]. split.
  - intros i Hi. rewrite Q1, U1 by assumption. unfold rk3, ode, cubic, integral. rewrite F0. cbn [fst snd]. apply Rminus_diag_uniq. cbn [F RA]. field.
  - intros e He. rewrite Q2, U2 by assumption. rewrite EA. unfold uni, rk3, ode, cubic, integral. rewrite F0. cbn [fst snd]. apply Rminus_diag_uniq. cbn [F RA]. field.
Qed.

Lemma C51_uniform_flow_rotates_proof :
  forall (S : setup RA), setup_ok S -> (0 < (dc (mesh_of_setup S) : R))%R ->
  2 <= nx (mesh_of_setup S) -> 2 <= ny (mesh_of_setup S) ->
  disable_h (par_of S) = false -> disable_vn (par_of S) = false -> hook S = None ->
  forall (time : R) (H U V : Z -> R) (m : mem RA), ready S m ->
  (forall k, 0 <= k < d_nlayers (sdims S) -> H k <> 0%R /\
    (forall c, 0 <= c < d_ncells (sdims S) -> mr m (HCell St) [c; k] = H k) /\
    (forall e, 0 <= e < d_nedges (sdims S) -> mr m (VnEdge St) [e; k] = (U k * cos (mr m AngleEdge [e]) + V k * sin (mr m AngleEdge [e]))%R)) ->
  let f := f0 (par_of S) : R in
  always (sdims S) (compute_tendency S Tend St time Replace) m (fun m' => forall k, 0 <= k < d_nlayers (sdims S) ->
    (forall c, 0 <= c < d_ncells (sdims S) -> mr m' (HCell Tend) [c; k] = 0%R) /\
    (forall e, 0 <= e < d_nedges (sdims S) -> mr m' (VnEdge Tend) [e; k] = (f * V k * cos (mr m AngleEdge [e]) - f * U k * sin (mr m AngleEdge [e]))%R)).
Proof.
  intros S Hok Hdc N1 N2 Eh Ev Hf time H U V m Hr Hu f.
  assert (Uy : ustate S m H U V (fld St m)) by (intros j Hj; destruct (Hu j Hj) as (_ & H1 & H2); split; intros; [now apply H1|now apply H2]).
  destruct (tendency_ex S Hok time (fld St m)) as [k T].
  assert (Dz : disabled_zero S Tend m) by (intros i Hi; split; intros; congruence).
  destruct (T St m ltac:(discriminate) Hr (holds_fld S St m) Dz) as [C D]. split; [|exact D].
  intros o X. destruct (C o X) as (M & EM & Q). exists M. split; [exact EM|]. intros j Hj.
  destruct (Q j Hj) as (Q1 & Q2 & Q3).
  destruct (ustate_tend S Hok Hdc N1 N2 Eh Ev m Hr time H U V _ k Uy ltac:(right; intros; now apply Hu) T j Hj) as [A1 A2].
  split; intros.
  - rewrite Q1, A1 by assumption. unfold hk_h. now rewrite Hf.
  - rewrite Q2, A2 by assumption. unfold hk_v. rewrite Hf. unfold uni, f. apply Rminus_diag_uniq. ring.
Qed.

Lemma C51_rk4_inertial_oscillation_proof :
  forall (S : setup RA), setup_ok S -> (0 < (dc (mesh_of_setup S) : R))%R ->
  2 <= nx (mesh_of_setup S) -> 2 <= ny (mesh_of_setup S) ->
  disable_h (par_of S) = false -> disable_vn (par_of S) = false -> hook S = None ->
  forall (t dt : R) (H U V : Z -> R) (m : mem RA), ready S m ->
  let uniform (m : mem RA) (U V : Z -> R) := forall k, 0 <= k < d_nlayers (sdims S) ->
    (forall c, 0 <= c < d_ncells (sdims S) -> mr m (HCell St) [c; k] = H k) /\
    (forall e, 0 <= e < d_nedges (sdims S) -> mr m (VnEdge St) [e; k] = (U k * cos (mr m AngleEdge [e]) + V k * sin (mr m AngleEdge [e]))%R) in
  (forall k, 0 <= k < d_nlayers (sdims S) -> H k <> 0%R) -> uniform m U V ->
  let z := (f0 (par_of S) * dt)%R in
  let co := (1 - z ^ 2 / 2 + z ^ 4 / 24)%R in
  let si := (z - z ^ 3 / 6)%R in
  let U' k := (co * U k + si * V k)%R in
  let V' k := (co * V k - si * U k)%R in
  always (sdims S) (rk4_step S t dt) m (fun m' => uniform m' U' V') /\
  forall k, (U' k ^ 2 + V' k ^ 2 = (1 - z ^ 6 / 72 + z ^ 8 / 576) * (U k ^ 2 + V k ^ 2))%R.
Proof.
  intros S Hok Hdc N1 N2 Eh Ev Hf t dt H U V m Hr uniform Hn Hu z co si U' V'. split.
  2:{ intros k. unfold U', V', co, si. field. }
  assert (Fg : uniform_forcing S (fun _ => 0%R) (fun _ => 0%R) (fun _ => 0%R)) by (unfold uniform_forcing; rewrite Hf; auto).
  assert (Uy : ustate S m H U V (fld St m)) by (intros j Hj; destruct (Hu j Hj) as [H1 H2]; split; intros; [now apply H1|now apply H2]).
  pose proof (ustate_rk4 S Hok Hdc N1 N2 Eh Ev m Hr _ _ _ Fg t dt H U V _ (holds_fld S St m) Uy (or_intror (conj (fun _ => eq_refl) Hn))) as G.
  destruct G as [G1 G2]. split; [|exact G2]. intros o X. destruct (G1 o X) as (M & EM & y' & HM & Uy'). exists M. split; [exact EM|].
  assert (EA : forall e, mr M AngleEdge [e] = mr m AngleEdge [e]).
  { intros e. rewrite EM in X. pose proof (exec_fn _ _ _ _ _ (rd_rk4 S Hok t dt m Hr) X) as [_ EQ]. rewrite EQ.
    pose proof (cst_rk4 S t dt m (LR AngleEdge [e]) eq_refl) as EC. now injection EC. }
  intros k Hk. destruct (HM k Hk) as (Q1 & Q2 & _). destruct (Uy' k Hk) as [U1 U2]. split.
  - intros i Hi. rewrite Q1, U1 by assumption. unfold rk3, ode. cbn [fst snd]. apply Rminus_diag_uniq. cbn [F RA]. field.
  - intros e He. rewrite Q2, U2 by assumption. rewrite EA. unfold uni, rk3, ode, U', V', co, si, z. cbn [fst snd]. apply Rminus_diag_uniq. cbn [F RA]. field.
Qed.

Lemma C51_rk4_stability_limit_proof :
  (forall (S : setup RA), setup_ok S -> (0 < (dc (mesh_of_setup S) : R))%R ->
   2 <= nx (mesh_of_setup S) -> 2 <= ny (mesh_of_setup S) ->
   disable_h (par_of S) = false -> disable_vn (par_of S) = false -> hook S = None ->
   forall (steps : list (R * R)) (H U V : Z -> R) (m : mem RA), ready S m ->
   let uniform (m : mem RA) (U V : Z -> R) := forall k, 0 <= k < d_nlayers (sdims S) ->
     (forall c, 0 <= c < d_ncells (sdims S) -> mr m (HCell St) [c; k] = H k) /\
     (forall e, 0 <= e < d_nedges (sdims S) -> mr m (VnEdge St) [e; k] = (U k * cos (mr m AngleEdge [e]) + V k * sin (mr m AngleEdge [e]))%R) in
   (forall k, 0 <= k < d_nlayers (sdims S) -> H k <> 0%R) -> uniform m U V ->
   (forall t dt, In (t, dt) steps -> (Rabs (f0 (par_of S) * dt) <= sqrt 8)%R) ->
   always (sdims S) (rk4_run S steps) m (fun m' => exists U' V' : Z -> R, uniform m' U' V' /\
     forall k, (U' k ^ 2 + V' k ^ 2 <= U k ^ 2 + V k ^ 2)%R)) /\
  (forall (z U V : R), (sqrt 8 < Rabs z)%R -> (0 < U ^ 2 + V ^ 2)%R ->
     (U ^ 2 + V ^ 2 < (1 - z ^ 6 / 72 + z ^ 8 / 576) * (U ^ 2 + V ^ 2))%R).
Proof.
  assert (Sq : forall z, (z ^ 2 = Rabs z ^ 2)%R) by (intros; now rewrite pow2_abs).
  assert (S8 : (sqrt 8 ^ 2 = 8)%R) by (cbn [pow]; rewrite Rmult_1_r; apply sqrt_sqrt; lra).
  assert (S0 : (0 <= sqrt 8)%R) by apply sqrt_pos.
  assert (Fac : forall z, (1 - z ^ 6 / 72 + z ^ 8 / 576 = 1 - z ^ 2 * z ^ 2 * z ^ 2 * (8 - z ^ 2) / 576)%R) by (intros; field).
  split.
  - intros S Hok Hdc N1 N2 Eh Ev Hf steps H U V m Hr uniform Hn Hu Hs.
    apply (always_fn S (rk4_run S steps) (rk4_run_fn S steps)); [now apply rd_rk4_run|].
    assert (G : forall M U V, ready S M -> uniform M U V -> exists U' V', uniform (rk4_run_fn S steps M) U' V' /\ forall k, (U' k ^ 2 + V' k ^ 2 <= U k ^ 2 + V k ^ 2)%R).
    { clear U V m Hr Hu. induction steps as [|[t dt] l IH]; intros M U V Hr Hu; [exists U, V; split; [exact Hu|intros; lra]|].
      change (rk4_run_fn S ((t, dt) :: l) M) with (rk4_run_fn S l (rk4_fn S t dt M)).
      pose proof (C51_rk4_inertial_oscillation_proof S Hok Hdc N1 N2 Eh Ev Hf t dt H U V M Hr Hn Hu) as [[G1 [M1 X1]] G2]. cbv zeta in G1, G2.
      destruct (G1 _ X1) as (M' & EM & Q). injection EM as <-.
      pose proof (exec_fn _ _ _ _ _ (rd_rk4 S Hok t dt M Hr) X1) as [_ EQ].
      assert (Tr : forall U V, uniform M1 U V -> uniform (rk4_fn S t dt M) U V) by (intros U1 V1 Q1 k Hk; destruct (Q1 k Hk) as [A1 A2]; split; intros; rewrite <- !EQ; [apply A1|apply A2]; assumption).
      pose proof (Tr _ _ Q) as Hu1.
      assert (Rn : ready S (rk4_fn S t dt M)) by (eapply ready_cst; [apply cst_rk4|exact Hr]).
      destruct (IH (fun t' dt' I => Hs t' dt' (or_intror I)) _ _ _ Rn Hu1) as (U' & V' & B1 & B2).
      exists U', V'. split; [exact B1|]. intros k. eapply Rle_trans; [apply B2|]. rewrite G2, Fac.
      assert (Hz := Hs t dt (or_introl eq_refl)). set (z := (f0 (par_of S) * dt)%R) in *.
      assert (z2 : (0 <= z ^ 2 <= 8)%R) by (pose proof (Sq z); pose proof (Rabs_pos z); split; [apply pow2_ge_0|]; rewrite Sq, <- S8; apply pow_incr; split; assumption).
      assert (Q0 : (0 <= U k ^ 2 + V k ^ 2)%R) by (pose proof (pow2_ge_0 (U k)); pose proof (pow2_ge_0 (V k)); lra).
      assert (Q1 : (0 <= z ^ 2 * z ^ 2 * z ^ 2 * (8 - z ^ 2))%R) by (apply Rmult_le_pos; [apply Rmult_le_pos; [apply Rmult_le_pos|]|]; lra).
      nra. }
    intros M [EI EM]. destruct (G m U V Hr Hu) as (U' & V' & B1 & B2). exists U', V'. split; [|exact B2].
    intros k Hk. destruct (B1 k Hk) as [A1 A2]. split; intros; rewrite !EM; [apply A1|apply A2]; assumption.
  - intros z U V Hz Q0. rewrite Fac.
    assert (z2 : (8 < z ^ 2)%R).
    { rewrite (Sq z), <- S8. cbn [pow]. rewrite !Rmult_1_r. apply Rmult_le_0_lt_compat; assumption. }
    assert (Q1 : (0 < z ^ 2 * z ^ 2 * z ^ 2 * (z ^ 2 - 8))%R) by (apply Rmult_lt_0_compat; [apply Rmult_lt_0_compat; [apply Rmult_lt_0_compat|]|]; lra).
    nra.
Qed.

