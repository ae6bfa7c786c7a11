(** Proofs of the properties of [PropsDiffuse.v]. *)
From Coq Require Import ZArith Reals List Bool Lia Lra.
From Verif Require Import Arith Arrays Prog Conc Launch Mesh AuxVars Tend Model Hex HexComb RSum Spec MeshProof MeshMem MeshFacts MeshR MeshCalc Over Formulas KernBase Terms KernAux KernTend TendFn StepFn Ready Rel RelRun Relate TendVal StepVal StepRun Tableau StepThms RealTend SumParts Diag FieldInv ConsBase ConsThms SteadyThms SuperThms Diffuse.
Import ListNotations.
Open Scope Z_scope.

Section Max.
Context (S : setup RA) (Hok : setup_ok S) (Hdc : (0 < (dc (mesh_of_setup S) : R))%R) (m : mem RA) (Hr : ready S m).
Context (HX : 2 <= nx (mesh_of_setup S)) (HY : 2 <= ny (mesh_of_setup S)) (H4 : ((eddy_diff4 (par_of S) : R) <= 0)%R).
Local Notation P := (par_of S).
Local Notation X := (nx (mesh_of_setup S)).
Local Notation Y := (ny (mesh_of_setup S)).
Local Notation NC := (nx (mesh_of_setup S) * ny (mesh_of_setup S)).
Local Notation d := (dc (mesh_of_setup S) : R).
Local Notation avg := (avg6 X Y).
Definition dcoef : R := if tracer_diff_enabled P then (4 * (eddy_diff2 P : R) / (d * d))%R else 0%R.
Lemma lop_avg phi c : 0 <= c < NC -> lop S m phi c = (dcoef * (avg phi c - phi c))%R.
Proof.
  intros Hc. unfold lop, dcoef. unfold tracer_hyperdiff_enabled. rewrite disabled_le by exact H4. rewrite (lap_avg S Hok Hdc m Hr HX HY) by exact Hc.
  destruct (tracer_diff_enabled P); cbn [F RA]; [field; cbn [F RA] in Hdc; lra|ring].
Qed.
Fixpoint apow (n : nat) (phi : Z -> R) : Z -> R := match n with O => phi | Datatypes.S n => avg (apow n phi) end.
Lemma lop_acomb phi (a0 a1 a2 a3 a4 : R) f c : 0 <= c < NC ->
  (forall c, 0 <= c < NC -> f c = (a0 * phi c + a1 * apow 1 phi c + a2 * apow 2 phi c + a3 * apow 3 phi c + a4 * apow 4 phi c)%R) ->
  lop S m f c = (dcoef * (a0 * (apow 1 phi c - phi c) + a1 * (apow 2 phi c - apow 1 phi c) + a2 * (apow 3 phi c - apow 2 phi c) + a3 * (apow 4 phi c - apow 3 phi c) + a4 * (apow 5 phi c - apow 4 phi c)))%R.
Proof.
  intros Hc E. assert (1 <= X) by lia. assert (1 <= Y) by lia. rewrite lop_avg by exact Hc. rewrite E by exact Hc.
  rewrite (avg_ext X Y ltac:(lia) ltac:(lia) f (fun c => 1 * (fun c => 1 * (fun c => 1 * (fun c => a0 * phi c + a1 * apow 1 phi c) c + a2 * apow 2 phi c) c + a3 * apow 3 phi c) c + a4 * apow 4 phi c)%R);
    [|intros c' Hc'; rewrite E by exact Hc'; ring|exact Hc].
  rewrite !avg_lin. change (avg phi c) with (apow 1 phi c). change (avg (apow 1 phi) c) with (apow 2 phi c).
  change (avg (apow 2 phi) c) with (apow 3 phi c). change (avg (apow 3 phi) c) with (apow 4 phi c). change (avg (apow 4 phi) c) with (apow 5 phi c). ring.
Qed.
Lemma lpow_avg phi : let a := dcoef in forall c, 0 <= c < NC ->
  lpow S m 1 phi c = (a * (apow 1 phi c - phi c))%R /\
  lpow S m 2 phi c = (a ^ 2 * (apow 2 phi c - 2 * apow 1 phi c + phi c))%R /\
  lpow S m 3 phi c = (a ^ 3 * (apow 3 phi c - 3 * apow 2 phi c + 3 * apow 1 phi c - phi c))%R /\
  lpow S m 4 phi c = (a ^ 4 * (apow 4 phi c - 4 * apow 3 phi c + 6 * apow 2 phi c - 4 * apow 1 phi c + phi c))%R /\
  lpow S m 5 phi c = (a ^ 5 * (apow 5 phi c - 5 * apow 4 phi c + 10 * apow 3 phi c - 10 * apow 2 phi c + 5 * apow 1 phi c - phi c))%R.
Proof.
  intros a.
  assert (E1 : forall c, 0 <= c < NC -> lpow S m 1 phi c = (a * (apow 1 phi c - phi c))%R) by (intros; now apply lop_avg).
  assert (E2 : forall c, 0 <= c < NC -> lpow S m 2 phi c = (a ^ 2 * (apow 2 phi c - 2 * apow 1 phi c + phi c))%R).
  { intros c Hc. cbn [lpow]. rewrite (lop_acomb phi (- a) a 0 0 0); [fold a; ring|exact Hc|]. intros c' Hc'. change (lop S m phi c') with (lpow S m 1 phi c'). rewrite E1 by exact Hc'. ring. }
  assert (E3 : forall c, 0 <= c < NC -> lpow S m 3 phi c = (a ^ 3 * (apow 3 phi c - 3 * apow 2 phi c + 3 * apow 1 phi c - phi c))%R).
  { intros c Hc. change (lpow S m 3 phi c) with (lop S m (lpow S m 2 phi) c). rewrite (lop_acomb phi (a ^ 2) (- 2 * a ^ 2) (a ^ 2) 0 0); [fold a; ring|exact Hc|]. intros c' Hc'. rewrite E2 by exact Hc'. ring. }
  assert (E4 : forall c, 0 <= c < NC -> lpow S m 4 phi c = (a ^ 4 * (apow 4 phi c - 4 * apow 3 phi c + 6 * apow 2 phi c - 4 * apow 1 phi c + phi c))%R).
  { intros c Hc. change (lpow S m 4 phi c) with (lop S m (lpow S m 3 phi) c). rewrite (lop_acomb phi (- a ^ 3) (3 * a ^ 3) (- 3 * a ^ 3) (a ^ 3) 0); [fold a; ring|exact Hc|]. intros c' Hc'. rewrite E3 by exact Hc'. ring. }
  intros c Hc. repeat split; auto.
  change (lpow S m 5 phi c) with (lop S m (lpow S m 4 phi) c). rewrite (lop_acomb phi (a ^ 4) (- 4 * a ^ 4) (6 * a ^ 4) (- 4 * a ^ 4) (a ^ 4)); [fold a; ring|exact Hc|]. intros c' Hc'. rewrite E4 by exact Hc'. ring.
Qed.
(** The weights of the iterated means in a step with [z = dcoef * dt]. *)
Definition wgt (g : Z -> R) (z : R) (j : Z) : R := match j with
  | 0%Z => g 0%Z - g 1%Z * z + g 2%Z * z ^ 2 - g 3%Z * z ^ 3 + g 4%Z * z ^ 4 - g 5%Z * z ^ 5
  | 1%Z => z * (g 1%Z - 2 * g 2%Z * z + 3 * g 3%Z * z ^ 2 - 4 * g 4%Z * z ^ 3 + 5 * g 5%Z * z ^ 4)
  | 2%Z => z ^ 2 * (g 2%Z - 3 * g 3%Z * z + 6 * g 4%Z * z ^ 2 - 10 * g 5%Z * z ^ 3)
  | 3%Z => z ^ 3 * (g 3%Z - 4 * g 4%Z * z + 10 * g 5%Z * z ^ 2)
  | 4%Z => z ^ 4 * (g 4%Z - 5 * g 5%Z * z)
  | _ => z ^ 5 * g 5%Z end%R.
Lemma wgt_sum g z : (wgt g z 0 + wgt g z 1 + wgt g z 2 + wgt g z 3 + wgt g z 4 + wgt g z 5 = g 0%Z)%R.
Proof. cbn [wgt]. ring. Qed.
Lemma pol_avg g dt phi c : 0 <= c < NC -> let z := (dcoef * dt)%R in
  pol S m g dt phi c = (wgt g z 0 * phi c + wgt g z 1 * apow 1 phi c + wgt g z 2 * apow 2 phi c + wgt g z 3 * apow 3 phi c + wgt g z 4 * apow 4 phi c + wgt g z 5 * apow 5 phi c)%R.
Proof.
  intros Hc z. destruct (lpow_avg phi c Hc) as (E1 & E2 & E3 & E4 & E5). unfold pol. rewrite E1, E2, E3, E4, E5. unfold z. cbn [wgt]. ring.
Qed.
Definition monotone (g : Z -> R) : Prop := g 0%Z = 1%R /\ forall z j, (0 <= z <= 1)%R -> (0 <= wgt g z j)%R.
Lemma apow_bounds lo hi phi n : (forall c, 0 <= c < NC -> (lo <= phi c <= hi)%R) -> forall c, 0 <= c < NC -> (lo <= apow n phi c <= hi)%R.
Proof. intros B. induction n as [|n IH]; [exact B|]. intros c Hc. apply avg_bounds; auto; lia. Qed.
Lemma pol_bounds g dt phi lo hi : monotone g -> (0 <= dcoef * dt <= 1)%R -> (forall c, 0 <= c < NC -> (lo <= phi c <= hi)%R) ->
  forall c, 0 <= c < NC -> (lo <= pol S m g dt phi c <= hi)%R.
Proof.
  intros [G0 G1] Hz B c Hc. rewrite pol_avg by exact Hc. cbv zeta. set (z := (dcoef * dt)%R) in *. pose proof (wgt_sum g z) as W. rewrite G0 in W.
  pose proof (B c Hc) as B0. pose proof (apow_bounds lo hi phi 1 B c Hc) as B1. pose proof (apow_bounds lo hi phi 2 B c Hc) as B2.
  pose proof (apow_bounds lo hi phi 3 B c Hc) as B3. pose proof (apow_bounds lo hi phi 4 B c Hc) as B4. pose proof (apow_bounds lo hi phi 5 B c Hc) as B5.
  pose proof (fun j => G1 z j Hz) as N. pose proof (N 0) as N0. pose proof (N 1) as N1. pose proof (N 2) as N2. pose proof (N 3) as N3. pose proof (N 4) as N4. pose proof (N 5) as N5. clear N.
  generalize dependent (wgt g z 0). generalize dependent (wgt g z 1). generalize dependent (wgt g z 2). generalize dependent (wgt g z 3). generalize dependent (wgt g z 4). generalize dependent (wgt g z 5).
  intros w5 N5 w4 N4 w3 N3 w2 N2 w1 N1 w0 W N0.
  assert (T : forall w a, (0 <= w)%R -> (lo <= a <= hi)%R -> (w * lo <= w * a <= w * hi)%R) by (intros; split; apply Rmult_le_compat_l; lra).
  pose proof (T _ _ N0 B0). pose proof (T _ _ N1 B1). pose proof (T _ _ N2 B2). pose proof (T _ _ N3 B3). pose proof (T _ _ N4 B4). pose proof (T _ _ N5 B5).
  replace lo with (w0 * lo + w1 * lo + w2 * lo + w3 * lo + w4 * lo + w5 * lo)%R by (rewrite <- (Rmult_1_l lo) at 7; rewrite <- W; ring).
  replace hi with (w0 * hi + w1 * hi + w2 * hi + w3 * hi + w4 * hi + w5 * hi)%R by (rewrite <- (Rmult_1_l hi) at 7; rewrite <- W; ring). lra.
Qed.
Lemma prun_bounds g steps phi lo hi : monotone g -> (forall p, In p steps -> (0 <= dcoef * snd p <= 1)%R) -> (forall c, 0 <= c < NC -> (lo <= phi c <= hi)%R) ->
  forall c, 0 <= c < NC -> (lo <= prun S m g steps phi c <= hi)%R.
Proof.
  intros Mg. revert phi. induction steps as [|p l IH]; intros phi Hs B; [exact B|]. cbn [prun fold_left]. apply IH; [intros; apply Hs; now right|].
  apply pol_bounds; [exact Mg| |exact B]. apply Hs. now left.
Qed.
Lemma small_step dt : (0 <= dt)%R -> (4 * (eddy_diff2 P : R) * dt <= d * d)%R -> (0 <= dcoef * dt <= 1)%R.
Proof.
  intros H0 H1. unfold dcoef. destruct (tracer_diff_enabled P) eqn:E; [|lra].
  assert (K : (0 < (eddy_diff2 P : R))%R).
  { destruct (Rle_or_lt (eddy_diff2 P : R) 0) as [C|C]; [|exact C]. unfold tracer_diff_enabled in E. rewrite disabled_le in E by exact C. discriminate. }
  cbn [F RA] in *. assert (Q : (0 < d * d)%R) by (apply Rmult_lt_0_compat; assumption).
  replace (4 * eddy_diff2 P / (d * d) * dt)%R with (4 * eddy_diff2 P * dt / (d * d))%R by (field; lra). split.
  - apply Rmult_le_pos; [|apply Rlt_le, Rinv_0_lt_compat, Q]. apply Rmult_le_pos; [lra|exact H0].
  - apply (Rmult_le_reg_r (d * d)%R); [exact Q|]. unfold Rdiv. rewrite Rmult_assoc, Rinv_l by lra. lra.
Qed.
End Max.

Lemma mono_rk4 : monotone g_rk4.
Proof.
  split; [reflexivity|]. intros z j Hz.
  assert (P : forall n, (0 <= z ^ n)%R) by (intros; apply pow_le; lra).
  assert (D : forall n, (z ^ Datatypes.S n <= z ^ n)%R) by (intros n; cbn [pow]; pose proof (P n); nra).
  pose proof (P 2%nat). pose proof (P 3%nat). pose proof (P 4%nat). pose proof (P 5%nat). pose proof (D 0%nat). pose proof (D 1%nat). pose proof (D 2%nat). pose proof (D 3%nat). pose proof (D 4%nat).
  cbn [pow] in H3 |- *. unfold wgt, g_rk4.
  assert (Z2 : (z ^ 2 = z * z)%R) by ring.
  destruct j as [|[[p|p|]|[[p|p|]|[p|p|]|]|]|p]; try (apply Rmult_le_pos; [auto; lra|]); try (cbn [pow] in *; lra); nra.
Qed.
Lemma mono_euler : monotone g_euler.
Proof.
  split; [reflexivity|]. intros z j Hz.
  assert (P : forall n, (0 <= z ^ n)%R) by (intros; apply pow_le; lra).
  unfold wgt, g_euler. destruct j as [|[[p|p|]|[[p|p|]|[p|p|]|]|]|p]; try (apply Rmult_le_pos; [auto; lra|]); lra.
Qed.
Lemma mono_lsrk5 : monotone g_lsrk5.
Proof.
  pose proof g5_order as (G0 & G1 & G2 & G3 & G4 & G5). split; [exact G0|]. intros z j Hz.
  assert (Ab : forall x a, (Rabs (x - a) <= 1 / 10 ^ 25 -> a - 1 / 10000 <= x <= a + 1 / 10000)%R).
  { intros x a Ha. assert (1 / 10 ^ 25 <= 1 / 10000)%R by lra. split_Rabs; lra. }
  apply Ab in G1, G2, G3, G4.
  assert (P : forall n, (0 <= z ^ n)%R) by (intros; apply pow_le; lra).
  assert (D : forall n, (z ^ Datatypes.S n <= z ^ n)%R) by (intros n; cbn [pow]; pose proof (P n); nra).
  unfold wgt. generalize dependent (g_lsrk5 0). generalize dependent (g_lsrk5 1). generalize dependent (g_lsrk5 2). generalize dependent (g_lsrk5 3). generalize dependent (g_lsrk5 4). generalize dependent (g_lsrk5 5).
  intros g5 G5 g4 G4 g3 G3 g2 G2 g1 G1 g0 G0. clear Ab.
  assert (M : forall g lo hi n, (lo <= g <= hi)%R -> (lo * z ^ n <= g * z ^ n <= hi * z ^ n)%R) by (intros; split; apply Rmult_le_compat_r; auto; lra).
  pose proof (P 2%nat). pose proof (P 3%nat). pose proof (P 4%nat). pose proof (P 5%nat). pose proof (D 0%nat). pose proof (D 1%nat). pose proof (D 2%nat). pose proof (D 3%nat). pose proof (D 4%nat).
  assert (Z1 : (z ^ 1 = z)%R) by ring. assert (Z0 : (z ^ 0 = 1)%R) by ring.
  assert (C5 : (0 <= z ^ 5 * g5)%R) by (apply Rmult_le_pos; [auto|lra]).
  assert (G5' : (49 / 10000 <= g5 <= 51 / 10000)%R) by lra.
  assert (Q2 : (2 * z - 1 <= z ^ 2)%R) by (pose proof (pow2_ge_0 (z - 1)); nra).
  destruct j as [|[[p|p|]|[[p|p|]|[p|p|]|]|]|p]; try exact C5.
  - pose proof (M _ _ _ 1%nat G1) as M1. pose proof (M _ _ _ 2%nat G2). pose proof (M _ _ _ 3%nat G3). pose proof (M _ _ _ 4%nat G4). pose proof (M _ _ _ 5%nat G5'). rewrite Z1 in M1. nra.
  - apply Rmult_le_pos; [auto|]. pose proof (M _ _ _ 1%nat G4) as M1. pose proof (M _ _ _ 2%nat G5'). rewrite Z1 in M1. nra.
  - apply Rmult_le_pos; [auto|]. pose proof (M _ _ _ 1%nat G5') as M1. rewrite Z1 in M1. nra.
  - apply Rmult_le_pos; [auto|]. pose proof (M _ _ _ 1%nat G3) as M1. pose proof (M _ _ _ 2%nat G4). pose proof (M _ _ _ 3%nat G5'). rewrite Z1 in M1. nra.
  - apply Rmult_le_pos; [lra|]. pose proof (M _ _ _ 1%nat G2) as M1. pose proof (M _ _ _ 2%nat G3). pose proof (M _ _ _ 3%nat G4). pose proof (M _ _ _ 4%nat G5'). rewrite Z1 in M1. nra.
Qed.

Lemma C68_maximum_principle_proof :
  forall (S : setup RA), setup_ok S -> (0 < (dc (mesh_of_setup S) : R))%R -> 2 <= nx (mesh_of_setup S) -> 2 <= ny (mesh_of_setup S) ->
  hook S = None -> ((eddy_diff4 (par_of S) : R) <= 0)%R ->
  forall (H : Z -> R) (m : mem RA), ready S m -> disabled_zero S Tend m ->
  (forall k, 0 <= k < d_nlayers (sdims S) -> H k <> 0%R) ->
  (forall k c, 0 <= k < d_nlayers (sdims S) -> 0 <= c < d_ncells (sdims S) -> mr m (HCell St) [c; k] = H k) ->
  (forall k e, 0 <= k < d_nlayers (sdims S) -> 0 <= e < d_nedges (sdims S) -> mr m (VnEdge St) [e; k] = 0%R) ->
  forall steps : list (R * R),
  (forall t dt, In (t, dt) steps -> (0 <= dt /\ 4 * (eddy_diff2 (par_of S) : R) * dt <= (dc (mesh_of_setup S) : R) * dc (mesh_of_setup S))%R) ->
  forall (l k : Z) (lo hi : R), 0 <= l < ntracers (par_of S) -> 0 <= k < d_nlayers (sdims S) ->
  let within (m' : mem RA) := forall c, 0 <= c < d_ncells (sdims S) -> (lo <= mr m' (TrCell St) [l; c; k] <= hi)%R in
  within m -> always (sdims S) (rk4_run S steps) m within /\ forall n, always (sdims S) (lsrk_run S n steps) m within.
Proof.
  intros S Hok Hdc HX HY Hf H4 H m Hr Hz H0 Hh Hv steps Hs l k lo hi Hl Hk within W.
  assert (Ry : rest S H (fld St m)) by (intros j Hj; split; [intros c Hc; now apply Hh|intros e He; now apply Hv]).
  assert (Hs' : forall p, In p steps -> (0 <= dcoef S * snd p <= 1)%R).
  { intros [t dt] Hp. destruct (Hs t dt Hp). now apply small_step. }
  assert (G : forall g y' M N, monotone g -> ran S m H g steps (fld St m) y' -> holds S St N y' -> meq M N -> within M).
  { intros g y' M N Mg [_ E] Hy [_ EM] c Hc. rewrite EM. destruct (Hy k Hk) as (_ & _ & E3). rewrite E3 by assumption.
    change (ft y' l c k) with (slice y' l k c). rewrite E by assumption. now apply prun_bounds. }
  split; [|intros n].
  - eapply always_fn; [apply rd_rk4_run; auto|]. intros M E.
    destruct (rk4_ran S Hok Hdc m Hr HX HY Hf H H0 steps m (fld St m) Hr Hz (holds_fld S St m) Ry) as (y' & A & B).
    eapply G; [exact mono_rk4|exact B|exact A|exact E].
  - assert (C : n = 1 \/ n = 5 \/ (n <> 1 /\ n <> 5)) by lia.
    assert (C' : (n = 1 \/ n = 5) \/ (n <> 1 /\ n <> 5)) by lia. clear C. destruct C' as [C|[C1 C5]].
    + eapply always_fn; [apply rd_lsrk_run; auto|]. intros M E.
      destruct (lsrk_ran S Hok Hdc m Hr HX HY Hf H H0 n steps m (fld St m) C Hr (holds_fld S St m) Ry) as (y' & A & B).
      eapply G; [|exact B|exact A|exact E]. destruct C as [-> | ->]; [exact mono_euler|exact mono_lsrk5].
    + destruct (C43_unsupported_stage_count_does_nothing_proof S Hok n steps m C1 C5 Hr) as [A B]. split; [|exact B].
      intros o Ho. destruct (A o Ho) as (M & EM & Q). exists M. split; [exact EM|]. intros c Hc. destruct (Q k Hk) as (_ & _ & Q3). rewrite <- Q3 by assumption. now apply W.
Qed.

Lemma C68_larger_step_refuted_proof :
  forall (S : setup RA), setup_ok S -> (0 < (dc (mesh_of_setup S) : R))%R -> 2 <= nx (mesh_of_setup S) -> 2 <= ny (mesh_of_setup S) ->
  hook S = None -> ((eddy_diff4 (par_of S) : R) <= 0)%R -> (0 < (eddy_diff2 (par_of S) : R))%R ->
  forall (H : Z -> R), (forall k, 0 <= k < d_nlayers (sdims S) -> H k <> 0%R) ->
  forall t dt : R, ((dc (mesh_of_setup S) : R) * dc (mesh_of_setup S) < 4 * (eddy_diff2 (par_of S) : R) * dt)%R ->
  exists m, ready S m /\ disabled_zero S Tend m /\ (forall k c, mr m (HCell St) [c; k] = H k) /\ (forall k e, mr m (VnEdge St) [e; k] = 0%R) /\
  (forall l c k, (0 <= mr m (TrCell St) [l; c; k])%R) /\
  always (sdims S) (lsrk_run S 1 [(t, dt)]) m (fun m' => forall l k, 0 <= l < ntracers (par_of S) -> 0 <= k < d_nlayers (sdims S) -> (mr m' (TrCell St) [l; 0%Z; k] < 0)%R).
Proof.
  intros S Hok Hdc HX HY Hf H4 Hk2 H H0 t dt Hdt.
  set (phi := fun c : Z => if c =? 0 then 1%R else 0%R).
  destruct (ready_any S Hok (fun a ix => match a, ix with HCell St, [c; k] => H k | TrCell St, [l; c; k] => phi c | _, _ => 0%R end)) as (m & Hr & E).
  assert (Et : forall l c k, mr m (TrCell St) [l; c; k] = phi c) by (intros; now rewrite E).
  assert (Eh : forall k c, mr m (HCell St) [c; k] = H k) by (intros; now rewrite E).
  assert (Ev : forall k e, mr m (VnEdge St) [e; k] = 0%R) by (intros; now rewrite E).
  exists m. split; [exact Hr|]. split; [intros k Hk; split; intros; now rewrite E|]. split; [exact Eh|]. split; [exact Ev|].
  split; [intros; rewrite Et; unfold phi; destruct (_ =? _); lra|].
  eapply always_fn; [apply rd_lsrk_run; auto|]. intros M EM l k Hl Hk.
  assert (Ry : rest S H (fld St m)) by (intros j Hj; split; [intros c Hc; apply Eh|intros e He; apply Ev]).
  destruct (lsrk_ran S Hok Hdc m Hr HX HY Hf H H0 1 [(t, dt)] m (fld St m) ltac:(lia) Hr (holds_fld S St m) Ry) as (y' & A & [_ B]).
  destruct EM as [_ EM]. rewrite EM. destruct (A k Hk) as (_ & _ & E3).
  assert (N0 : 0 <= 0 < nx (mesh_of_setup S) * ny (mesh_of_setup S)) by nia.
  rewrite E3 by assumption. change (ft y' l 0 k) with (slice y' l k 0). rewrite B by assumption.
  change (slice (fld St m) l k) with (fun c => mr m (TrCell St) [l; c; k]). cbn [prun fold_left snd]. change (g_lsrk 1) with g_euler.
  rewrite (pol_ext S Hok Hdc m Hr HX HY _ _ _ phi) by (intros; auto).
  rewrite (pol_avg S Hok Hdc m Hr HX HY H4) by exact N0. unfold wgt, g_euler.
  assert (Z0 : apow S 1 phi 0 = 0%R).
  { cbn [apow]. unfold avg6. rewrite rsum_small6. assert (Q : forall j, 0 <= j < 6 -> phi (nbr (nx (mesh_of_setup S)) (ny (mesh_of_setup S)) 0 j) = 0%R).
    { intros j Hj. unfold phi. destruct (Z.eqb_spec (nbr (nx (mesh_of_setup S)) (ny (mesh_of_setup S)) 0 j) 0) as [C|C]; [|reflexivity]. exfalso. revert C. unfold nbr. destruct (Z.ltb_spec j 3).
      - apply inb_ne; lia.
      - intros C. pose proof (inb_nb (nx (mesh_of_setup S)) (ny (mesh_of_setup S)) ltac:(lia) 0 j N0 ltac:(lia)) as I. rewrite C in I. revert I. apply inb_ne; lia. }
    rewrite !Q by lia. lra. }
  rewrite Z0. change (phi 0) with 1%R. unfold dcoef.
  assert (En : tracer_diff_enabled (par_of S) = true).
  { unfold tracer_diff_enabled. cbn. destruct (Rlt_dec 0 (eddy_diff2 (par_of S))); [reflexivity|exfalso; auto]. }
  rewrite En. cbn [F RA] in *. assert (Q : (0 < dc (mesh_of_setup S) * dc (mesh_of_setup S))%R) by (apply Rmult_lt_0_compat; assumption).
  assert (Z1 : (1 < 4 * eddy_diff2 (par_of S) / (dc (mesh_of_setup S) * dc (mesh_of_setup S)) * dt)%R).
  { replace (4 * eddy_diff2 (par_of S) / (dc (mesh_of_setup S) * dc (mesh_of_setup S)) * dt)%R with (4 * eddy_diff2 (par_of S) * dt / (dc (mesh_of_setup S) * dc (mesh_of_setup S)))%R by (field; lra).
    apply (Rmult_lt_reg_r (dc (mesh_of_setup S) * dc (mesh_of_setup S))%R); [exact Q|]. unfold Rdiv. rewrite Rmult_assoc, Rinv_l by lra. lra. }
  nra.
Qed.

Lemma C68_with_advection_refuted_proof :
  forall (S : setup RA), setup_ok S -> (0 < (dc (mesh_of_setup S) : R))%R -> 2 <= nx (mesh_of_setup S) -> 2 <= ny (mesh_of_setup S) ->
  hook S = None -> ((eddy_diff2 (par_of S) : R) <= 0)%R -> ((eddy_diff4 (par_of S) : R) <= 0)%R ->
  forall t dt : R, (0 < dt)%R ->
  exists m, ready S m /\ (forall k c, mr m (HCell St) [c; k] = 1%R) /\ (forall l c k, (0 <= mr m (TrCell St) [l; c; k])%R) /\
  always (sdims S) (lsrk_run S 1 [(t, dt)]) m (fun m' => forall l k, 0 <= l < ntracers (par_of S) -> 0 <= k < d_nlayers (sdims S) -> (mr m' (TrCell St) [l; 0%Z; k] < 0)%R).
Proof.
  intros S Hok Hdc HX HY Hf H2 H4 t dt Hdt.
  set (X := nx (mesh_of_setup S)) in *. set (Y := ny (mesh_of_setup S)) in *. assert (N0 : 0 <= 0 < X * Y) by nia.
  set (c1 := nb X Y 0 3). set (e0 := hE X Y 0 3).
  assert (N1 : c1 <> 0).
  { intros C. pose proof (inb_nb X Y ltac:(lia) 0 3 N0 ltac:(lia)) as I. fold c1 in I. rewrite C in I. revert I. apply inb_ne; lia. }
  set (phi := fun c : Z => if c =? c1 then 1%R else 0%R). set (u := fun e : Z => if e =? e0 then 1%R else 0%R).
  destruct (ready_any S Hok (fun a ix => match a, ix with HCell St, [c; k] => 1%R | TrCell St, [l; c; k] => phi c | VnEdge St, [e; k] => u e | _, _ => 0%R end)) as (m & Hr & E).
  assert (Et : forall l c k, mr m (TrCell St) [l; c; k] = phi c) by (intros; now rewrite E).
  assert (Eh : forall k c, mr m (HCell St) [c; k] = 1%R) by (intros; now rewrite E).
  assert (Ev : forall k e, mr m (VnEdge St) [e; k] = u e) by (intros; now rewrite E).
  exists m. split; [exact Hr|]. split; [exact Eh|]. split; [intros; rewrite Et; unfold phi; destruct (_ =? _); lra|].
  eapply always_fn; [apply rd_lsrk_run; auto|]. intros M EM l k Hl Hk. destruct EM as [_ EM]. rewrite EM. clear EM M.
  change (lsrk_run_fn S 1 [(t, dt)] m) with (lsrk_fn S 1 t dt m).
  destruct (stages_ex S Hok 1 t dt (fld St m) (fld Tend m) ltac:(lia)) as (Yf & Q & K & EY & EQ & G).
  destruct (lsrk_holds S Hok 1 t dt m Yf Q K ltac:(lia) Hr) as (_ & B & _).
  { rewrite EY. apply holds_fld. } { rewrite EQ. apply holds_fld. } { exact G. }
  destruct (G 0 ltac:(lia)) as (T0 & Q0 & Y0). rewrite EY in T0.
  destruct (tend_of S Hok Hdc m Hr _ _ _ T0 k Hk) as (_ & _ & A3). specialize (A3 l 0 Hl N0).
  destruct (B k Hk) as (_ & _ & B3). rewrite B3 by assumption. change (0 + 1) with 1 in *. rewrite Y0, EY. cbn [fmap2 ft]. rewrite Q0. cbn [fmap2 ft]. rewrite lsrk_a0, A3.
  change (lsrk_b (A:=RA) 1 0) with (IZR 1). change (ft (fld St m) l 0 k) with (mr m (TrCell St) [l; 0; k]). rewrite Et.
  replace (phi 0) with 0%R by (unfold phi; destruct (Z.eqb_spec 0 c1); [congruence|reflexivity]).
  assert (V : (ttend S (ymem m (fld St m)) St k l 0 < 0)%R).
  { unfold ttend. cbv zeta. unfold tracer_diff_enabled, tracer_hyperdiff_enabled. rewrite !disabled_le by assumption.
    pose proof (ymem_ready S m Hr (fld St m)) as Ry. pose proof (ready_hex S Hok _ Ry) as Hm. pose proof (proj1 Hok) as Hmo.
    rewrite (outflow_eq _ _ _ Hmo _ Hm) by exact N0. fold X Y.
    match goal with |- context[rsum 6 ?f] => assert (Rs : rsum 6 f = (1 / 2)%R) end.
    { rewrite rsum_small6. rewrite !(cs_closed _ _ Hmo) by (assumption || lia). fold X Y.
      assert (Uv : forall e, mr (ymem m (fld St m)) (VnEdge St) [e; k] = u e) by (intros; apply Ev). rewrite !Uv.
      assert (U : forall j, 0 <= j < 6 -> j <> 3 -> u (hE X Y 0 j) = 0%R).
      { intros j Hj Hj3. unfold u. destruct (Z.eqb_spec (hE X Y 0 j) e0) as [C|C]; [|reflexivity]. exfalso. unfold e0, hE in C. fold c1 in C. cbn [Z.ltb Z.compare Pos.compare Pos.compare_cont] in C.
        destruct (Z.ltb_spec j 3); lia. }
      rewrite (U 0), (U 1), (U 2), (U 4), (U 5) by lia. fold e0. assert (U3 : u e0 = 1%R) by (unfold u; now rewrite Z.eqb_refl). rewrite U3. unfold emean. cbn [Z.ltb Z.compare Pos.compare Pos.compare_cont].
      pose proof (hE_range X Y ltac:(lia) ltac:(lia) 0 3 N0 ltac:(lia)) as He. fold e0 in He. rewrite !(hm_coe _ _ _ Hm e0) by (fold X Y; lia). fold X Y. fold e0.
      assert (C0 : hcoe X Y e0 0 = 0). { apply Z.eqb_eq. unfold e0. rewrite coe0_hE by lia. reflexivity. }
      assert (C1 : hcoe X Y e0 1 = c1). { unfold hcoe. cbn [Z.eqb]. unfold e0. rewrite hE_div_ by lia. reflexivity. }
      rewrite C0, C1.
      assert (Uh : forall c, mr (ymem m (fld St m)) (HCell St) [c; k] = 1%R) by (intros; apply Eh).
      assert (Ut : forall c, mr (ymem m (fld St m)) (TrCell St) [l; c; k] = phi c) by (intros; apply Et).
      rewrite !Uh, !Ut. replace (phi 0) with 0%R by (unfold phi; destruct (Z.eqb_spec 0 c1); [congruence|reflexivity]).
      replace (phi c1) with 1%R by (unfold phi; now rewrite Z.eqb_refl). field. }
    rewrite Rs. rewrite hdve_R, hareac_R. cbn [F RA] in *. assert (S3 : (0 < sqrt 3)%R) by (apply sqrt_lt_R0; lra).
    match goal with |- context[(?a / ?b * (1 / 2))%R] => assert (0 < a / b)%R end; [|cbn [F RA] in *; lra].
    repeat (apply Rdiv_lt_0_compat || apply Rmult_lt_0_compat || lra || assumption). }
  cbn [F RA] in *. nra.
Qed.

