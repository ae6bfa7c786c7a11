(** Rounding errors of the tracer content, in binary64 arithmetic: C99.  [cc], [ss] and [pp] are the cosine, the sine and the
    number pi of the platform; nothing is assumed of them. *)
From Coq Require Import ZArith Reals List Bool Lia Lra.
From Coq Require Import Floats.SpecFloat.
From Flocq Require Import Core.Core.
From Verif Require Import Arith Arrays Prog Conc Launch Mesh AuxVars Tend Model Hex MeshProof MeshMem Over Formulas KernBase Terms KernAux KernTend TendFn StepFn Ready Rel RelRun Relate TendVal StepVal StepRun RSum FloatFacts FloatMass FloatRun FloatRest FloatAlong FloatThms TrFlux TrFloatThms.
Import ListNotations.
Open Scope Z_scope.

(** C99, one evaluation: the thicknesses of a layer are at most [Hb], its velocities at most [Vb], the concentrations of the tracer at most [Rb], the diffusivities at most [K2] and [K4].  If the computed tendencies of the tracer are finite, they add up to at most [10 ncells 2^-53] times the size of one of them, [Hb Rb (4 Vb / dc + 8 K2 / dc^2 + 64 K4 / dc^4)]; over the real numbers they add up to zero (C26). *)
Theorem C99_tracer_tendency_error :
  forall (cc ss : spec_float -> spec_float) (pp : spec_float) (S : setup (SFA cc ss pp)), setup_ok S ->
  let d := val (dc (mesh_of_setup S)) in
  2 <= nx (mesh_of_setup S) -> 2 <= ny (mesh_of_setup S) ->
  fin (dc (mesh_of_setup S)) -> (bpow radix2 (-100) <= d <= bpow radix2 100)%R ->
  forall l k, 0 <= l < ntracers (par_of S) -> 0 <= k < d_nlayers (sdims S) ->
  forall Hb Vb Rb K2 K4 : R, (bpow radix2 (-100) <= Hb <= bpow radix2 200)%R -> (bpow radix2 (-100) <= Vb)%R -> (bpow radix2 (-100) <= Rb)%R -> (0 <= K2)%R -> (0 <= K4)%R ->
  (tracer_diff_enabled (par_of S) = true -> fin_le K2 (eddy_diff2 (par_of S)) /\ (bpow radix2 (-100) <= K2)%R) ->
  (tracer_hyperdiff_enabled (par_of S) = true -> fin_le K4 (eddy_diff4 (par_of S)) /\ (bpow radix2 (-100) <= K4)%R) ->
  forall s time (m : mem (SFA cc ss pp)), s <> Tend -> ready S m -> tbounded S l k Hb Vb Rb s m ->
  always (sdims S) (compute_tendency S Tend s time Replace) m (fun m' =>
    (forall c, 0 <= c < d_ncells (sdims S) -> fin (mr m' (TrCell Tend) [l; c; k])) ->
    (Rabs (ttotal S l k Tend m') <= IZR (d_ncells (sdims S)) * bpow radix2 (-53) * (10 * (Hb * Rb * (4 * Vb / d + 8 * K2 / (d * d) + 64 * K4 / (d * d * d * d)))))%R).
Proof. exact C99_tracer_tendency_error_proof. Qed.
Print Assumptions C99_tracer_tendency_error.

(** C99, a run: as long as these bounds hold between the statements of the program, the sum of the tracer over a layer drifts by at most the stated number of units in the last place per step. *)
Theorem C99_tracer_drift :
  forall (cc ss : spec_float -> spec_float) (pp : spec_float) (S : setup (SFA cc ss pp)), setup_ok S ->
  let d := val (dc (mesh_of_setup S)) in
  2 <= nx (mesh_of_setup S) -> 2 <= ny (mesh_of_setup S) ->
  fin (dc (mesh_of_setup S)) -> (bpow radix2 (-100) <= d <= bpow radix2 100)%R ->
  forall l k, 0 <= l < ntracers (par_of S) -> 0 <= k < d_nlayers (sdims S) ->
  forall Hb Vb Rb Db K2 K4 : R, (bpow radix2 (-100) <= Hb <= bpow radix2 200)%R -> (bpow radix2 (-100) <= Vb)%R -> (bpow radix2 (-100) <= Rb)%R -> (bpow radix2 (-200) <= Db)%R ->
  (0 <= K2)%R -> (0 <= K4)%R ->
  (tracer_diff_enabled (par_of S) = true -> fin_le K2 (eddy_diff2 (par_of S)) /\ (bpow radix2 (-100) <= K2)%R) ->
  (tracer_hyperdiff_enabled (par_of S) = true -> fin_le K4 (eddy_diff4 (par_of S)) /\ (bpow radix2 (-100) <= K4)%R) ->
  forall steps, (forall x, In x steps -> fin_le Db (snd x)) ->
  forall m : mem (SFA cc ss pp), ready S m ->
  let within (a b : R) (m' : mem (SFA cc ss pp)) := (Rabs (ttotal S l k St m' - ttotal S l k St m)
    <= INR (length steps) * IZR (d_ncells (sdims S)) * bpow radix2 (-53) * (Hb * Rb * (a + b * (Db * (4 * Vb / d + 8 * K2 / (d * d) + 64 * K4 / (d * d * d * d))))))%R in
  (along (sdims S) (rk4_run S steps) m (fun m' => tbounded S l k Hb Vb Rb St m' /\ tbounded S l k Hb Vb Rb Provis m') ->
   always (sdims S) (rk4_run S steps) m (within 4 11)%R) /\
  (along (sdims S) (lsrk_ctor S ++ lsrk_run S 5 steps) m (tbounded S l k Hb Vb Rb St) ->
   always (sdims S) (lsrk_ctor S ++ lsrk_run S 5 steps) m (within 5 128)%R).
Proof. exact C99_tracer_drift_proof. Qed.
Print Assumptions C99_tracer_drift.

(** C99, without assumptions about the states in between: with the flow held fixed (the thickness and velocity equations disabled), bounds on the initial state suffice, for the number of steps allowed by the third to last line of the hypotheses. *)
Theorem C99_frozen_flow :
  forall (cc ss : spec_float -> spec_float) (pp : spec_float) (S : setup (SFA cc ss pp)), setup_ok S ->
  let d := val (dc (mesh_of_setup S)) in
  2 <= nx (mesh_of_setup S) -> 2 <= ny (mesh_of_setup S) ->
  fin (dc (mesh_of_setup S)) -> (bpow radix2 (-100) <= d <= bpow radix2 100)%R ->
  noif (cfg_of S) = false -> disable_vn (par_of S) = true -> disable_h (par_of S) = true -> hook S = None ->
  forall l k, 0 <= l < ntracers (par_of S) -> 0 <= k < d_nlayers (sdims S) ->
  forall Hm Hb Vb Rb Db K2 K4 : R, (bpow radix2 (-100) <= Hm)%R -> (Hm <= Hb <= bpow radix2 100)%R -> (bpow radix2 (-100) <= Vb <= bpow radix2 100)%R ->
  (bpow radix2 (-100) <= Rb <= bpow radix2 100)%R -> (bpow radix2 (-100) <= Db <= bpow radix2 100)%R -> (0 <= K2 <= bpow radix2 100)%R -> (0 <= K4 <= bpow radix2 100)%R ->
  (tracer_diff_enabled (par_of S) = true -> fin_le K2 (eddy_diff2 (par_of S)) /\ (bpow radix2 (-100) <= K2)%R) ->
  (tracer_hyperdiff_enabled (par_of S) = true -> fin_le K4 (eddy_diff4 (par_of S)) /\ (bpow radix2 (-100) <= K4)%R) ->
  let rate := (4 * Vb / d + 8 * K2 / (d * d) + 64 * K4 / (d * d * d * d))%R in
  forall steps, (forall x, In x steps -> fin_le Db (snd x)) ->
  (INR (length steps) * (9 * (Db * rate * (Hb / Hm)) + bpow radix2 (-50)) <= 1 / 2)%R ->
  let layer (b : R) (s : sid) (m : mem (SFA cc ss pp)) :=
    (forall c, 0 <= c < d_ncells (sdims S) -> fin (mr m (HCell s) [c; k]) /\ (Hm <= Rabs (val (mr m (HCell s) [c; k])) <= Hb)%R) /\
    (forall e, 0 <= e < d_nedges (sdims S) -> fin_le Vb (mr m (VnEdge s) [e; k])) /\
    (forall c, 0 <= c < d_ncells (sdims S) -> fin_le b (mr m (TrCell s) [l; c; k])) in
  forall m : mem (SFA cc ss pp), ready S m -> layer (Rb * Hm / 2)%R St m ->
  let within (a b : R) (m' : mem (SFA cc ss pp)) := layer (Rb * Hm)%R St m' /\ (Rabs (ttotal S l k St m' - ttotal S l k St m)
    <= INR (length steps) * IZR (d_ncells (sdims S)) * bpow radix2 (-53) * (Hb * Rb * (a + b * (Db * rate))))%R in
  (layer (Rb * Hm)%R Provis m -> disabled_zero S Tend m -> always (sdims S) (rk4_run S steps) m (within 4 11)%R) /\
  always (sdims S) (lsrk_ctor S ++ lsrk_run S 5 steps) m (within 5 128)%R.
Proof. exact C99_frozen_flow_proof. Qed.
Print Assumptions C99_frozen_flow.

(** Non-vacuity: a 4 x 6 mesh with three layers whose cells are 4096 wide, velocities 1 and -1, thickness 3 in one cell and 1 elsewhere, advection, diffusion (coefficient 1000) and hyperdiffusion (coefficient 1000000) of a tracer that is 2 in one cell and 1 elsewhere: both programs run 8 steps of size 1 within the bounds; this also shows that the states in between can satisfy the hypotheses of [C99_tracer_drift]. *)
Definition S99 (c s : spec_float -> spec_float) (p : spec_float) : setup (SFA c s p) :=
  mkSetup (mkConfig false true false 8) (mkHex (A:=SFA c s p) 4 6 (@fofZ (SFA c s p) 4096) 3)
    (mkParams (A:=SFA c s p) (@fofZ (SFA c s p) 1) (@fofZ (SFA c s p) 10) (@fofZ (SFA c s p) 0) (@fofZ (SFA c s p) 0) (@fofZ (SFA c s p) 0)
       (@fofZ (SFA c s p) 1000) (@fofZ (SFA c s p) 1000000) 2 true true) None.
Ltac ok := repeat split; unfold INT_MAX, zceil, vector_length; cbn; try lia; try discriminate.
Definition m99 (c s : spec_float -> spec_float) (p : spec_float) (a : rarr) (ix : list Z) : F (SFA c s p) :=
  match a, ix with
  | HCell Tend, _ => @fofZ (SFA c s p) 0
  | VnEdge Tend, _ => @fofZ (SFA c s p) 0
  | HCell _, [i; _] => if i =? 5 then @fofZ (SFA c s p) 3 else @fofZ (SFA c s p) 1
  | VnEdge _, [i; _] => if Z.even i then @fofZ (SFA c s p) 1 else @fofZ (SFA c s p) (-1)
  | TrCell _, [_; i; _] => if i =? 6 then @fofZ (SFA c s p) 2 else @fofZ (SFA c s p) 1
  | _, _ => @fofZ (SFA c s p) 0
  end.
Example C99_applies c s p : let S := S99 c s p in let steps := repeat (@fofZ (SFA c s p) 0, @fofZ (SFA c s p) 1) 8 in
  setup_ok S /\ tracer_diff_enabled (par_of S) = true /\ tracer_hyperdiff_enabled (par_of S) = true /\
  let layer (b : R) (s' : sid) (m : mem (SFA c s p)) :=
    (forall i, 0 <= i < d_ncells (sdims S) -> fin (mr m (HCell s') [i; 1]) /\ (1 <= Rabs (val (mr m (HCell s') [i; 1%Z])) <= 4)%R) /\
    (forall e, 0 <= e < d_nedges (sdims S) -> fin_le 1 (mr m (VnEdge s') [e; 1])) /\
    (forall i, 0 <= i < d_ncells (sdims S) -> fin_le b (mr m (TrCell s') [1; i; 1])) in
  exists m, ready S m /\ mr m (TrCell St) [1; 5; 1] <> mr m (TrCell St) [1; 6; 1] /\
  layer (4 * 1 / 2)%R St m /\ layer (4 * 1)%R Provis m /\ disabled_zero S Tend m /\
  always (sdims S) (rk4_run S steps) m (layer (4 * 1)%R St) /\
  always (sdims S) (lsrk_ctor S ++ lsrk_run S 5 steps) m (layer (4 * 1)%R St).
Proof.
  intros S steps. assert (Hok : setup_ok S) by ok. split; [exact Hok|].
  assert (V : forall z b, Z.abs z < 2 ^ 53 -> (Rabs (IZR z) <= b)%R -> fin_le (cc:=c) (ss:=s) (pp:=p) b (@fofZ (SFA c s p) z)).
  { intros z b Hz Hb. destruct (ofZ_val c s p z Hz) as [H1 H2]. split; [exact H1|]. now rewrite H2. }
  split; [vm_compute; reflexivity|]. split; [vm_compute; reflexivity|]. intros layer.
  destruct (ready_any S Hok (m99 c s p)) as (m & Hr & Hm). exists m.
  assert (R1 : (Rabs (IZR 1) = 1)%R) by (rewrite Rabs_pos_eq; lra). assert (R2 : (Rabs (IZR 2) = 2)%R) by (rewrite Rabs_pos_eq; lra).
  assert (R1' : (Rabs (IZR (-1)) = 1)%R) by (rewrite Rabs_left; lra). assert (R3 : (Rabs (IZR 3) = 3)%R) by (rewrite Rabs_pos_eq; lra).
  assert (B0 : forall s' b, s' <> Tend -> (2 <= b)%R -> layer b s' m).
  { intros s' b Hs Hb. split; [|split]; intros i Hi; rewrite Hm by reflexivity; destruct s'; try congruence; cbn [m99].
    1-3: destruct (i =? 5); [destruct (ofZ_val c s p 3 ltac:(lia)) as [X1 X2]|destruct (ofZ_val c s p 1 ltac:(lia)) as [X1 X2]]; (split; [exact X1|rewrite X2; lra]).
    all: first [destruct (Z.even i); apply V; try lia; lra | destruct (i =? 6); apply V; try lia; lra]. }
  assert (B1 : layer (4 * 1 / 2)%R St m) by (apply B0; [discriminate|lra]). assert (B2 : layer (4 * 1)%R Provis m) by (apply B0; [discriminate|lra]).
  assert (B3 : disabled_zero S Tend m) by (intros k Hk; split; intros _ i Hi; rewrite Hm by reflexivity; reflexivity).
  assert (P1 : (bpow radix2 (-100) <= 1)%R) by (change 1%R with (bpow radix2 0); apply bpow_le; lia).
  assert (P2 : (1048576 <= bpow radix2 100)%R) by (replace 1048576%R with (bpow radix2 20) by (cbn; lra); apply bpow_le; lia).
  destruct (ofZ_val c s p 4096 ltac:(lia)) as [D1 D2].
  pose proof (C99_frozen_flow c s p S Hok) as G. cbv zeta in G.
  change (dc (mesh_of_setup S)) with (@fofZ (SFA c s p) 4096) in G. rewrite D2 in G.
  specialize (G ltac:(cbn; lia) ltac:(cbn; lia) D1 ltac:(lra) eq_refl eq_refl eq_refl eq_refl 1 1 ltac:(cbn; lia) ltac:(cbn; lia) 1%R 4%R 1%R 4%R 1%R 1000%R 1000000%R
    ltac:(lra) ltac:(lra) ltac:(lra) ltac:(lra) ltac:(lra) ltac:(lra) ltac:(lra)).
  assert (K2 : tracer_diff_enabled (par_of S) = true -> fin_le 1000 (eddy_diff2 (par_of S)) /\ (bpow radix2 (-100) <= 1000)%R).
  { intros _. split; [apply V; [lia|rewrite Rabs_pos_eq; lra]|lra]. }
  assert (K4 : tracer_hyperdiff_enabled (par_of S) = true -> fin_le 1000000 (eddy_diff4 (par_of S)) /\ (bpow radix2 (-100) <= 1000000)%R).
  { intros _. split; [apply V; [lia|rewrite Rabs_pos_eq; lra]|lra]. }
  specialize (G K2 K4 steps).
  assert (G1 : forall x, In x steps -> fin_le (cc:=c) (ss:=s) (pp:=p) 1 (snd x)).
  { intros x Hx. apply repeat_spec in Hx. subst x. apply V; [lia|lra]. }
  specialize (G G1). unfold steps in G at 1. rewrite repeat_length in G.
  assert (P3 : (bpow radix2 (-50) <= 1 / 1024)%R) by (replace (1 / 1024)%R with (bpow radix2 (-10)) by (cbn; lra); apply bpow_le; lia).
  assert (P4 : (INR 8 * (9 * (1 * (4 * 1 / 4096 + 8 * 1000 / (4096 * 4096) + 64 * 1000000 / (4096 * 4096 * 4096 * 4096)) * (4 / 1)) + bpow radix2 (-50)) <= 1 / 2)%R)
    by (replace (INR 8) with 8%R by (cbn; lra); lra).
  specialize (G P4 m Hr B1). destruct G as [G4 G5]. specialize (G4 B2 B3).
  split; [exact Hr|]. split; [rewrite !Hm by reflexivity; cbn [m99 Z.eqb Pos.eqb]; discriminate|].
  split; [exact B1|]. split; [exact B2|]. split; [exact B3|].
  split; [destruct G4 as [X1 X2]|destruct G5 as [X1 X2]]; (split; [|exact X2]); intros o Ho; destruct (X1 o Ho) as (m' & E & Y & _); exists m'; split; [exact E|exact Y|exact E|exact Y].
Qed.
