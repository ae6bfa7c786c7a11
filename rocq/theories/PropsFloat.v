(** Properties of the program in binary64 arithmetic, rounding included: C82 the mass that rounding creates or destroys, C83 the
    lake at rest.  [cc], [ss] and [pp] are the cosine, the sine and the number pi of the platform; nothing is assumed of them. *)
From Coq Require Import ZArith Reals List Bool Lia Lra.
From Coq Require Import Floats.SpecFloat.
From Flocq Require Import Core.Core.
From Verif Require Import Arith Arrays Prog Conc Launch Mesh AuxVars Tend Model Hex MeshProof MeshMem Over Formulas KernBase Terms KernAux KernTend TendFn StepFn Ready Rel RelRun Relate TendVal StepVal StepRun RSum FloatFacts FloatMass FloatRun FloatRest FloatAlong FloatAdv FloatTr FloatThms.
Import ListNotations.
Open Scope Z_scope.

(** C82, one evaluation: when the thicknesses of a layer are at most [Hb], its velocities at most [Vb], and the computed tendencies are finite, the rates at which the thickness of the cells changes add up to at most [25 ncells 2^-53 Hb Vb / dc]; over the real numbers they add up to zero (C24). *)
Theorem C82_tendency_mass_error :
  forall (cc ss : spec_float -> spec_float) (pp : spec_float) (S : setup (SFA cc ss pp)), setup_ok S ->
  2 <= nx (mesh_of_setup S) -> 2 <= ny (mesh_of_setup S) ->
  fin (dc (mesh_of_setup S)) -> (bpow radix2 (-200) <= val (dc (mesh_of_setup S)) <= bpow radix2 200)%R ->
  disable_h (par_of S) = false -> hook S = None ->
  forall k, 0 <= k < d_nlayers (sdims S) ->
  forall Hb Vb : R, (bpow radix2 (-200) <= Hb)%R -> (bpow radix2 (-200) <= Vb)%R ->
  forall s time (m : mem (SFA cc ss pp)), s <> Tend -> ready S m -> bounded S k Hb Vb s m ->
  always (sdims S) (compute_tendency S Tend s time Replace) m (fun m' =>
    (forall c, 0 <= c < d_ncells (sdims S) -> fin (mr m' (HCell Tend) [c; k])) ->
    (Rabs (total S k Tend m') <= IZR (d_ncells (sdims S)) * bpow radix2 (-53) * (25 * Hb * Vb / val (dc (mesh_of_setup S))))%R).
Proof. exact C82_tendency_mass_error_proof. Qed.
Print Assumptions C82_tendency_mass_error.

(** C82.  Run the model in binary64, from any state, with any list of step sizes at most [Db].  If in every memory between two kernels the thicknesses of the layer are finite and at most [Hb] and its velocities at most [Vb], then after [n] steps the total thickness of the layer, summed exactly, differs from what it was by at most [n ncells 2^-53 Hb (4 + 29 Db Vb / dc)] with the classical method and [n ncells 2^-53 Hb (5 + 353 Db Vb / dc)] with the low storage method: a few units in the last place per cell and step. *)
Theorem C82_mass_drift :
  forall (cc ss : spec_float -> spec_float) (pp : spec_float) (S : setup (SFA cc ss pp)), setup_ok S ->
  2 <= nx (mesh_of_setup S) -> 2 <= ny (mesh_of_setup S) ->
  fin (dc (mesh_of_setup S)) -> (bpow radix2 (-200) <= val (dc (mesh_of_setup S)) <= bpow radix2 200)%R ->
  disable_h (par_of S) = false -> hook S = None ->
  forall k, 0 <= k < d_nlayers (sdims S) ->
  forall Hb Vb Db : R, (bpow radix2 (-200) <= Hb)%R -> (bpow radix2 (-200) <= Vb)%R -> (bpow radix2 (-200) <= Db)%R ->
  forall steps, (forall x, In x steps -> fin_le Db (snd x)) ->
  forall m : mem (SFA cc ss pp), ready S m ->
  let within (a b : R) (m' : mem (SFA cc ss pp)) := (Rabs (total S k St m' - total S k St m)
    <= INR (length steps) * IZR (d_ncells (sdims S)) * bpow radix2 (-53) * (Hb * (a + b * (Db * Vb / val (dc (mesh_of_setup S))))))%R in
  (along (sdims S) (rk4_run S steps) m (fun m' => bounded S k Hb Vb St m' /\ bounded S k Hb Vb Provis m') ->
   always (sdims S) (rk4_run S steps) m (within 4 29)%R) /\
  (along (sdims S) (lsrk_ctor S ++ lsrk_run S 5 steps) m (bounded S k Hb Vb St) ->
   always (sdims S) (lsrk_ctor S ++ lsrk_run S 5 steps) m (within 5 353)%R).
Proof. exact C82_mass_drift_proof. Qed.
Print Assumptions C82_mass_drift.

(** C82 without any hypothesis on the states in between: when the velocity is not advanced (the advection problem, [disable_vn_tendency]), with no tracers and no extra tendency, and the first state has thicknesses at most [Hb / 2] and velocities at most [Vb], then for [n] steps with [n (34 Db Vb / dc + 2^-50) <= 1/2] the thickness of every cell stays finite and at most [Hb], and the bounds on the total thickness hold. *)
Theorem C82_frozen_velocity :
  forall (cc ss : spec_float -> spec_float) (pp : spec_float) (S : setup (SFA cc ss pp)), setup_ok S ->
  2 <= nx (mesh_of_setup S) -> 2 <= ny (mesh_of_setup S) ->
  fin (dc (mesh_of_setup S)) -> (bpow radix2 (-100) <= val (dc (mesh_of_setup S)) <= bpow radix2 100)%R ->
  noif (cfg_of S) = false -> disable_vn (par_of S) = true -> disable_h (par_of S) = false -> ntracers (par_of S) = 0 -> hook S = None ->
  forall k, 0 <= k < d_nlayers (sdims S) ->
  forall Hb Vb Db : R, (bpow radix2 (-100) <= Hb <= bpow radix2 100)%R -> (bpow radix2 (-100) <= Vb <= bpow radix2 100)%R ->
  (bpow radix2 (-100) <= Db <= bpow radix2 100)%R ->
  forall steps, (forall x, In x steps -> fin_le Db (snd x)) ->
  (INR (length steps) * (34 * (Db * Vb / val (dc (mesh_of_setup S))) + bpow radix2 (-50)) <= 1 / 2)%R ->
  forall m : mem (SFA cc ss pp), ready S m -> bounded S k (Hb / 2) Vb St m ->
  let within (a b : R) (m' : mem (SFA cc ss pp)) := bounded S k Hb Vb St m' /\ (Rabs (total S k St m' - total S k St m)
    <= INR (length steps) * IZR (d_ncells (sdims S)) * bpow radix2 (-53) * (Hb * (a + b * (Db * Vb / val (dc (mesh_of_setup S))))))%R in
  (bounded S k Hb Vb Provis m -> disabled_zero S Tend m -> always (sdims S) (rk4_run S steps) m (within 4 29)%R) /\
  always (sdims S) (lsrk_ctor S ++ lsrk_run S 5 steps) m (within 5 353)%R.
Proof. exact C82_frozen_velocity_proof. Qed.
Print Assumptions C82_frozen_velocity.

(** Non-vacuity: a 4 x 6 mesh with three layers whose cells are 4096 wide, velocities 1 and -1, thickness 3 in one cell and 1 elsewhere: both programs run 20 steps of size 1, with the bounds of [C82_mass_drift]; this also shows that the states in between can satisfy the hypotheses of that theorem. *)
Definition S82 (c s : spec_float -> spec_float) (p : spec_float) : setup (SFA c s p) :=
  mkSetup (mkConfig false true false 8) (mkHex (A:=SFA c s p) 4 6 (@fofZ (SFA c s p) 4096) 3)
    (mkParams (A:=SFA c s p) (@fofZ (SFA c s p) 1) (@fofZ (SFA c s p) 10) (@fofZ (SFA c s p) 0) (@fofZ (SFA c s p) 0) (@fofZ (SFA c s p) 0)
       (@fofZ (SFA c s p) 0) (@fofZ (SFA c s p) 0) 0 false true) None.
Ltac ok := repeat split; unfold INT_MAX, zceil, vector_length; cbn; try lia; try discriminate.
Definition m82 (c s : spec_float -> spec_float) (p : spec_float) (a : rarr) (ix : list Z) : F (SFA c s p) :=
  match a, ix with
  | HCell St, [i; _] => if i =? 5 then @fofZ (SFA c s p) 3 else @fofZ (SFA c s p) 1
  | VnEdge St, [i; _] => if Z.even i then @fofZ (SFA c s p) 1 else @fofZ (SFA c s p) (-1)
  | _, _ => @fofZ (SFA c s p) 0
  end.
Example C82_applies c s p : setup_ok (S82 c s p) /\ exists m, ready (S82 c s p) m /\ mr m (HCell St) [5; 1] <> mr m (HCell St) [6; 1] /\
  bounded (S82 c s p) 1 (8 / 2) 1 St m /\ bounded (S82 c s p) 1 8 1 Provis m /\ disabled_zero (S82 c s p) Tend m /\
  always (sdims (S82 c s p)) (rk4_run (S82 c s p) (repeat (@fofZ (SFA c s p) 0, @fofZ (SFA c s p) 1) 20)) m (fun m' => bounded (S82 c s p) 1 8 1 St m') /\
  always (sdims (S82 c s p)) (lsrk_ctor (S82 c s p) ++ lsrk_run (S82 c s p) 5 (repeat (@fofZ (SFA c s p) 0, @fofZ (SFA c s p) 1) 20)) m (fun m' => bounded (S82 c s p) 1 8 1 St m').
Proof.
  assert (Hok : setup_ok (S82 c s p)) by ok. split; [exact Hok|].
  destruct (ready_any (S82 c s p) Hok (m82 c s p)) as (m & Hr & Hm). exists m.
  assert (V : forall z b, Z.abs z < 2 ^ 53 -> (Rabs (IZR z) <= b)%R -> fin_le (cc:=c) (ss:=s) (pp:=p) b (@fofZ (SFA c s p) z)).
  { intros z b Hz Hb. destruct (ofZ_val c s p z Hz) as [H1 H2]. split; [exact H1|]. now rewrite H2. }
  assert (R0 : (Rabs (IZR 0) <= 1)%R) by (rewrite Rabs_R0; lra). assert (R1 : (Rabs (IZR 1) <= 1)%R) by (rewrite Rabs_pos_eq; lra).
  assert (R1' : (Rabs (IZR (-1)) <= 1)%R) by (rewrite Rabs_left; lra). assert (R3 : (Rabs (IZR 3) <= 8 / 2)%R) by (rewrite Rabs_pos_eq; lra).
  assert (B1 : bounded (S82 c s p) 1 (8 / 2) 1 St m).
  { split; intros i Hi; rewrite Hm by reflexivity; cbn [m82].
    - destruct (i =? 5); apply V; try lia; lra.
    - destruct (Z.even i); apply V; try lia; lra. }
  assert (B2 : bounded (S82 c s p) 1 8 1 Provis m).
  { split; intros i Hi; rewrite Hm by reflexivity; cbn [m82]; apply V; try lia; lra. }
  assert (B3 : disabled_zero (S82 c s p) Tend m) by (intros k Hk; split; intros _ i Hi; rewrite Hm by reflexivity; reflexivity).
  assert (P1 : (bpow radix2 (-100) <= 1)%R) by (change 1%R with (bpow radix2 0); apply bpow_le; lia).
  assert (P2 : (8192 <= bpow radix2 100)%R) by (replace 8192%R with (bpow radix2 13) by (cbn; lra); apply bpow_le; lia).
  destruct (ofZ_val c s p 4096 ltac:(lia)) as [D1 D2].
  pose proof (C82_frozen_velocity c s p (S82 c s p) Hok ltac:(cbn; lia) ltac:(cbn; lia) D1) as G. change (dc (mesh_of_setup (S82 c s p))) with (@fofZ (SFA c s p) 4096) in G. rewrite D2 in G.
  specialize (G ltac:(lra) eq_refl eq_refl eq_refl eq_refl eq_refl 1 ltac:(cbn; lia) 8%R 1%R 1%R ltac:(lra) ltac:(lra) ltac:(lra) (repeat (@fofZ (SFA c s p) 0, @fofZ (SFA c s p) 1) 20)).
  assert (G1 : forall x, In x (repeat (@fofZ (SFA c s p) 0, @fofZ (SFA c s p) 1) 20) -> fin_le (cc:=c) (ss:=s) (pp:=p) 1 (snd x)).
  { intros x Hx. apply repeat_spec in Hx. subst x. apply V; [lia|lra]. }
  specialize (G G1). rewrite repeat_length in G.
  assert (P3 : (bpow radix2 (-50) <= 1 / 1024)%R) by (replace (1 / 1024)%R with (bpow radix2 (-10)) by (cbn; lra); apply bpow_le; lia).
  assert (P4 : (INR 20 * (34 * (1 * 1 / 4096) + bpow radix2 (-50)) <= 1 / 2)%R) by (replace (INR 20) with 20%R by (cbn; lra); lra).
  specialize (G P4 m Hr B1). cbv zeta in G. destruct G as [G4 G5]. specialize (G4 B2 B3).
  split; [exact Hr|]. split; [rewrite !Hm by reflexivity; cbn [m82 Z.eqb Pos.eqb]; discriminate|].
  split; [exact B1|]. split; [exact B2|]. split; [exact B3|].
  split; [destruct G4 as [X1 X2]|destruct G5 as [X1 X2]]; (split; [|exact X2]); intros o Ho; destruct (X1 o Ho) as (m' & E & Y & _); eauto.
Qed.

(** C83.  In binary64, with rotation, gravity, both viscosities, drag and any number of tracers: if every cell of layer [k] holds the same thickness [H k] and every velocity is a zero, then after any number of steps of any sizes, with both steppers and in every schedule, every cell holds the same bits [H k] and every velocity is still a zero (of either sign). *)
Theorem C83_lake_at_rest_bit_for_bit :
  forall (cc ss : spec_float -> spec_float) (pp : spec_float) (S : setup (SFA cc ss pp)), setup_ok S ->
  let size (n : Z) (x : spec_float) := fin x /\ (Rabs (val x) <= bpow radix2 n)%R in
  let normal (x : spec_float) := fin x /\ (bpow radix2 (-100) <= val x <= bpow radix2 100)%R in
  normal (dc (mesh_of_setup S)) -> size 100 (f0 (par_of S)) -> size 100 (grav (par_of S)) ->
  size 100 (visc_del2 (par_of S)) -> size 100 (visc_del4 (par_of S)) -> hook S = None ->
  forall H : Z -> spec_float, (forall k, 0 <= k < d_nlayers (sdims S) -> normal (H k)) ->
  forall steps : list (spec_float * spec_float), (forall x, In x steps -> size 200 (snd x)) ->
  let at_rest (m : mem (SFA cc ss pp)) := forall k, 0 <= k < d_nlayers (sdims S) ->
    (forall c, 0 <= c < d_ncells (sdims S) -> mr m (HCell St) [c; k] = H k) /\
    (forall e, 0 <= e < d_nedges (sdims S) -> exists sign, mr m (VnEdge St) [e; k] = S754_zero sign) in
  forall m : mem (SFA cc ss pp), ready S m -> at_rest m ->
  (disabled_zero S Tend m -> always (sdims S) (rk4_run S steps) m at_rest) /\
  (forall nstages, always (sdims S) (lsrk_ctor S ++ lsrk_run S nstages steps) m at_rest).
Proof. exact C83_lake_at_rest_bit_for_bit_proof. Qed.
Print Assumptions C83_lake_at_rest_bit_for_bit.

(** Non-vacuity: a state of rest of thickness 7, 8, 9 in three layers, with rotation, both viscosities and two tracers. *)
Definition S83 (c s : spec_float -> spec_float) (p : spec_float) : setup (SFA c s p) :=
  mkSetup (mkConfig false true false 8) (mkHex (A:=SFA c s p) 4 6 (@fofZ (SFA c s p) 3) 3)
    (mkParams (A:=SFA c s p) (@fofZ (SFA c s p) 1) (@fofZ (SFA c s p) 10) (@fofZ (SFA c s p) 1) (@fofZ (SFA c s p) 5) (@fofZ (SFA c s p) 7)
       (@fofZ (SFA c s p) 1) (@fofZ (SFA c s p) 1) 2 false false) None.
Example C83_applies c s p : setup_ok (S83 c s p) /\
  (forall z, In z [1; 10; 5; 7] -> fin (@fofZ (SFA c s p) z) /\ (Rabs (val (@fofZ (SFA c s p) z)) <= bpow radix2 100)%R) /\
  (forall z, In z [3; 7; 8; 9] -> fin (@fofZ (SFA c s p) z) /\ (bpow radix2 (-100) <= val (@fofZ (SFA c s p) z) <= bpow radix2 100)%R) /\
  exists m, ready (S83 c s p) m /\ disabled_zero (S83 c s p) Tend m /\
    forall k, 0 <= k < d_nlayers (sdims (S83 c s p)) ->
    (forall i, 0 <= i < d_ncells (sdims (S83 c s p)) -> mr m (HCell St) [i; k] = @fofZ (SFA c s p) (7 + k)) /\
    (forall e, 0 <= e < d_nedges (sdims (S83 c s p)) -> exists sign, mr m (VnEdge St) [e; k] = S754_zero sign).
Proof.
  assert (Hok : setup_ok (S83 c s p)) by ok. split; [exact Hok|].
  assert (P1 : (bpow radix2 (-100) <= 1)%R) by (change 1%R with (bpow radix2 0); apply bpow_le; lia).
  assert (P2 : (16 <= bpow radix2 100)%R) by (replace 16%R with (bpow radix2 4) by (cbn; lra); apply bpow_le; lia).
  split; [|split].
  - intros z Hz. assert (E : 1 <= z <= 10) by (cbn in Hz; lia). destruct (ofZ_val c s p z ltac:(lia)) as [H1 H2]. split; [exact H1|]. rewrite H2.
    assert (1 <= IZR z <= 10)%R by (split; apply IZR_le; lia). rewrite Rabs_pos_eq; lra.
  - intros z Hz. assert (E : 1 <= z <= 10) by (cbn in Hz; lia). destruct (ofZ_val c s p z ltac:(lia)) as [H1 H2]. split; [exact H1|]. rewrite H2.
    assert (1 <= IZR z <= 10)%R by (split; apply IZR_le; lia). lra.
  - destruct (ready_any (S83 c s p) Hok (fun a ix => match a, ix with HCell St, [_; k] => @fofZ (SFA c s p) (7 + k) | _, _ => @fofZ (SFA c s p) 0 end)) as (m & Hr & Hm).
    exists m. split; [exact Hr|]. split; [intros k Hk; split; discriminate|]. intros k Hk. split; intros i Hi; rewrite Hm by reflexivity; [reflexivity|]. exists false. reflexivity.
Qed.

(** C83, tracers.  If moreover every cell of layer [k] holds the same amount [T l k] of tracer [l], it still does: the same bits, or a zero if [T l k] is a zero; with diffusion and hyperdiffusion. *)
Theorem C83_uniform_tracers_bit_for_bit :
  forall (cc ss : spec_float -> spec_float) (pp : spec_float) (S : setup (SFA cc ss pp)), setup_ok S ->
  let size (n : Z) (x : spec_float) := fin x /\ (Rabs (val x) <= bpow radix2 n)%R in
  let normal (x : spec_float) := fin x /\ (bpow radix2 (-100) <= val x <= bpow radix2 100)%R in
  normal (dc (mesh_of_setup S)) -> size 100 (f0 (par_of S)) -> size 100 (grav (par_of S)) ->
  size 100 (visc_del2 (par_of S)) -> size 100 (visc_del4 (par_of S)) -> size 100 (eddy_diff2 (par_of S)) -> size 100 (eddy_diff4 (par_of S)) ->
  hook S = None ->
  forall H : Z -> spec_float, (forall k, 0 <= k < d_nlayers (sdims S) -> normal (H k)) ->
  forall T : Z -> Z -> spec_float, (forall l k, 0 <= l < ntracers (par_of S) -> 0 <= k < d_nlayers (sdims S) -> size 100 (T l k)) ->
  forall steps : list (spec_float * spec_float), (forall x, In x steps -> size 200 (snd x)) ->
  let same (x y : spec_float) := x = y \/ exists a b, x = S754_zero a /\ y = S754_zero b in
  let at_rest (m : mem (SFA cc ss pp)) := forall k, 0 <= k < d_nlayers (sdims S) ->
    (forall c, 0 <= c < d_ncells (sdims S) -> mr m (HCell St) [c; k] = H k) /\
    (forall e, 0 <= e < d_nedges (sdims S) -> exists sign, mr m (VnEdge St) [e; k] = S754_zero sign) /\
    (forall l c, 0 <= l < ntracers (par_of S) -> 0 <= c < d_ncells (sdims S) -> same (mr m (TrCell St) [l; c; k]) (T l k)) in
  forall m : mem (SFA cc ss pp), ready S m -> at_rest m ->
  (disabled_zero S Tend m -> always (sdims S) (rk4_run S steps) m at_rest) /\
  (forall nstages, always (sdims S) (lsrk_ctor S ++ lsrk_run S nstages steps) m at_rest).
Proof. exact C83_uniform_tracers_bit_for_bit_proof. Qed.
Print Assumptions C83_uniform_tracers_bit_for_bit.

(** Non-vacuity: the setup of [C83_applies] has two tracers and both diffusions; amounts 7 and 0. *)
Example C83_tracers_apply c s p : tracer_diff_enabled (par_of (S83 c s p)) = true /\ tracer_hyperdiff_enabled (par_of (S83 c s p)) = true /\
  exists m, ready (S83 c s p) m /\ forall k, 0 <= k < d_nlayers (sdims (S83 c s p)) ->
    (forall i, 0 <= i < d_ncells (sdims (S83 c s p)) -> mr m (HCell St) [i; k] = @fofZ (SFA c s p) (7 + k)) /\
    (forall e, 0 <= e < d_nedges (sdims (S83 c s p)) -> exists sign, mr m (VnEdge St) [e; k] = S754_zero sign) /\
    (forall l i, 0 <= l < ntracers (par_of (S83 c s p)) -> 0 <= i < d_ncells (sdims (S83 c s p)) -> mr m (TrCell St) [l; i; k] = @fofZ (SFA c s p) (7 * l)).
Proof.
  assert (Hok : setup_ok (S83 c s p)) by ok. split; [reflexivity|]. split; [reflexivity|].
  destruct (ready_any (S83 c s p) Hok (fun a ix => match a, ix with HCell St, [_; k] => @fofZ (SFA c s p) (7 + k) | TrCell St, [l; _; _] => @fofZ (SFA c s p) (7 * l) | _, _ => @fofZ (SFA c s p) 0 end)) as (m & Hr & Hm).
  exists m. split; [exact Hr|]. intros k Hk. split; [|split]; intros; rewrite Hm by reflexivity; try reflexivity. exists false. reflexivity.
Qed.

