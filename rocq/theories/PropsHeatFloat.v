(** C100: tracer diffusion in binary64, compared with the diffusion equation.  [cc], [ss] and [pp] are the cosine, the sine and the number pi of the platform; nothing is assumed of them. *)
From Coq Require Import ZArith Reals List Bool Lia Lra.
From Coq Require Import Floats.SpecFloat.
From Flocq Require Import Core.Core.
From Verif Require Import Arith Arrays Prog Conc Launch Mesh AuxVars Tend Model Hex MeshProof MeshMem Over Formulas KernBase Terms KernAux KernTend TendFn StepFn Ready Rel RelRun Relate TendVal StepVal StepRun RSum FloatFacts Deriv Stencil Sample Waves Modes HeatSpec HeatFloatThms HeatLsrkThms PropsHeat.
Import ListNotations.
Open Scope Z_scope.

(** C100.  Run the program in binary64 with the classical method, fluid at rest, in every layer the same thickness in every cell, diffusion the only tracer term switched on, and a fixed time step with [4 kappa dt <= dc^2].  Let [D] be any periodic solution of the diffusion equation with derivatives bounded by [M].  If the tracer of one layer starts within [e0] of the solution at the cell centres and is at most [B / 2], then after [N] steps, in every schedule, every value is finite and differs from the solution at time [N dt] by at most [e0 + kappa N dt M 57 dc^2 + N 850 2^-53 B]: the error of the first values, the error of the method (C98), and at most 850 roundings of the largest value per step.  [N] may be as large as [2^53 / 1700], about five million million.  The centre of cell [c] is given by its row [c / nx] and its column [c mod nx]. *)
Theorem C100_binary64_diffusion :
  forall (cc ss : spec_float -> spec_float) (pp : spec_float) (S : setup (SFA cc ss pp)), setup_ok S ->
  let size (n : Z) (x : spec_float) := fin x /\ (Rabs (val x) <= bpow radix2 n)%R in
  let normal (x : spec_float) := fin x /\ (bpow radix2 (-100) <= val x <= bpow radix2 100)%R in
  let h := mesh_of_setup S in let d := val (dc h) in let kappa := val (eddy_diff2 (par_of S)) in
  2 <= nx h -> Z.even (ny h) = true -> normal (dc h) -> size 100 (f0 (par_of S)) -> size 100 (grav (par_of S)) ->
  size 100 (visc_del2 (par_of S)) -> size 100 (visc_del4 (par_of S)) -> normal (eddy_diff2 (par_of S)) ->
  fin (eddy_diff4 (par_of S)) -> (val (eddy_diff4 (par_of S)) <= 0)%R -> hook S = None ->
  forall H : Z -> spec_float, (forall k, 0 <= k < d_nlayers (sdims S) -> normal (H k)) ->
  forall (Te M : R) (D : R -> nat -> nat -> fn2), heat kappa Te M D ->
  (forall t, (0 <= t <= Te)%R -> periodic (IZR (nx h) * d) (IZR (ny h) * d * sqrt 3 / 2) (D t 0%nat 0%nat)) ->
  let xc (c : Z) := (d * (IZR (c mod nx h) + if Z.even (c / nx h) then 1 / 2 else 1))%R in
  let yc (c : Z) := (d * IZR (c / nx h + 1) * sqrt 3 / 2)%R in
  forall dt : spec_float, size 200 dt -> (0 <= val dt)%R -> (4 * kappa * val dt <= d * d)%R ->
  forall steps : list (spec_float * spec_float), (forall x, In x steps -> snd x = dt) -> let N := INR (length steps) in
  (N * val dt <= Te)%R -> (N * (1700 * bpow radix2 (-53)) <= 1)%R ->
  forall m : mem (SFA cc ss pp), ready S m -> disabled_zero S Tend m ->
  (forall k, 0 <= k < d_nlayers (sdims S) -> (forall c, 0 <= c < d_ncells (sdims S) -> mr m (HCell St) [c; k] = H k) /\
    (forall e, 0 <= e < d_nedges (sdims S) -> exists sign, mr m (VnEdge St) [e; k] = S754_zero sign)) ->
  forall l k, 0 <= l < ntracers (par_of S) -> 0 <= k < d_nlayers (sdims S) ->
  forall B e0 : R, (bpow radix2 (-100) <= B <= bpow radix2 100)%R ->
  (forall c, 0 <= c < d_ncells (sdims S) -> let x := mr m (TrCell St) [l; c; k] in
    fin x /\ (Rabs (val x) <= B / 2)%R /\ (Rabs (val x - D 0 0%nat 0%nat (xc c) (yc c)) <= e0)%R) ->
  always (sdims S) (rk4_run S steps) m (fun m' => forall c, 0 <= c < d_ncells (sdims S) -> let x := mr m' (TrCell St) [l; c; k] in
    fin x /\ (Rabs (val x - D (N * val dt)%R 0%nat 0%nat (xc c) (yc c)) <= e0 + kappa * (N * val dt) * M * (57 * d ^ 2) + N * (850 * bpow radix2 (-53) * B))%R).
Proof. exact C100_binary64_diffusion_proof. Qed.
Print Assumptions C100_binary64_diffusion.

(** C100, five-stage low storage method: the stepper is constructed and then makes [N] steps.  The same bound holds with at most 8700 roundings per step in place of 850, and the term [8 / 10^25] accounts for the coefficients of the method, which satisfy its order conditions only to 25 digits. *)
Theorem C100_binary64_diffusion_lsrk5 :
  forall (cc ss : spec_float -> spec_float) (pp : spec_float) (S : setup (SFA cc ss pp)), setup_ok S ->
  let size (n : Z) (x : spec_float) := fin x /\ (Rabs (val x) <= bpow radix2 n)%R in
  let normal (x : spec_float) := fin x /\ (bpow radix2 (-100) <= val x <= bpow radix2 100)%R in
  let h := mesh_of_setup S in let d := val (dc h) in let kappa := val (eddy_diff2 (par_of S)) in
  2 <= nx h -> Z.even (ny h) = true -> normal (dc h) -> size 100 (f0 (par_of S)) -> size 100 (grav (par_of S)) ->
  size 100 (visc_del2 (par_of S)) -> size 100 (visc_del4 (par_of S)) -> normal (eddy_diff2 (par_of S)) ->
  fin (eddy_diff4 (par_of S)) -> (val (eddy_diff4 (par_of S)) <= 0)%R -> hook S = None ->
  forall H : Z -> spec_float, (forall k, 0 <= k < d_nlayers (sdims S) -> normal (H k)) ->
  forall (Te M : R) (D : R -> nat -> nat -> fn2), heat kappa Te M D ->
  (forall t, (0 <= t <= Te)%R -> periodic (IZR (nx h) * d) (IZR (ny h) * d * sqrt 3 / 2) (D t 0%nat 0%nat)) ->
  let xc (c : Z) := (d * (IZR (c mod nx h) + if Z.even (c / nx h) then 1 / 2 else 1))%R in
  let yc (c : Z) := (d * IZR (c / nx h + 1) * sqrt 3 / 2)%R in
  forall dt : spec_float, size 200 dt -> (0 <= val dt)%R -> (4 * kappa * val dt <= d * d)%R ->
  forall steps : list (spec_float * spec_float), (forall x, In x steps -> snd x = dt) -> let N := INR (length steps) in
  (N * val dt <= Te)%R -> (N * (17400 * bpow radix2 (-53)) <= 1)%R ->
  forall m : mem (SFA cc ss pp), ready S m ->
  (forall k, 0 <= k < d_nlayers (sdims S) -> (forall c, 0 <= c < d_ncells (sdims S) -> mr m (HCell St) [c; k] = H k) /\
    (forall e, 0 <= e < d_nedges (sdims S) -> exists sign, mr m (VnEdge St) [e; k] = S754_zero sign)) ->
  forall l k, 0 <= l < ntracers (par_of S) -> 0 <= k < d_nlayers (sdims S) ->
  forall B e0 : R, (bpow radix2 (-100) <= B <= bpow radix2 100)%R ->
  (forall c, 0 <= c < d_ncells (sdims S) -> let x := mr m (TrCell St) [l; c; k] in
    fin x /\ (Rabs (val x) <= B / 2)%R /\ (Rabs (val x - D 0 0%nat 0%nat (xc c) (yc c)) <= e0)%R) ->
  always (sdims S) (lsrk_ctor S ++ lsrk_run S 5 steps) m (fun m' => forall c, 0 <= c < d_ncells (sdims S) -> let x := mr m' (TrCell St) [l; c; k] in
    fin x /\ (Rabs (val x - D (N * val dt)%R 0%nat 0%nat (xc c) (yc c)) <= e0 + kappa * (N * val dt) * M * (57 * d ^ 2 + 8 / 10 ^ 25) + N * (8700 * bpow radix2 (-53) * B))%R).
Proof. exact C100_binary64_diffusion_lsrk5_proof. Qed.
Print Assumptions C100_binary64_diffusion_lsrk5.

(** Non-vacuity: 4 by 6 cells of width 2 with three layers, rotation, gravity and viscosity on, diffusivity 1, time step 1/2; the tracer starts as 2^20 cos (pi x / 4) cos (pi y / (3 sqrt 3)) rounded down to a whole number, and after 20 steps differs from the decayed wave by at most the bound of the theorem with [e0 = 1] and [B = 2^22]. *)
Lemma heat_scale a0 kappa Te M (D : R -> nat -> nat -> fn2) : (0 <= a0)%R -> heat kappa Te M D -> heat kappa Te (a0 * M) (fun t i j x y => a0 * D t i j x y)%R.
Proof.
  intros Ha HD t Ht. destruct (HD t Ht) as (H1 & H2 & H3). split; [|split].
  - intros i j Hij. destruct (H1 i j Hij) as [X1 X2]. split; intros x y; apply D_cmult; [apply X1|apply X2].
  - intros i j x y Hij. rewrite Rabs_mult, (Rabs_pos_eq a0) by exact Ha. apply Rmult_le_compat_l; [exact Ha|now apply H2].
  - intros x y. destruct (H3 x y) as [X1 X2]. split.
    + eapply D_eq; [apply D_cmult, X1|ring].
    + eapply D_ext; [intros s; symmetry; apply Rmult_plus_distr_l|]. eapply D_eq; [apply D_cmult, X2|ring].
Qed.
Definition S100 (c s : spec_float -> spec_float) (p : spec_float) : setup (SFA c s p) :=
  mkSetup (mkConfig false true false 8) (mkHex (A:=SFA c s p) 4 6 (@fofZ (SFA c s p) 2) 3)
    (mkParams (A:=SFA c s p) (@fofZ (SFA c s p) 1) (@fofZ (SFA c s p) 10) (@fofZ (SFA c s p) 0) (@fofZ (SFA c s p) 1) (@fofZ (SFA c s p) 0)
       (@fofZ (SFA c s p) 1) (@fofZ (SFA c s p) 0) 2 false false) None.
Definition xc100 (c : Z) : R := (2 * (IZR (c mod 4) + if Z.even (c / 4) then 1 / 2 else 1))%R.
Definition yc100 (c : Z) : R := (2 * IZR (c / 4 + 1) * sqrt 3 / 2)%R.
Definition wave100 (x y : R) : R := (1048576 * (cos (PI / 4 * x) * cos (PI / (3 * sqrt 3) * y)))%R.
Definition half64 : spec_float := S754_finite false 4503599627370496 (-53).
Definition m100 (c s : spec_float -> spec_float) (p : spec_float) (a : rarr) (ix : list Z) : F (SFA c s p) :=
  match a, ix with
  | HCell St, _ => @fofZ (SFA c s p) 5
  | TrCell St, [_; i; _] => @fofZ (SFA c s p) (Zfloor (wave100 (xc100 i) (yc100 i)))
  | _, _ => @fofZ (SFA c s p) 0
  end.
Example C100_applies cc ss pp : setup_ok (S100 cc ss pp) /\ exists M D m, heat 1 10 M D /\ ready (S100 cc ss pp) m /\
  (forall t x y, D t 0%nat 0%nat x y = exp (- ((PI / 4) ^ 2 + (PI / (3 * sqrt 3)) ^ 2) * t) * wave100 x y)%R /\
  (forall l c k, mr m (TrCell St) [l; c; k] = @fofZ (SFA cc ss pp) (Zfloor (wave100 (xc100 c) (yc100 c)))) /\
  always (sdims (S100 cc ss pp)) (rk4_run (S100 cc ss pp) (repeat (@fofZ (SFA cc ss pp) 0, half64) 20)) m (fun m' => forall c, 0 <= c < 24 ->
    fin (mr m' (TrCell St) [1%Z; c; 2%Z]) /\ (Rabs (val (mr m' (TrCell St) [1%Z; c; 2%Z]) - D 10 0%nat 0%nat (xc100 c) (yc100 c)) <= 1 + 1 * 10 * M * (57 * 2 ^ 2) + 20 * (850 * bpow radix2 (-53) * 4194304))%R).
Proof.
  assert (Hok : setup_ok (S100 cc ss pp)) by (repeat split; unfold INT_MAX, zceil, vector_length; cbn; try lia; try discriminate). split; [exact Hok|].
  destruct (ready_any (S100 cc ss pp) Hok (m100 cc ss pp)) as (m & Hr & Hm).
  set (a := (PI / 4)%R). set (b := (PI / (3 * sqrt 3))%R).
  pose proof (heat_scale 1048576 _ _ _ _ ltac:(lra) (C98_wave 1 a b 10 ltac:(lra))) as HW.
  match type of HW with heat _ _ ?M0 ?D0 => exists M0, D0, m; set (MM := M0) in *; set (DD := D0) in * end.
  assert (ED : forall t x y, DD t 0%nat 0%nat x y = (exp (- (a ^ 2 + b ^ 2) * t) * wave100 x y)%R).
  { intros t x y. unfold DD, wave100. fold a b. cbn [pow INR]. replace (a * x + 0 * (PI / 2))%R with (a * x)%R by ring. replace (b * y + 0 * (PI / 2))%R with (b * y)%R by ring.
    replace (- (1 * (a * a + b * b)) * t)%R with (- (a * (a * 1) + b * (b * 1)) * t)%R by ring. ring. }
  split; [exact HW|]. split; [exact Hr|]. split; [exact ED|]. split; [intros l c k; rewrite Hm by reflexivity; reflexivity|].
  assert (V : forall z, Z.abs z < 2 ^ 53 -> fin (@fofZ (SFA cc ss pp) z) /\ val (@fofZ (SFA cc ss pp) z) = IZR z) by (intros; now apply ofZ_val).
  assert (Pl : (bpow radix2 (-100) <= / 1024)%R) by (replace (/ 1024)%R with (bpow radix2 (-10)) by (cbn; lra); apply bpow_le; lia).
  assert (Ph : forall n, 100 <= n -> (8388608 <= bpow radix2 n)%R) by (intros n Hn; replace 8388608%R with (bpow radix2 23) by (cbn; lra); apply bpow_le; lia).
  pose proof (Ph 100 ltac:(lia)) as P1. pose proof (Ph 200 ltac:(lia)) as P2.
  assert (Nm : forall z, 1 <= z < 1000 -> fin (@fofZ (SFA cc ss pp) z) /\ (bpow radix2 (-100) <= val (@fofZ (SFA cc ss pp) z) <= bpow radix2 100)%R).
  { intros z Hz. destruct (V z ltac:(lia)) as [V1 ->]. split; [exact V1|]. assert (1 <= IZR z <= 1000)%R by (split; apply IZR_le; lia). lra. }
  assert (Sz : forall z, 0 <= z < 1000 -> fin (@fofZ (SFA cc ss pp) z) /\ (Rabs (val (@fofZ (SFA cc ss pp) z)) <= bpow radix2 100)%R).
  { intros z Hz. destruct (V z ltac:(lia)) as [V1 ->]. split; [exact V1|]. assert (0 <= IZR z <= 1000)%R by (split; apply IZR_le; lia). rewrite Rabs_pos_eq; lra. }
  assert (Vh : val half64 = (/ 2)%R) by (unfold val, half64; cbn; unfold Defs.F2R; cbn; lra). assert (Fh : fin half64) by (split; reflexivity).
  assert (V1 : val (@fofZ (SFA cc ss pp) 1) = 1%R) by now apply V. assert (V2 : val (@fofZ (SFA cc ss pp) 2) = 2%R) by now apply V.
  assert (Wb : forall x y, (Rabs (wave100 x y) <= 1048576)%R).
  { intros x y. unfold wave100. rewrite Rabs_mult, (Rabs_pos_eq 1048576) by lra. pose proof (COS_bound (PI / 4 * x)). pose proof (COS_bound (PI / (3 * sqrt 3) * y)).
    assert (Rabs (cos (PI / 4 * x) * cos (PI / (3 * sqrt 3) * y)) <= 1 * 1)%R by (rewrite Rabs_mult; apply Rmult_le_compat; try apply Rabs_pos; split_Rabs; lra). lra. }
  assert (Ds : forall x, In x (repeat (@fofZ (SFA cc ss pp) 0, half64) 20) -> snd x = half64) by (intros x Hx; apply repeat_spec in Hx; now subst x).
  set (steps := @repeat (spec_float * spec_float) (@fofZ (SFA cc ss pp) 0, half64) 20).
  assert (N20 : INR (@length (spec_float * spec_float) steps) = 20%R) by (cbn; lra).
  pose proof (C100_binary64_diffusion cc ss pp (S100 cc ss pp) Hok ltac:(cbn; lia) eq_refl (Nm 2 ltac:(lia)) (Sz 1 ltac:(lia)) (Sz 10 ltac:(lia)) (Sz 1 ltac:(lia)) (Sz 0 ltac:(lia)) (Nm 1 ltac:(lia))
    (proj1 (Sz 0 ltac:(lia)))) as G.
  change (dc (mesh_of_setup (S100 cc ss pp))) with (@fofZ (SFA cc ss pp) 2) in G. change (eddy_diff2 (par_of (S100 cc ss pp))) with (@fofZ (SFA cc ss pp) 1) in G.
  change (eddy_diff4 (par_of (S100 cc ss pp))) with (@fofZ (SFA cc ss pp) 0) in G. cbv zeta in G. rewrite V1, V2 in G. rewrite (proj2 (V 0 ltac:(lia))) in G.
  specialize (G (Rle_refl 0) eq_refl (fun _ => @fofZ (SFA cc ss pp) 5) (fun _ _ => Nm 5 ltac:(lia)) 10%R MM DD HW).
  assert (s3 : (0 < sqrt 3)%R) by (apply sqrt_lt_R0; lra).
  assert (Pe : forall t, (0 <= t <= 10)%R -> periodic (IZR 4 * 2) (IZR 6 * 2 * sqrt 3 / 2) (DD t 0%nat 0%nat)).
  { intros t _ x y. rewrite !ED. unfold wave100. split; f_equal; f_equal; f_equal.
    - rewrite <- (cos_Z (PI / 4 * x) 1). f_equal. field.
    - rewrite <- (cos_Z (PI / (3 * sqrt 3) * y) 1). f_equal. field. lra. }
  assert (Bh : fin half64 /\ (Rabs (val half64) <= bpow radix2 200)%R) by (split; [exact Fh|rewrite Vh, Rabs_pos_eq by lra; lra]).
  specialize (G Pe half64 Bh ltac:(rewrite Vh; lra) ltac:(rewrite Vh; lra) steps Ds).
  rewrite N20, Vh in G.
  assert (e3 : (bpow radix2 (-53) <= / 1048576)%R) by (replace (/ 1048576)%R with (bpow radix2 (-20)) by (cbn; lra); apply bpow_le; lia).
  specialize (G ltac:(lra) ltac:(lra) m Hr).
  assert (G' := G ltac:(intros k Hk; split; intros Ed; discriminate Ed)). clear G.
  assert (G2 := G' ltac:(intros k Hk; split; [intros c Hc; rewrite Hm by reflexivity; reflexivity|intros e He; rewrite Hm by reflexivity; now exists false]) 1 2 ltac:(cbn; lia) ltac:(cbn; lia) 4194304%R 1%R ltac:(lra)). clear G'.
  assert (I0 : forall c, 0 <= c < d_ncells (sdims (S100 cc ss pp)) -> fin (mr m (TrCell St) [1%Z; c; 2%Z]) /\ (Rabs (val (mr m (TrCell St) [1%Z; c; 2%Z])) <= 4194304 / 2)%R /\
    (Rabs (val (mr m (TrCell St) [1%Z; c; 2%Z]) - DD 0 0%nat 0%nat (xc100 c) (yc100 c)) <= 1)%R).
  { intros c Hc. rewrite Hm by reflexivity. cbn [m100]. set (w := wave100 (xc100 c) (yc100 c)). pose proof (Wb (xc100 c) (yc100 c)) as Wc. fold w in Wc.
    pose proof (Zfloor_lb w) as F1. pose proof (Zfloor_ub w) as F2. assert (Fz : Z.abs (Zfloor w) < 2 ^ 53).
    { assert (-1048578 < Zfloor w < 1048578) by (split; apply lt_IZR; clear - Wc F1 F2; split_Rabs; lra). lia. }
    destruct (V _ Fz) as [X1 ->]. split; [exact X1|]. rewrite ED, Rmult_0_r, exp_0, Rmult_1_l. fold w. clear - Wc F1 F2. split; split_Rabs; lra. }
  specialize (G2 I0). replace (20 * / 2)%R with 10%R in G2 by field. exact G2.
Qed.
(** The same run with the low storage method. *)
Example C100_lsrk5_applies cc ss pp : setup_ok (S100 cc ss pp) /\ exists M D m, heat 1 10 M D /\ ready (S100 cc ss pp) m /\
  (forall t x y, D t 0%nat 0%nat x y = exp (- ((PI / 4) ^ 2 + (PI / (3 * sqrt 3)) ^ 2) * t) * wave100 x y)%R /\
  (forall l c k, mr m (TrCell St) [l; c; k] = @fofZ (SFA cc ss pp) (Zfloor (wave100 (xc100 c) (yc100 c)))) /\
  always (sdims (S100 cc ss pp)) (lsrk_ctor (S100 cc ss pp) ++ lsrk_run (S100 cc ss pp) 5 (repeat (@fofZ (SFA cc ss pp) 0, half64) 20)) m (fun m' => forall c, 0 <= c < 24 ->
    fin (mr m' (TrCell St) [1%Z; c; 2%Z]) /\ (Rabs (val (mr m' (TrCell St) [1%Z; c; 2%Z]) - D 10 0%nat 0%nat (xc100 c) (yc100 c)) <= 1 + 1 * 10 * M * (57 * 2 ^ 2 + 8 / 10 ^ 25) + 20 * (8700 * bpow radix2 (-53) * 4194304))%R).
Proof.
  assert (Hok : setup_ok (S100 cc ss pp)) by (repeat split; unfold INT_MAX, zceil, vector_length; cbn; try lia; try discriminate). split; [exact Hok|].
  destruct (ready_any (S100 cc ss pp) Hok (m100 cc ss pp)) as (m & Hr & Hm).
  set (a := (PI / 4)%R). set (b := (PI / (3 * sqrt 3))%R).
  pose proof (heat_scale 1048576 _ _ _ _ ltac:(lra) (C98_wave 1 a b 10 ltac:(lra))) as HW.
  match type of HW with heat _ _ ?M0 ?D0 => exists M0, D0, m; set (MM := M0) in *; set (DD := D0) in * end.
  assert (ED : forall t x y, DD t 0%nat 0%nat x y = (exp (- (a ^ 2 + b ^ 2) * t) * wave100 x y)%R).
  { intros t x y. unfold DD, wave100. fold a b. cbn [pow INR]. replace (a * x + 0 * (PI / 2))%R with (a * x)%R by ring. replace (b * y + 0 * (PI / 2))%R with (b * y)%R by ring.
    replace (- (1 * (a * a + b * b)) * t)%R with (- (a * (a * 1) + b * (b * 1)) * t)%R by ring. ring. }
  split; [exact HW|]. split; [exact Hr|]. split; [exact ED|]. split; [intros l c k; rewrite Hm by reflexivity; reflexivity|].
  assert (V : forall z, Z.abs z < 2 ^ 53 -> fin (@fofZ (SFA cc ss pp) z) /\ val (@fofZ (SFA cc ss pp) z) = IZR z) by (intros; now apply ofZ_val).
  assert (Pl : (bpow radix2 (-100) <= / 1024)%R) by (replace (/ 1024)%R with (bpow radix2 (-10)) by (cbn; lra); apply bpow_le; lia).
  assert (Ph : forall n, 100 <= n -> (8388608 <= bpow radix2 n)%R) by (intros n Hn; replace 8388608%R with (bpow radix2 23) by (cbn; lra); apply bpow_le; lia).
  pose proof (Ph 100 ltac:(lia)) as P1. pose proof (Ph 200 ltac:(lia)) as P2.
  assert (Nm : forall z, 1 <= z < 1000 -> fin (@fofZ (SFA cc ss pp) z) /\ (bpow radix2 (-100) <= val (@fofZ (SFA cc ss pp) z) <= bpow radix2 100)%R).
  { intros z Hz. destruct (V z ltac:(lia)) as [V1 ->]. split; [exact V1|]. assert (1 <= IZR z <= 1000)%R by (split; apply IZR_le; lia). lra. }
  assert (Sz : forall z, 0 <= z < 1000 -> fin (@fofZ (SFA cc ss pp) z) /\ (Rabs (val (@fofZ (SFA cc ss pp) z)) <= bpow radix2 100)%R).
  { intros z Hz. destruct (V z ltac:(lia)) as [V1 ->]. split; [exact V1|]. assert (0 <= IZR z <= 1000)%R by (split; apply IZR_le; lia). rewrite Rabs_pos_eq; lra. }
  assert (Vh : val half64 = (/ 2)%R) by (unfold val, half64; cbn; unfold Defs.F2R; cbn; lra). assert (Fh : fin half64) by (split; reflexivity).
  assert (V1 : val (@fofZ (SFA cc ss pp) 1) = 1%R) by now apply V. assert (V2 : val (@fofZ (SFA cc ss pp) 2) = 2%R) by now apply V.
  assert (Wb : forall x y, (Rabs (wave100 x y) <= 1048576)%R).
  { intros x y. unfold wave100. rewrite Rabs_mult, (Rabs_pos_eq 1048576) by lra. pose proof (COS_bound (PI / 4 * x)). pose proof (COS_bound (PI / (3 * sqrt 3) * y)).
    assert (Rabs (cos (PI / 4 * x) * cos (PI / (3 * sqrt 3) * y)) <= 1 * 1)%R by (rewrite Rabs_mult; apply Rmult_le_compat; try apply Rabs_pos; split_Rabs; lra). lra. }
  assert (Ds : forall x, In x (repeat (@fofZ (SFA cc ss pp) 0, half64) 20) -> snd x = half64) by (intros x Hx; apply repeat_spec in Hx; now subst x).
  set (steps := @repeat (spec_float * spec_float) (@fofZ (SFA cc ss pp) 0, half64) 20).
  assert (N20 : INR (@length (spec_float * spec_float) steps) = 20%R) by (cbn; lra).
  pose proof (C100_binary64_diffusion_lsrk5 cc ss pp (S100 cc ss pp) Hok ltac:(cbn; lia) eq_refl (Nm 2 ltac:(lia)) (Sz 1 ltac:(lia)) (Sz 10 ltac:(lia)) (Sz 1 ltac:(lia)) (Sz 0 ltac:(lia)) (Nm 1 ltac:(lia))
    (proj1 (Sz 0 ltac:(lia)))) as G.
  change (dc (mesh_of_setup (S100 cc ss pp))) with (@fofZ (SFA cc ss pp) 2) in G. change (eddy_diff2 (par_of (S100 cc ss pp))) with (@fofZ (SFA cc ss pp) 1) in G.
  change (eddy_diff4 (par_of (S100 cc ss pp))) with (@fofZ (SFA cc ss pp) 0) in G. cbv zeta in G. rewrite V1, V2 in G. rewrite (proj2 (V 0 ltac:(lia))) in G.
  specialize (G (Rle_refl 0) eq_refl (fun _ => @fofZ (SFA cc ss pp) 5) (fun _ _ => Nm 5 ltac:(lia)) 10%R MM DD HW).
  assert (s3 : (0 < sqrt 3)%R) by (apply sqrt_lt_R0; lra).
  assert (Pe : forall t, (0 <= t <= 10)%R -> periodic (IZR 4 * 2) (IZR 6 * 2 * sqrt 3 / 2) (DD t 0%nat 0%nat)).
  { intros t _ x y. rewrite !ED. unfold wave100. split; f_equal; f_equal; f_equal.
    - rewrite <- (cos_Z (PI / 4 * x) 1). f_equal. field.
    - rewrite <- (cos_Z (PI / (3 * sqrt 3) * y) 1). f_equal. field. lra. }
  assert (Bh : fin half64 /\ (Rabs (val half64) <= bpow radix2 200)%R) by (split; [exact Fh|rewrite Vh, Rabs_pos_eq by lra; lra]).
  specialize (G Pe half64 Bh ltac:(rewrite Vh; lra) ltac:(rewrite Vh; lra) steps Ds).
  rewrite N20, Vh in G.
  assert (e3 : (bpow radix2 (-53) <= / 1048576)%R) by (replace (/ 1048576)%R with (bpow radix2 (-20)) by (cbn; lra); apply bpow_le; lia).
  specialize (G ltac:(lra) ltac:(lra) m Hr).
  assert (G2 := G ltac:(intros k Hk; split; [intros c Hc; rewrite Hm by reflexivity; reflexivity|intros e He; rewrite Hm by reflexivity; now exists false]) 1 2 ltac:(cbn; lia) ltac:(cbn; lia) 4194304%R 1%R ltac:(lra)). clear G.
  assert (I0 : forall c, 0 <= c < d_ncells (sdims (S100 cc ss pp)) -> fin (mr m (TrCell St) [1%Z; c; 2%Z]) /\ (Rabs (val (mr m (TrCell St) [1%Z; c; 2%Z])) <= 4194304 / 2)%R /\
    (Rabs (val (mr m (TrCell St) [1%Z; c; 2%Z]) - DD 0 0%nat 0%nat (xc100 c) (yc100 c)) <= 1)%R).
  { intros c Hc. rewrite Hm by reflexivity. cbn [m100]. set (w := wave100 (xc100 c) (yc100 c)). pose proof (Wb (xc100 c) (yc100 c)) as Wc. fold w in Wc.
    pose proof (Zfloor_lb w) as F1. pose proof (Zfloor_ub w) as F2. assert (Fz : Z.abs (Zfloor w) < 2 ^ 53).
    { assert (-1048578 < Zfloor w < 1048578) by (split; apply lt_IZR; clear - Wc F1 F2; split_Rabs; lra). lia. }
    destruct (V _ Fz) as [X1 ->]. split; [exact X1|]. rewrite ED, Rmult_0_r, exp_0, Rmult_1_l. fold w. clear - Wc F1 F2. split; split_Rabs; lra. }
  specialize (G2 I0). replace (20 * / 2)%R with 10%R in G2 by field. exact G2.
Qed.
