(** Properties C22, C23, C39 - C45 and C47: the tendency modes and the time steppers. *)
From Coq Require Import ZArith Reals List Bool Lia Lra SpecFloat.
From Verif Require Import Arith Arrays Prog Conc Mesh Tend Model MeshProof Ready Relate StepVal Tableau StepThms.
Import ListNotations.
Open Scope Z_scope.

(** C22, replace mode, in any arithmetic.  [s] is the state passed in, [t] the tendency object. *)
Theorem C22_replace_forgets :
  forall (A : Arith) (S : setup A), setup_ok S -> 
  forall (t s : sid) (time : F A) (m1 m2 m1' m2' : mem A), s <> t -> ready S m1 -> ready S m2 ->
  state_eq S (fun k => 0 <= k < d_nlayers (sdims S)) s m1 m2 ->
  exec (sdims S) (compute_tendency S t s time Replace) m1 (OK m1') ->
  exec (sdims S) (compute_tendency S t s time Replace) m2 (OK m2') ->
  forall k, 0 <= k < d_nlayers (sdims S) ->
  (disable_h (par_of S) = false -> forall c, 0 <= c < d_ncells (sdims S) -> mr m1' (HCell t) [c; k] = mr m2' (HCell t) [c; k]) /\
  (disable_vn (par_of S) = false -> forall e, 0 <= e < d_nedges (sdims S) -> mr m1' (VnEdge t) [e; k] = mr m2' (VnEdge t) [e; k]) /\
  (forall l c, 0 <= l < ntracers (par_of S) -> 0 <= c < d_ncells (sdims S) -> mr m1' (TrCell t) [l; c; k] = mr m2' (TrCell t) [l; c; k]).
Proof. exact C22_replace_forgets_proof. Qed.
Print Assumptions C22_replace_forgets.

(** C22, increment mode, over the reals: the result is the previous content plus the result of replace mode (from whatever previous content [m2] has). *)
Theorem C22_increment_adds :
  forall (S : setup RA), setup_ok S ->
  forall (t s : sid) (time : R) (m1 m2 m1' m2' : mem RA), s <> t -> ready S m1 -> ready S m2 ->
  state_eq S (fun k => 0 <= k < d_nlayers (sdims S)) s m1 m2 ->
  exec (sdims S) (compute_tendency S t s time Increment) m1 (OK m1') ->
  exec (sdims S) (compute_tendency S t s time Replace) m2 (OK m2') ->
  forall k, 0 <= k < d_nlayers (sdims S) ->
  (disable_h (par_of S) = false -> forall c, 0 <= c < d_ncells (sdims S) ->
     mr m1' (HCell t) [c; k] = (mr m1 (HCell t) [c; k] + mr m2' (HCell t) [c; k])%R) /\
  (disable_vn (par_of S) = false -> forall e, 0 <= e < d_nedges (sdims S) ->
     mr m1' (VnEdge t) [e; k] = (mr m1 (VnEdge t) [e; k] + mr m2' (VnEdge t) [e; k])%R) /\
  (forall l c, 0 <= l < ntracers (par_of S) -> 0 <= c < d_ncells (sdims S) ->
     mr m1' (TrCell t) [l; c; k] = (mr m1 (TrCell t) [l; c; k] + mr m2' (TrCell t) [l; c; k])%R).
Proof. exact C22_increment_adds_proof. Qed.
Print Assumptions C22_increment_adds.

(** Non-vacuity: [ready_any] provides memories with any contents of the states and tendencies; [ex22] has both
    tendencies enabled, a tracer and all optional terms. *)
Definition P22 : params RA := mkParams (A:=RA) (IZR 1) (IZR 10) (IZR 0) (IZR 1) (IZR 1) (IZR 1) (IZR 1) 1 false false.
Definition S22 : setup RA := mkSetup (mkConfig false false false 8) (mkHex (A:=RA) 4 6 (IZR 1) 3) P22 None.
Ltac ok := repeat split; unfold INT_MAX, zceil, vector_length; cbn; try lia; try discriminate.
Example ok22 : setup_ok S22.
Proof. ok. Qed.
Example ex22 (f g : rarr -> list Z -> R) : (forall ix, f (HCell St) ix = g (HCell St) ix /\ f (VnEdge St) ix = g (VnEdge St) ix /\ f (TrCell St) ix = g (TrCell St) ix) ->
  exists m1 m2 m1' m2', ready S22 m1 /\ ready S22 m2 /\ state_eq S22 (fun k => 0 <= k < d_nlayers (sdims S22)) St m1 m2 /\
  (forall ix, mr m1 (HCell Tend) ix = f (HCell Tend) ix /\ mr m2 (HCell Tend) ix = g (HCell Tend) ix) /\
  exec (sdims S22) (compute_tendency S22 Tend St (IZR 0) Replace) m1 (OK m1') /\
  exec (sdims S22) (compute_tendency S22 Tend St (IZR 0) Replace) m2 (OK m2').
Proof.
  intros E. destruct (ready_any S22 ok22 f) as (m1 & R1 & E1), (ready_any S22 ok22 g) as (m2 & R2 & E2).
  destruct (tendency_runs S22 ok22 Tend St (IZR 0) Replace m1) as [m1' X1]; [discriminate|exact R1|].
  destruct (tendency_runs S22 ok22 Tend St (IZR 0) Replace m2) as [m2' X2]; [discriminate|exact R2|].
  exists m1, m2, m1', m2'. repeat split; auto; try (rewrite E1 || rewrite E2; reflexivity); intros; rewrite E1, E2 by reflexivity; apply E.
Qed.

(** C23, first part, in any arithmetic: a disabled component keeps its previous content in replace mode, plus the additional tendency if there is one. *)
Theorem C23_disabled_tendency_not_reset :
  forall (A : Arith) (S : setup A), setup_ok S -> 
  forall (t s : sid) (time : F A) (md : add_mode) (m : mem A), s <> t -> ready S m ->
  always (sdims S) (compute_tendency S t s time md) m (fun m' => forall k, 0 <= k < d_nlayers (sdims S) ->
  (disable_h (par_of S) = true -> forall c, 0 <= c < d_ncells (sdims S) -> mr m' (HCell t) [c; k] =
     match hook S with
     | None => mr m (HCell t) [c; k]
     | Some f => mr m (HCell t) [c; k] + force_h f (mr m XCell [c]) (mr m YCell [c]) time
     end)%fp /\
  (disable_vn (par_of S) = true -> forall e, 0 <= e < d_nedges (sdims S) -> mr m' (VnEdge t) [e; k] =
     match hook S with
     | None => mr m (VnEdge t) [e; k]
     | Some f => mr m (VnEdge t) [e; k] +
         (fcos (mr m AngleEdge [e]) * force_vx f (mr m XEdge [e]) (mr m YEdge [e]) time +
          fsin (mr m AngleEdge [e]) * force_vy f (mr m XEdge [e]) (mr m YEdge [e]) time)
     end)%fp).
Proof. exact C23_disabled_tendency_not_reset_proof. Qed.
Print Assumptions C23_disabled_tendency_not_reset.

(** C23, second part, over the reals: with the thickness tendency disabled and a constant thickness forcing [f], an RK4 step from a tendency object holding [p] advances the thickness by [dt * (p + 5/2 f)] and leaves [p + 4 f] in the tendency object; so not by [dt * f], in the first step of a new stepper ([p = 0]). *)
Theorem C23_disabled_forcing_accumulates :
  forall (S : setup RA) (f : R) (fvx fvy : R -> R -> R -> R), setup_ok S ->
  disable_h (par_of S) = true -> hook S = Some (mkForcing RA (fun _ _ _ => f) fvx fvy) ->
  forall (t dt : R) (m : mem RA), ready S m ->
  always (sdims S) (rk4_step S t dt) m (fun m' => forall k c, 0 <= k < d_nlayers (sdims S) -> 0 <= c < d_ncells (sdims S) ->
    let h := mr m (HCell St) [c; k] in let h' := mr m' (HCell St) [c; k] in
    let p := mr m (HCell Tend) [c; k] in let p' := mr m' (HCell Tend) [c; k] in
    (h' = h + dt * (p + 5 / 2 * f) /\ p' = p + 4 * f /\ (p = 0 -> dt <> 0 -> f <> 0 -> h' <> h + dt * f))%R).
Proof. exact C23_disabled_forcing_accumulates_proof. Qed.
Print Assumptions C23_disabled_forcing_accumulates.

(** Non-vacuity: such a setup and memories of it exist. *)
Definition S23 : setup RA := mkSetup (mkConfig false false false 8) (mkHex (A:=RA) 4 6 (IZR 1) 3)
  (mkParams (A:=RA) (IZR 1) (IZR 10) (IZR 0) (IZR 0) (IZR 0) (IZR 0) (IZR 0) 0 true false)
  (Some (mkForcing RA (fun _ _ _ => IZR 1) (fun _ _ _ => IZR 0) (fun _ _ _ => IZR 0))).
Example ex23 : setup_ok S23 /\ exists m, ready S23 m /\ forall ix, mr m (HCell Tend) ix = IZR 0.
Proof.
  assert (H : setup_ok S23) by ok. split; [exact H|].
  destruct (ready_any S23 H (fun _ _ => IZR 0)) as (m & R & E). exists m. split; [exact R|]. intros. now rewrite E.
Qed.

(** C39: [tendency_of S t y k] ("k = T(t, y)": what [compute_tendency] computes for a state holding [y], wherever it is stored and whatever the work arrays hold) is defined for every [y]. *)
Theorem C39_tendency_exists :
  forall (A : Arith) (S : setup A), setup_ok S -> forall (t : F A) (y : fields A),
  exists k, tendency_of S t y k.
Proof. exact C39_tendency_exists_proof. Qed.
Print Assumptions C39_tendency_exists.

(** C39 with the operations in the order in which they are performed, in any arithmetic; [m] is any memory left by the constructors and any later steps.  (For a component whose tendency is disabled see C23.) *)
Theorem C39_rk4_in_floating_point :
  forall (A : Arith) (S : setup A), setup_ok S ->
  (disable_h (par_of S) = true \/ disable_vn (par_of S) = true -> hook S = None) ->
  forall (t dt : F A) (m : mem A) (y k1 k2 k3 k4 : fields A), ready S m -> holds S St m y -> disabled_zero S Tend m ->
  let add (b : F A) (x k : fields A) := fmap2 (fun u w => u + dt * b * w)%fp x k in
  let half := (#1 / #2)%fp in let third := (#1 / #3)%fp in let sixth := (#1 / #6)%fp in
  tendency_of S t y k1 ->
  tendency_of S (t + half * dt)%fp (add half y k1) k2 ->
  tendency_of S (t + half * dt)%fp (add half y k2) k3 ->
  tendency_of S (t + #1 * dt)%fp (add (#1)%fp y k3) k4 ->
  always (sdims S) (rk4_step S t dt) m (fun m' =>
    holds S St m' (add sixth (add third (add third (add sixth y k1) k2) k3) k4) /\ disabled_zero S Tend m' /\ ready S m').
Proof. exact C39_rk4_in_floating_point_proof. Qed.
Print Assumptions C39_rk4_in_floating_point.

(** C39, over the reals. *)
Theorem C39_rk4_is_classical :
  forall (S : setup RA), setup_ok S ->
  (disable_h (par_of S) = true \/ disable_vn (par_of S) = true -> hook S = None) ->
  forall (t dt : R) (m : mem RA) (y k1 k2 k3 k4 : fields RA), ready S m -> holds S St m y -> disabled_zero S Tend m ->
  let add (b : R) (x k : fields RA) := fmap2 (A:=RA) (fun u w => u + b * w)%R x k in
  tendency_of S t y k1 ->
  tendency_of S (t + dt / 2)%R (add (dt / 2)%R y k1) k2 ->
  tendency_of S (t + dt / 2)%R (add (dt / 2)%R y k2) k3 ->
  tendency_of S (t + dt)%R (add dt y k3) k4 ->
  let formula (a b c d e : R) := (a + dt / 6 * (b + 2 * c + 2 * d + e))%R in
  always (sdims S) (rk4_step S t dt) m (fun m' =>
    holds S St m' (mkFields (A:=RA)
      (fun c k => formula (fh y c k) (fh k1 c k) (fh k2 c k) (fh k3 c k) (fh k4 c k))
      (fun e k => formula (fv y e k) (fv k1 e k) (fv k2 e k) (fv k3 e k) (fv k4 e k))
      (fun l c k => formula (ft y l c k) (ft k1 l c k) (ft k2 l c k) (ft k3 l c k) (ft k4 l c k)))).
Proof. exact C39_rk4_is_classical_proof. Qed.
Print Assumptions C39_rk4_is_classical.

(** Non-vacuity: the hypotheses are met for arbitrary initial fields in a memory whose other work arrays are
    arbitrary ([g]); the stage tendencies exist by [C39_tendency_exists]. *)
Example ex39 (y : fields RA) (g : rarr -> list Z -> R) : exists m, ready S22 m /\ holds S22 St m y /\ disabled_zero S22 Tend m /\
  (forall ix, mr m (HCell Tend) ix = g (HCell Tend) ix /\ mr m (VnEdge Provis) ix = g (VnEdge Provis) ix).
Proof.
  destruct (ready_any S22 ok22 (fun a ix => match a, ix with
    | HCell St, [c; k] => fh y c k | VnEdge St, [e; k] => fv y e k | TrCell St, [l; c; k] => ft y l c k | _, _ => g a ix end)) as (m & R & E).
  exists m. split; [exact R|]. split; [intros k Hk; repeat split; intros; now rewrite E|].
  split; [intros k Hk; split; discriminate|]. intros. split; now rewrite E.
Qed.

(** C40: [Y i] and [Q i] are the state and the stored tendency before stage [i], [K i] the tendency T(t + c_i dt, Y i). *)
Theorem C40_lsrk_is_low_storage_scheme :
  forall (S : setup RA), setup_ok S -> forall (n : Z) (a b c : Z -> R),
  (n = 5%Z /\
   a 0%Z = 0 /\ a 1%Z = - (567301805773 / 1357537059087) /\ a 2%Z = - (2404267990393 / 2016746695238) /\
   a 3%Z = - (3550918686646 / 2091501179385) /\ a 4%Z = - (1275806237668 / 842570457699) /\
   b 0%Z = 1432997174477 / 9575080441755 /\ b 1%Z = 5161836677717 / 13612068292357 /\
   b 2%Z = 1720146321549 / 2090206949498 /\ b 3%Z = 3134564353537 / 4481467310338 /\
   b 4%Z = 2277821191437 / 14882151754819 /\
   c 0%Z = 0 /\ c 1%Z = 1432997174477 / 9575080441755 /\ c 2%Z = 2526269341429 / 6820363962896 /\
   c 3%Z = 2006345519317 / 3224310063776 /\ c 4%Z = 2802321613138 / 2924317926251 \/
   n = 1%Z /\ a 0%Z = 0 /\ b 0%Z = 1 /\ c 0%Z = 0)%R ->
  forall (t dt : R) (m : mem RA) (y p : fields RA), ready S m -> holds S St m y -> holds S Tend m p ->
  exists Y Q K : Z -> fields RA, Y 0 = y /\ Q 0 = p /\
  (forall i, 0 <= i < n -> tendency_of S (t + c i * dt)%R (Y i) (K i) /\
     Q (i + 1) = fmap2 (A:=RA) (fun u w => a i * u + w)%R (Q i) (K i) /\
     Y (i + 1) = fmap2 (A:=RA) (fun u w => u + dt * b i * w)%R (Y i) (Q (i + 1))) /\
  always (sdims S) (lsrk_step S n t dt) m (fun m' => ready S m' /\ holds S St m' (Y n) /\ holds S Tend m' (Q n)).
Proof. exact C40_lsrk_is_low_storage_scheme_proof. Qed.
Print Assumptions C40_lsrk_is_low_storage_scheme.

(** C41, for any number of stages and steps, over the reals. *)
Theorem C41_lsrk_history_independent :
  forall (S : setup RA), setup_ok S -> forall (n : Z) (steps : list (R * R)) (m1 m2 m1' m2' : mem RA), 0 <= n ->
  ready S m1 -> ready S m2 -> state_eq S (fun k => 0 <= k < d_nlayers (sdims S)) St m1 m2 ->
  exec (sdims S) (lsrk_run S n steps) m1 (OK m1') -> exec (sdims S) (lsrk_run S n steps) m2 (OK m2') ->
  state_eq S (fun k => 0 <= k < d_nlayers (sdims S)) St m1' m2' .
Proof. exact C41_lsrk_history_independent_proof. Qed.
Print Assumptions C41_lsrk_history_independent.

(** C42, in binary64, for any number of stages and steps: every entry of the stored tendency that is NaN stays NaN, and the corresponding entry of the state is NaN after the first step. *)
Theorem C42_nan_persists :
  forall (fc fs : spec_float -> spec_float) (fp : spec_float), let A := SFA fc fs fp in
  forall (S : setup A), setup_ok S -> forall (n : Z) (steps : list (F A * F A)) (m : mem A), 1 <= n -> steps <> [] -> ready S m ->
  always (sdims S) (lsrk_run S n steps) m (fun m' => forall k, 0 <= k < d_nlayers (sdims S) ->
   (forall c, 0 <= c < d_ncells (sdims S) -> mr m (HCell Tend) [c; k] = S754_nan ->
      mr m' (HCell Tend) [c; k] = S754_nan /\ mr m' (HCell St) [c; k] = S754_nan) /\
   (forall e, 0 <= e < d_nedges (sdims S) -> mr m (VnEdge Tend) [e; k] = S754_nan ->
      mr m' (VnEdge Tend) [e; k] = S754_nan /\ mr m' (VnEdge St) [e; k] = S754_nan) /\
   (forall l c, 0 <= l < ntracers (par_of S) -> 0 <= c < d_ncells (sdims S) -> mr m (TrCell Tend) [l; c; k] = S754_nan ->
      mr m' (TrCell Tend) [l; c; k] = S754_nan /\ mr m' (TrCell St) [l; c; k] = S754_nan)).
Proof. exact C42_nan_persists_proof. Qed.
Print Assumptions C42_nan_persists.

(** Non-vacuity: a binary64 setup with a NaN in one entry of the stored tendency and zero elsewhere. *)
Definition A64 : Arith := SFA (fun x => x) (fun x => x) (S754_zero false).
Definition one64 : F A64 := (#1)%fp.
Definition S42 : setup A64 := mkSetup (mkConfig false false false 8) (mkHex (A:=A64) 4 6 one64 3)
  (mkParams (A:=A64) one64 one64 one64 one64 one64 one64 one64 1 false false) None.
Example ex42 : setup_ok S42 /\ exists m, ready S42 m /\ mr m (HCell Tend) [5; 1] = S754_nan /\ (forall ix, mr m (HCell St) ix = one64).
Proof.
  assert (H : setup_ok S42) by ok. split; [exact H|].
  destruct (ready_any S42 H (fun a ix => match a with HCell Tend => S754_nan | _ => one64 end)) as (m & R & E).
  exists m. split; [exact R|]. split; intros; now rewrite E.
Qed.

(** C43, over the reals. *)
Theorem C43_unsupported_stage_count_does_nothing :
  forall (S : setup RA), setup_ok S -> forall (n : Z) (steps : list (R * R)) (m : mem RA), n <> 1 -> n <> 5 -> ready S m ->
  always (sdims S) (lsrk_run S n steps) m (fun m' => state_eq S (fun k => 0 <= k < d_nlayers (sdims S)) St m m').
Proof. exact C43_unsupported_stage_count_does_nothing_proof. Qed.
Print Assumptions C43_unsupported_stage_count_does_nothing.

(** C44 (first half): RK4Stepper is a Runge-Kutta method whose tableau satisfies the eight order conditions up to order four.  [comb s4 y dt w K] is [y + dt * sum_{j<4} w_j K_j], in each component.  *)
Theorem C44_rk4_order_conditions :
  exists (a : Z -> Z -> R) (b c : Z -> R),
  (forall (S : setup RA), setup_ok S ->
   (disable_h (par_of S) = true \/ disable_vn (par_of S) = true -> hook S = None) ->
   forall (t dt : R) (m : mem RA) (y : fields RA), ready S m -> holds S St m y -> disabled_zero S Tend m ->
   exists K : Z -> fields RA,
     (forall i, 0 <= i < 4 -> tendency_of S (t + c i * dt)%R (comb s4 y dt (a i) K) (K i)) /\
     always (sdims S) (rk4_step S t dt) m (fun m' => holds S St m' (comb s4 y dt b K))) /\
  (forall i j, 0 <= i < 4 -> i <= j < 4 -> a i j = 0%R) /\
  (forall i, 0 <= i < 4 -> c i = s4 (a i)) /\
  (s4 b = 1 /\ s4 (fun i => b i * c i) = 1 / 2 /\
   s4 (fun i => b i * c i ^ 2) = 1 / 3 /\ s4 (fun i => b i * s4 (fun j => a i j * c j)) = 1 / 6 /\
   s4 (fun i => b i * c i ^ 3) = 1 / 4 /\ s4 (fun i => b i * c i * s4 (fun j => a i j * c j)) = 1 / 8 /\
   s4 (fun i => b i * s4 (fun j => a i j * c j ^ 2)) = 1 / 12 /\
   s4 (fun i => b i * s4 (fun j => a i j * s4 (fun l => a j l * c l))) = 1 / 24)%R.
Proof. exact C44_rk4_order_conditions_proof. Qed.
Print Assumptions C44_rk4_order_conditions.

(** C45: the five-stage low storage scheme is a Runge-Kutta method whose tableau satisfies the eight order conditions up to order four and the row sum conditions up to 1e-25. *)
Theorem C45_lsrk5_order_conditions :
  exists (a : Z -> Z -> R) (b c : Z -> R), let eps := (1 / 10 ^ 25)%R in
  (forall (S : setup RA), setup_ok S ->
   forall (t dt : R) (m : mem RA) (y : fields RA), ready S m -> holds S St m y ->
   exists K : Z -> fields RA,
     (forall i, 0 <= i < 5 -> tendency_of S (t + c i * dt)%R (comb s5 y dt (a i) K) (K i)) /\
     always (sdims S) (lsrk_step S 5 t dt) m (fun m' => holds S St m' (comb s5 y dt b K))) /\
  (forall i j, 0 <= i < 5 -> i <= j < 5 -> a i j = 0%R) /\
  (forall i, 0 <= i < 5 -> (Rabs (c i - s5 (a i)) <= eps)%R) /\
  (Rabs (s5 b - 1) <= eps /\ Rabs (s5 (fun i => b i * s5 (a i)) - 1 / 2) <= eps /\
   Rabs (s5 (fun i => b i * s5 (a i) ^ 2) - 1 / 3) <= eps /\ Rabs (s5 (fun i => b i * s5 (fun j => a i j * s5 (a j))) - 1 / 6) <= eps /\
   Rabs (s5 (fun i => b i * s5 (a i) ^ 3) - 1 / 4) <= eps /\ Rabs (s5 (fun i => b i * s5 (a i) * s5 (fun j => a i j * s5 (a j))) - 1 / 8) <= eps /\
   Rabs (s5 (fun i => b i * s5 (fun j => a i j * s5 (a j) ^ 2)) - 1 / 12) <= eps /\
   Rabs (s5 (fun i => b i * s5 (fun j => a i j * s5 (fun l => a j l * s5 (a l)))) - 1 / 24) <= eps)%R.
Proof. exact C45_lsrk5_order_conditions_proof. Qed.
Print Assumptions C45_lsrk5_order_conditions.

(** C47, over the reals: the thickness (velocity) of any state is unchanged by any number of steps when its tendency is disabled, there is no additional tendency and the stepper's tendency is zero initially.  Without tracers the tracer arrays have no elements (any access would be out of bounds) and all runs are free of undefined behaviour. *)
Theorem C47_disabled_variables_frozen :
  forall (S : setup RA), setup_ok S -> forall (n : Z) (steps : list (R * R)) (m : mem RA), ready S m ->
  (hook S = None -> forall Ls, Ls = rk4_run S steps \/ Ls = lsrk_run S n steps ->
   (disable_h (par_of S) = true ->
    (forall c k, 0 <= c < d_ncells (sdims S) -> 0 <= k < d_nlayers (sdims S) -> mr m (HCell Tend) [c; k] = 0%R) ->
    always (sdims S) Ls m (fun m' => forall c k, 0 <= c < d_ncells (sdims S) -> 0 <= k < d_nlayers (sdims S) ->
      mr m' (HCell St) [c; k] = mr m (HCell St) [c; k])) /\
   (disable_vn (par_of S) = true ->
    (forall e k, 0 <= e < d_nedges (sdims S) -> 0 <= k < d_nlayers (sdims S) -> mr m (VnEdge Tend) [e; k] = 0%R) ->
    always (sdims S) Ls m (fun m' => forall e k, 0 <= e < d_nedges (sdims S) -> 0 <= k < d_nlayers (sdims S) ->
      mr m' (VnEdge St) [e; k] = mr m (VnEdge St) [e; k]))) /\
  (ntracers (par_of S) = 0 ->
   (forall s ix, inb (rext (sdims S) (TrCell s)) ix = false) /\ (forall ix, inb (rext (sdims S) NormTrCell) ix = false) /\
   (forall Ls, Ls = rk4_run S steps \/ Ls = lsrk_run S n steps -> forall o, exec (sdims S) Ls m o -> exists m', o = OK m')).
Proof. exact C47_disabled_variables_frozen_proof. Qed.
Print Assumptions C47_disabled_variables_frozen.

(** Non-vacuity: both tendencies disabled, no tracers. *)
Definition S47 : setup RA := mkSetup (mkConfig false false false 8) (mkHex (A:=RA) 4 6 (IZR 1) 3)
  (mkParams (A:=RA) (IZR 1) (IZR 10) (IZR 0) (IZR 0) (IZR 0) (IZR 0) (IZR 0) 0 true true) None.
Example ex47 (g : rarr -> list Z -> R) : setup_ok S47 /\ exists m, ready S47 m /\
  forall ix, mr m (HCell Tend) ix = 0%R /\ mr m (VnEdge Tend) ix = 0%R /\ mr m (HCell St) ix = g (HCell St) ix.
Proof.
  assert (H : setup_ok S47) by ok. split; [exact H|].
  destruct (ready_any S47 H (fun a ix => match a with HCell Tend | VnEdge Tend => 0%R | _ => g a ix end)) as (m & R & E).
  exists m. split; [exact R|]. intros. repeat split; now rewrite E.
Qed.

