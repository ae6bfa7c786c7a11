(** Proofs of the properties of runs with small time steps. *)
From Coq Require Import ZArith Reals List Bool Lia Lra.
From Verif Require Import Arith Arrays Prog Conc Launch Mesh AuxVars Tend Model Hex RSum Spec MeshProof MeshMem MeshR KernBase Ready StepFn StepVal StepRun StepThms RealTend FieldInv Vort Sim SimThms Driver DriverFn Lip TimeStep TimeConv.
Import ListNotations.
Open Scope Z_scope.

(** The prognostic fields of the state. *)
Definition state_is (S : setup RA) (m : mem RA) (H V : Z -> Z -> R) (Q : Z -> Z -> Z -> R) : Prop :=
  forall k, 0 <= k < d_nlayers (sdims S) ->
  (forall c, 0 <= c < d_ncells (sdims S) -> mr m (HCell St) [c; k] = H c k) /\ (forall e, 0 <= e < d_nedges (sdims S) -> mr m (VnEdge St) [e; k] = V e k) /\
  (forall l c, 0 <= l < ntracers (par_of S) -> 0 <= c < d_ncells (sdims S) -> mr m (TrCell St) [l; c; k] = Q l c k).
(** All values of the state differ by at most [d] from the given ones. *)
Definition state_near (S : setup RA) (d : R) (m : mem RA) (H V : Z -> Z -> R) (Q : Z -> Z -> Z -> R) : Prop :=
  forall k, 0 <= k < d_nlayers (sdims S) ->
  (forall c, 0 <= c < d_ncells (sdims S) -> (Rabs (mr m (HCell St) [c; k] - H c k) <= d)%R) /\ (forall e, 0 <= e < d_nedges (sdims S) -> (Rabs (mr m (VnEdge St) [e; k] - V e k) <= d)%R) /\
  (forall l c, 0 <= l < ntracers (par_of S) -> 0 <= c < d_ncells (sdims S) -> (Rabs (mr m (TrCell St) [l; c; k] - Q l c k) <= d)%R).
(** [H], [V] and [Q] are functions of time whose derivatives on [0, T] are [w] times what [compute_tendency] computes from them. *)
Definition solution (S : setup RA) (w T : R) (H V : R -> Z -> Z -> R) (Q : R -> Z -> Z -> Z -> R) : Prop :=
  forall (t : R) (m : mem RA), (0 <= t <= T)%R -> fresh S RK4 m -> state_is S m (H t) (V t) (Q t) ->
  always (sdims S) (compute_tendency S Tend St t Replace) m (fun m' => forall k, 0 <= k < d_nlayers (sdims S) ->
    (forall c, 0 <= c < d_ncells (sdims S) -> derivable_pt_lim (fun s => H s c k) t (w * mr m' (HCell Tend) [c; k])%R) /\
    (forall e, 0 <= e < d_nedges (sdims S) -> derivable_pt_lim (fun s => V s e k) t (w * mr m' (VnEdge Tend) [e; k])%R) /\
    (forall l c, 0 <= l < ntracers (par_of S) -> 0 <= c < d_ncells (sdims S) -> derivable_pt_lim (fun s => Q s l c k) t (w * mr m' (TrCell Tend) [l; c; k])%R)).
(** The forcing has, at every position, a bounded rate of change. *)
Definition lipschitz_forcing (S : setup RA) (T : R) : Prop :=
  forall g, hook S = Some g -> forall x y : R, exists L : R, forall t t' : R, (0 <= t <= T)%R -> (0 <= t' <= T)%R ->
  (Rabs (force_h g x y t - force_h g x y t') <= L * Rabs (t - t') /\ Rabs (force_vx g x y t - force_vx g x y t') <= L * Rabs (t - t') /\ Rabs (force_vy g x y t - force_vy g x y t') <= L * Rabs (t - t'))%R.

Lemma Rabs_one x : (-1 <= x <= 1)%R -> (Rabs x <= 1)%R.
Proof. intros. apply Rabs_le. lra. Qed.
Lemma forcing_lip S T m0 : lipschitz_forcing S T -> exists L, (0 <= L)%R /\ forall p t t', vplc S p -> (0 <= t <= T)%R -> (0 <= t' <= T)%R -> (Rabs (fp S m0 p t - fp S m0 p t') <= L * Rabs (t - t'))%R.
Proof.
  intros HF. destruct (plc_max S (fun p L => forall t t', (0 <= t <= T)%R -> (0 <= t' <= T)%R -> (Rabs (fp S m0 p t - fp S m0 p t') <= L * Rabs (t - t'))%R)) as (L & HL & H).
  - intros p M N HMN H t t' Ht Ht'. specialize (H t t' Ht Ht'). pose proof (Rabs_pos (t - t')). nra.
  - intros p _. assert (Z : exists M, (0 <= M)%R /\ forall t t', (0 <= t <= T)%R -> (0 <= t' <= T)%R -> (Rabs (0 - 0) <= M * Rabs (t - t'))%R).
    { exists 0%R. split; [lra|]. intros. rewrite Rminus_0_r, Rabs_R0. lra. }
    destruct p as [c k|e k|l c k]; cbn [fp]; unfold hkh, hkv; [| |exact Z]; destruct (hook S) as [g|] eqn:E; try exact Z.
    + destruct (HF g E (mr m0 XCell [c]) (mr m0 YCell [c])) as (L & HL). exists (Rabs L). split; [apply Rabs_pos|]. intros t t' Ht Ht'. destruct (HL t t' Ht Ht') as (A & _).
      eapply Rle_trans; [exact A|]. apply Rmult_le_compat_r; [apply Rabs_pos|apply Rle_abs].
    + destruct (HF g E (mr m0 XEdge [e]) (mr m0 YEdge [e])) as (L & HL). exists (2 * Rabs L)%R. split; [pose proof (Rabs_pos L); lra|]. intros t t' Ht Ht'. destruct (HL t t' Ht Ht') as (_ & A & B).
      set (a := mr m0 AngleEdge [e]). set (u := force_vx g (mr m0 XEdge [e]) (mr m0 YEdge [e]) t) in *. set (u' := force_vx g (mr m0 XEdge [e]) (mr m0 YEdge [e]) t') in *.
      set (v := force_vy g (mr m0 XEdge [e]) (mr m0 YEdge [e]) t) in *. set (v' := force_vy g (mr m0 XEdge [e]) (mr m0 YEdge [e]) t') in *.
      replace (cos a * u + sin a * v - (cos a * u' + sin a * v'))%R with (cos a * (u - u') + sin a * (v - v'))%R by ring. eapply Rle_trans; [apply Rabs_triang|]. rewrite !Rabs_mult.
      pose proof (Rabs_one _ (COS_bound a)). pose proof (Rabs_one _ (SIN_bound a)). pose proof (Rabs_pos (u - u')). pose proof (Rabs_pos (v - v')).
      assert (L * Rabs (t - t') <= Rabs L * Rabs (t - t'))%R by (apply Rmult_le_compat_r; [apply Rabs_pos|apply Rle_abs]). nra.
  - exists L. split; [exact HL|]. intros. now apply H.
Qed.
Definition traj (H V : R -> Z -> Z -> R) (Q : R -> Z -> Z -> Z -> R) (t : R) : fields RA := mkFields (A:=RA) (H t) (V t) (Q t).
Lemma state_holds S m H V Q t : state_is S m (H t) (V t) (Q t) <-> holds S St m (traj H V Q t).
Proof. reflexivity. Qed.
Lemma near_holds S d m z H V Q t : holds S St m z -> close S d z (traj H V Q t) -> state_near S d m (H t) (V t) (Q t).
Proof.
  intros Hz C k Hk. destruct (Hz k Hk) as (A1 & A2 & A3). split; [|split].
  - intros c Hc. rewrite A1 by exact Hc. apply (C (PH c k)). cbn; tauto.
  - intros e He. rewrite A2 by exact He. apply (C (PV e k)). cbn; tauto.
  - intros l c Hl Hc. rewrite A3 by assumption. apply (C (PT l c k)). cbn; tauto.
Qed.
Lemma solution_der (S : setup RA) (Hok : setup_ok S) (Hdc : (0 < (dc (mesh_of_setup S) : R))%R) w T H V Q m0 : ready S m0 -> solution S w T H V Q ->
  forall t p, (0 <= t <= T)%R -> vplc S p -> derivable_pt_lim (fun s => val (traj H V Q s) p) t (w * ff S m0 t (traj H V Q t) p)%R.
Proof.
  intros Hr HS t p Ht Hp. destruct (tendency_ex S Hok t (traj H V Q t)) as [k Kk].
  destruct (fresh_any S Hok RK4 (fun a ix => match a, ix with HCell St, [c; k] => H t c k | VnEdge St, [e; k] => V t e k | TrCell St, [l; c; k] => Q t l c k | _, _ => 0%R end)) as (m & Fm & E).
  assert (Sm : state_is S m (H t) (V t) (Q t)). { intros j _. split; [|split]; intros; [apply (proj1 (E [c; j]))|apply (proj1 (proj2 (E [e; j])))|apply (proj2 (proj2 (E [l; c; j])))]. }
  destruct (fresh_spec S Hok RK4 m Fm) as [Rm Zm]. destruct (HS t m Ht Fm Sm) as [A1 [m' X]]. destruct (A1 _ X) as (m2 & E2 & D). injection E2 as <-.
  destruct (Kk St m) as [B1 _]; [discriminate|exact Rm|exact Sm|now apply zero_disabled|]. destruct (B1 _ X) as (m2 & E2 & Hk). injection E2 as <-.
  unfold ff. rewrite <- (tend_gp S Hok Hdc m0 Hr t _ _ Kk p Hp).
  destruct p as [c j|e j|l c j]; cbn [vplc val traj] in *; destruct (Hk j) as (K1 & K2 & K3); try tauto; destruct (D j) as (D1 & D2 & D3); try tauto.
  - rewrite <- K1 by tauto. apply D1. tauto.
  - rewrite <- K2 by tauto. apply D2. tauto.
  - rewrite <- K3 by tauto. apply D3; tauto.
Qed.
Lemma run_always (S : setup RA) (Hok : setup_ok S) st steps m (P : mem RA -> Prop) : ready S m -> (forall m', meq m' (run_fn S st steps m) -> P m') -> always (sdims S) (stepper_run S st steps) m P.
Proof.
  intros Hr H. pose proof (hs_stepper_run S Hok st steps m (ready_wfm S Hok m Hr)) as G. apply hsafe_always in G. destruct G as [G1 G2]. split; [|exact G2].
  intros o Ho. destruct (G1 o Ho) as (n & -> & E). exists n. split; [reflexivity|]. now apply H.
Qed.

Lemma C90_runs_converge_in_time_proof :
forall st, st = RK4 \/ st = LSRK 1 \/ st = LSRK 5 ->
  exists w : R, (st <> LSRK 5 -> w = 1%R) /\ (Rabs (w - 1) <= 1 / 10 ^ 25)%R /\
  forall (S : setup RA) (T : R) (H V : R -> Z -> Z -> R) (Q : R -> Z -> Z -> Z -> R),
  setup_ok S -> (0 < (dc (mesh_of_setup S) : R))%R -> (0 < T)%R ->
  (disable_h (par_of S) = true \/ disable_vn (par_of S) = true -> hook S = None) -> lipschitz_forcing S T ->
  solution S w T H V Q ->
  (forall t c k, (0 <= t <= T)%R -> 0 <= c < d_ncells (sdims S) -> 0 <= k < d_nlayers (sdims S) -> (0 < H t c k)%R) ->
  exists C : R, forall N, 1 <= N -> (C <= IZR N)%R ->
  forall m : mem RA, fresh S st m -> state_is S m (H 0%R) (V 0%R) (Q 0%R) ->
  always (sdims S) (stepper_run S st (loop_steps (A:=RA) N (T / IZR N)%R)) m (fun m' => state_near S (C / IZR N) m' (H T) (V T) (Q T)).
Proof.
  intros st Kn. exists (weight st). split; [|split].
  { intros Hn. destruct Kn as [-> | [-> | ->]]; [reflexivity|exact weight_1|congruence]. }
  { destruct Kn as [-> | [-> | ->]]; [|rewrite weight_1|exact weight_5]; unfold weight; rewrite Rminus_diag_eq, Rabs_R0 by reflexivity; lra. }
  intros S T H V Q Hok Hdc HT Uf HF HS HP.
  destruct (fresh_any S Hok RK4 (fun _ _ => 0%R)) as (m0 & F0 & _). destruct (fresh_spec S Hok RK4 m0 F0) as [R0 _].
  destruct (forcing_lip S T m0 HF) as (L & HL & FP).
  destruct (converges S Hok Hdc m0 R0 st Kn T HT (traj H V Q) (solution_der S Hok Hdc _ T H V Q m0 R0 HS)) with (L := L) as (C & HC & G); auto.
  { intros t c k Ht [Hc Hk]. now apply HP. }
  exists C. intros N HN HCN m Fm Sm. destruct (fresh_spec S Hok st m Fm) as [Rm Zm].
  apply run_always; [exact Hok|exact Rm|]. intros m' Hm'.
  destruct (G N HCN HN m) as (z & Hz & Cz); [split; [exact Rm|intros _; now apply zero_disabled]|exact Sm|].
  apply (near_holds S _ m' z H V Q T); [|exact Cz]. eapply holds_meq; [apply meq_sym, Hm'|exact Hz].
Qed.

