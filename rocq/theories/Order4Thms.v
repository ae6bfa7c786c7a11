(** Proof that runs with the RK4 stepper converge with order four. *)
From Coq Require Import ZArith Reals List Bool Lia Lra.
From Verif Require Import Arith Arrays Prog Conc Launch Mesh AuxVars Tend Model Hex RSum Spec MeshProof MeshMem MeshR KernBase Ready StepFn StepVal StepRun StepThms RealTend FieldInv Vort Sim SimThms Driver DriverFn Lip Diff TimeStep TimeConv TimeThms Order4 LocalErr OrderConv Smooth SmoothT.
Import ListNotations.
Open Scope Z_scope.

(** At every position the forcing has four derivatives with respect to time, the fourth one bounded: [D 0] is the forcing and [D 1], ..., [D 4] are its derivatives. *)
Definition four_derivatives (F : R -> R -> R -> R) (T : R) : Prop :=
  exists D : nat -> R -> R -> R -> R, forall x y : R, (forall t, D 0%nat x y t = F x y t) /\
    (forall i t, (i < 4)%nat -> (0 <= t <= T)%R -> derivable_pt_lim (D i x y) t (D (Datatypes.S i) x y t)) /\
    exists b : R, forall t, (0 <= t <= T)%R -> (Rabs (D 4%nat x y t) <= b)%R.
Definition smooth_forcing (S : setup RA) (T : R) : Prop :=
  forall g, hook S = Some g -> four_derivatives (force_h g) T /\ four_derivatives (force_vx g) T /\ four_derivatives (force_vy g) T.
Lemma forcing_fam S T m0 : smooth_forcing S T -> exists Fp : plc -> nat -> R -> R, (forall p t, Fp p 0%nat t = fp S m0 p t) /\
  (forall p i t, vplc S p -> (i < 4)%nat -> (0 <= t <= T)%R -> derivable_pt_lim (Fp p i) t (Fp p (Datatypes.S i) t)) /\
  (forall p, vplc S p -> exists b, forall t, (0 <= t <= T)%R -> (Rabs (Fp p 4%nat t) <= b)%R).
Proof.
  intros HF. destruct (hook S) as [g|] eqn:Eg.
  - destruct (HF g Eg) as ((A & HA) & (B & HB) & (C & HC)).
    exists (fun p i t => match p with PH c k => A i (mr m0 XCell [c]) (mr m0 YCell [c]) t | PV e k => (cos (mr m0 AngleEdge [e]) * B i (mr m0 XEdge [e]) (mr m0 YEdge [e]) t + sin (mr m0 AngleEdge [e]) * C i (mr m0 XEdge [e]) (mr m0 YEdge [e]) t)%R | PT _ _ _ => 0%R end).
    split; [|split].
    + intros p t. destruct p as [c k|e k|l c k]; cbn [fp]; unfold hkh, hkv; rewrite ?Eg; [now apply HA| |reflexivity].
      rewrite (proj1 (HB _ _)), (proj1 (HC _ _)). reflexivity.
    + intros p i t Hp Hi Ht. destruct p as [c k|e k|l c k]; [now apply HA| |apply derivable_pt_lim_const].
      apply (derivable_pt_lim_plus (fun t => cos (mr m0 AngleEdge [e]) * B i (mr m0 XEdge [e]) (mr m0 YEdge [e]) t)%R (fun t => sin (mr m0 AngleEdge [e]) * C i (mr m0 XEdge [e]) (mr m0 YEdge [e]) t)%R); apply derivable_pt_lim_scal; [now apply HB|now apply HC].
    + intros p Hp. destruct p as [c k|e k|l c k].
      * apply HA.
      * destruct (HB (mr m0 XEdge [e]) (mr m0 YEdge [e])) as (_ & _ & b & Hb). destruct (HC (mr m0 XEdge [e]) (mr m0 YEdge [e])) as (_ & _ & b' & Hb'). exists (b + b')%R. intros t Ht. specialize (Hb t Ht). specialize (Hb' t Ht).
        set (a := mr m0 AngleEdge [e]). eapply Rle_trans; [apply Rabs_triang|]. rewrite !Rabs_mult. pose proof (Rabs_one _ (COS_bound a)) as C1. pose proof (Rabs_one _ (SIN_bound a)) as C2.
        apply Rplus_le_compat; [eapply Rle_trans; [|exact Hb]|eapply Rle_trans; [|exact Hb']]; (rewrite <- (Rmult_1_l (Rabs (_ 4%nat _ _ _))) at 2; apply Rmult_le_compat_r; [apply Rabs_pos|assumption]).
      * exists 0%R. intros. rewrite Rabs_R0. lra.
  - exists (fun _ _ _ => 0%R). split; [|split].
    + intros p t. destruct p; cbn [fp]; unfold hkh, hkv; rewrite ?Eg; reflexivity.
    + intros. apply derivable_pt_lim_const.
    + intros. exists 0%R. intros. rewrite Rabs_R0. lra.
Qed.

(** A state near the functions holds fields near them. *)
Lemma near_fields S e m H V Q t : state_near S e m (H t) (V t) (Q t) -> exists y, holds S St m y /\ close S e y (traj H V Q t).
Proof.
  intros Sm. exists (mkFields (A:=RA) (fun c k => mr m (HCell St) [c; k]) (fun e k => mr m (VnEdge St) [e; k]) (fun l c k => mr m (TrCell St) [l; c; k])). split.
  - intros k Hk. cbn. auto.
  - intros [c k|e0 k|l c k] Hp; cbn in Hp; destruct (Sm k ltac:(tauto)) as (A1 & A2 & A3); cbn; [apply A1|apply A2|apply A3]; tauto.
Qed.

(** All values of the states held by two memories differ by at most [d]. *)
Definition states_near (S : setup RA) (d : R) (m1 m2 : mem RA) : Prop :=
  state_near S d m1 (fun c k => mr m2 (HCell St) [c; k]) (fun e k => mr m2 (VnEdge St) [e; k]) (fun l c k => mr m2 (TrCell St) [l; c; k]).
Lemma rk4_stable :
forall (S : setup RA) (T : R) (H V : R -> Z -> Z -> R) (Q : R -> Z -> Z -> Z -> R),
  setup_ok S -> (0 < (dc (mesh_of_setup S) : R))%R -> (0 < T)%R ->
  (disable_h (par_of S) = true \/ disable_vn (par_of S) = true -> hook S = None) -> smooth_forcing S T ->
  solution S 1 T H V Q ->
  (forall t c k, (0 <= t <= T)%R -> 0 <= c < d_ncells (sdims S) -> 0 <= k < d_nlayers (sdims S) -> (0 < H t c k)%R) ->
  exists C : R, forall N (e : R), 1 <= N -> (C <= IZR N)%R -> (0 <= e)%R -> (C * e <= 1)%R ->
  (forall m : mem RA, fresh S RK4 m -> state_near S e m (H 0%R) (V 0%R) (Q 0%R) ->
  always (sdims S) (stepper_run S RK4 (loop_steps (A:=RA) N (T / IZR N)%R)) m (fun m' => state_near S (C * (e + / IZR N ^ 4)) m' (H T) (V T) (Q T))) /\
  (forall (m1 m2 : mem RA) (d : R), fresh S RK4 m1 -> state_near S e m1 (H 0%R) (V 0%R) (Q 0%R) -> fresh S RK4 m2 -> state_near S e m2 (H 0%R) (V 0%R) (Q 0%R) ->
  (0 <= d)%R -> states_near S d m1 m2 ->
  always (sdims S) (stepper_run S RK4 (loop_steps (A:=RA) N (T / IZR N)%R)) m1 (fun m1' => always (sdims S) (stepper_run S RK4 (loop_steps (A:=RA) N (T / IZR N)%R)) m2 (fun m2' => states_near S (C * d) m1' m2'))).
Proof.
  intros S T H V Q Hok Hdc HT Uf HF HS HP.
  destruct (fresh_any S Hok RK4 (fun _ _ => 0%R)) as (m0 & F0 & _). destruct (fresh_spec S Hok RK4 m0 F0) as [R0 _].
  destruct (forcing_fam S T m0 HF) as (Fp & E0 & DFp & BFp).
  pose proof (solution_der S Hok Hdc 1 T H V Q m0 R0 HS) as DY.
  assert (PY : forall t, (0 <= t <= T)%R -> posf S (traj H V Q t)) by (intros t Ht c k [Hc Hk]; now apply HP).
  assert (DY1 : forall t p, (0 <= t <= T)%R -> vplc S p -> derivable_pt_lim (fun s => val (traj H V Q s) p) t (gp S m0 p (traj H V Q t) + Fp p 0%nat t)%R).
  { intros t p Ht Hp. rewrite E0. replace (gp S m0 p (traj H V Q t) + fp S m0 p t)%R with (1 * ff S m0 t (traj H V Q t) p)%R by (unfold ff; ring). now apply DY. }
  destruct (five_derivatives S Hok Hdc m0 R0 T (Rlt_le _ _ HT) Fp DFp BFp (traj H V Q) PY DY1) as (d2 & d3 & d4 & d5 & K & HK & D1 & D2 & D3 & D4 & KB).
  destruct (tube S m0 RK4 T HT (traj H V Q) DY) as (B & de & r & Hde & Hr0 & Tb).
  { intros t c k Ht Hv. now apply PY. }
  destruct (gp_diff S B de Hde Hok Hdc m0 R0) as (J & M & HM & DJ).
  destruct (converges4 S Hok Hdc m0 R0 Uf T HT (traj H V Q) (fun p t => gp S m0 p (traj H V Q t) + Fp p 0%nat t)%R d2 d3 d4 d5 K HK) with (B := B) (de := de) (r := r) (J := J) (M := M) as (C & HC & G); auto.
  { intros p Hp t Ht. unfold ff. now rewrite E0. }
  exists C. intros N e HN HCN He HCe. destruct (G N e HCN HN He HCe) as [G1 G2]. split.
  { intros m Fm Sm. destruct (fresh_spec S Hok RK4 m Fm) as [Rm Zm].
  apply run_always; [exact Hok|exact Rm|]. intros m' Hm'.
  destruct (near_fields S e m H V Q 0 Sm) as (y & Hy & Cy).
  destruct (G1 m y) as (z & Hz & Cz); [exact Rm|now apply zero_disabled|exact Hy|exact Cy|].
  apply (near_holds S _ m' z H V Q T); [|exact Cz]. eapply holds_meq; [apply meq_sym, Hm'|exact Hz]. }
  intros m1 m2 d F1 S1 F2 S2 Hd SS. destruct (fresh_spec S Hok RK4 m1 F1) as [R1 Z1]. destruct (fresh_spec S Hok RK4 m2 F2) as [R2 Z2].
  destruct (near_fields S e m1 H V Q 0 S1) as (y & Hy & Cy). destruct (near_fields S e m2 H V Q 0 S2) as (y' & Hy' & Cy').
  destruct (G2 m1 y m2 y' d) as (z & z' & Hz & Hz' & Cz); auto using zero_disabled.
  { intros p Hp. destruct p as [c k|i k|l c k]; cbn in Hp; destruct (SS k ltac:(tauto)) as (A1 & A2 & A3); destruct (Hy k ltac:(tauto)) as (B1 & B2 & B3); destruct (Hy' k ltac:(tauto)) as (B1' & B2' & B3'); cbn [val].
    - rewrite <- B1, <- B1' by tauto. apply A1; tauto.
    - rewrite <- B2, <- B2' by tauto. apply A2; tauto.
    - rewrite <- B3, <- B3' by tauto. apply A3; tauto. }
  apply run_always; [exact Hok|exact R1|]. intros m1' E1. apply run_always; [exact Hok|exact R2|]. intros m2' E2.
  assert (X1 : holds S St m1' z) by (eapply holds_meq; [apply meq_sym, E1|exact Hz]). assert (X2 : holds S St m2' z') by (eapply holds_meq; [apply meq_sym, E2|exact Hz']). clear E1 E2.
  intros k Hk. destruct (X1 k Hk) as (A1 & A2 & A3). destruct (X2 k Hk) as (B1 & B2 & B3). split; [|split]; intros.
  - rewrite A1, B1 by assumption. apply (Cz (PH c k)). cbn; tauto.
  - rewrite A2, B2 by assumption. apply (Cz (PV e0 k)). cbn; tauto.
  - rewrite A3, B3 by assumption. apply (Cz (PT l c k)). cbn; tauto.
Qed.

Lemma C94_rk4_runs_from_nearby_states_proof :
forall (S : setup RA) (T : R) (H V : R -> Z -> Z -> R) (Q : R -> Z -> Z -> Z -> R),
  setup_ok S -> (0 < (dc (mesh_of_setup S) : R))%R -> (0 < T)%R ->
  (disable_h (par_of S) = true \/ disable_vn (par_of S) = true -> hook S = None) -> smooth_forcing S T ->
  solution S 1 T H V Q ->
  (forall t c k, (0 <= t <= T)%R -> 0 <= c < d_ncells (sdims S) -> 0 <= k < d_nlayers (sdims S) -> (0 < H t c k)%R) ->
  exists C : R, forall N (e : R), 1 <= N -> (C <= IZR N)%R -> (0 <= e)%R -> (C * e <= 1)%R ->
  forall m : mem RA, fresh S RK4 m -> state_near S e m (H 0%R) (V 0%R) (Q 0%R) ->
  always (sdims S) (stepper_run S RK4 (loop_steps (A:=RA) N (T / IZR N)%R)) m (fun m' => state_near S (C * (e + / IZR N ^ 4)) m' (H T) (V T) (Q T)).
Proof.
  intros S T H V Q Hok Hdc HT Uf HF HS HP. destruct (rk4_stable S T H V Q Hok Hdc HT Uf HF HS HP) as (C & G). exists C. intros N e H1 H2 H3 H4. apply (G N e H1 H2 H3 H4).
Qed.

Lemma C94_rk4_runs_are_stable_proof :
forall (S : setup RA) (T : R) (H V : R -> Z -> Z -> R) (Q : R -> Z -> Z -> Z -> R),
  setup_ok S -> (0 < (dc (mesh_of_setup S) : R))%R -> (0 < T)%R ->
  (disable_h (par_of S) = true \/ disable_vn (par_of S) = true -> hook S = None) -> smooth_forcing S T ->
  solution S 1 T H V Q ->
  (forall t c k, (0 <= t <= T)%R -> 0 <= c < d_ncells (sdims S) -> 0 <= k < d_nlayers (sdims S) -> (0 < H t c k)%R) ->
  exists C : R, forall N (e : R), 1 <= N -> (C <= IZR N)%R -> (0 <= e)%R -> (C * e <= 1)%R ->
  forall (m1 m2 : mem RA) (d : R), fresh S RK4 m1 -> state_near S e m1 (H 0%R) (V 0%R) (Q 0%R) -> fresh S RK4 m2 -> state_near S e m2 (H 0%R) (V 0%R) (Q 0%R) ->
  (0 <= d)%R -> states_near S d m1 m2 ->
  always (sdims S) (stepper_run S RK4 (loop_steps (A:=RA) N (T / IZR N)%R)) m1 (fun m1' => always (sdims S) (stepper_run S RK4 (loop_steps (A:=RA) N (T / IZR N)%R)) m2 (fun m2' => states_near S (C * d) m1' m2')).
Proof.
  intros S T H V Q Hok Hdc HT Uf HF HS HP. destruct (rk4_stable S T H V Q Hok Hdc HT Uf HF HS HP) as (C & G). exists C. intros N e H1 H2 H3 H4. apply (G N e H1 H2 H3 H4).
Qed.

Lemma C91_rk4_is_of_order_four_proof :
forall (S : setup RA) (T : R) (H V : R -> Z -> Z -> R) (Q : R -> Z -> Z -> Z -> R),
  setup_ok S -> (0 < (dc (mesh_of_setup S) : R))%R -> (0 < T)%R ->
  (disable_h (par_of S) = true \/ disable_vn (par_of S) = true -> hook S = None) -> smooth_forcing S T ->
  solution S 1 T H V Q ->
  (forall t c k, (0 <= t <= T)%R -> 0 <= c < d_ncells (sdims S) -> 0 <= k < d_nlayers (sdims S) -> (0 < H t c k)%R) ->
  exists C : R, forall N, 1 <= N -> (C <= IZR N)%R ->
  forall m : mem RA, fresh S RK4 m -> state_is S m (H 0%R) (V 0%R) (Q 0%R) ->
  always (sdims S) (stepper_run S RK4 (loop_steps (A:=RA) N (T / IZR N)%R)) m (fun m' => state_near S (C / IZR N ^ 4) m' (H T) (V T) (Q T)).
Proof.
  intros S T H V Q Hok Hdc HT Uf HF HS HP. destruct (C94_rk4_runs_from_nearby_states_proof S T H V Q Hok Hdc HT Uf HF HS HP) as (C & G).
  exists C. intros N HN HCN m Fm Sm. specialize (G N 0%R HN HCN (Rle_refl 0) ltac:(lra) m Fm). replace (C / IZR N ^ 4)%R with (C * (0 + / IZR N ^ 4))%R by (unfold Rdiv; ring). apply G.
  intros k Hk. destruct (Sm k Hk) as (A1 & A2 & A3). split; [|split]; intros; [rewrite A1 by assumption|rewrite A2 by assumption|rewrite A3 by assumption]; rewrite Rminus_diag_eq, Rabs_R0 by reflexivity; lra.
Qed.
