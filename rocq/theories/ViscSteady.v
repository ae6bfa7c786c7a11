(** Proofs about the steady states of the viscous model (C107). *)
From Coq Require Import ZArith Reals List Bool Lia Lra Psatz.
From Verif Require Import Arith Arrays Prog Conc Launch Mesh AuxVars Tend Model Hex HexComb RSum Spec MeshProof MeshMem MeshR MeshCalc Over Formulas KernBase Terms KernAux KernTend TendFn StepFn Ready Rel RelRun Relate TendVal StepVal StepRun StepThms RealTend SumParts Diag FieldInv ConsBase ConsThms SteadyThms ForcedThms HypThms EnergyBudget HodgeThms.
Import ListNotations.
Open Scope Z_scope.

(** The energy depends only on thickness and velocity. *)
Lemma energy_same (S : setup RA) (Hok : setup_ok S) s m n x y : ready S m -> ready S n ->
  (forall c k, 0 <= c < d_ncells (sdims S) -> 0 <= k < d_nlayers (sdims S) -> mr n (HCell s) [c; k] = mr m (HCell s) [c; k]) ->
  (forall e k, 0 <= e < d_nedges (sdims S) -> 0 <= k < d_nlayers (sdims S) -> mr n (VnEdge s) [e; k] = mr m (VnEdge s) [e; k]) ->
  energy_integral S s m (Some x) -> energy_integral S s n (Some y) -> y = x.
Proof.
  intros Hr Rn Eq Eu Qm Qn. apply (energy_sum S Hok m Hr) in Qm. apply (energy_sum S Hok n Rn) in Qn. injection Qm as ->. injection Qn as ->.
  set (h := mesh_of_setup S).
  apply rsum_ext. intros c Hc. apply rsum_ext. intros k Hk.
  assert (EA : mr n AreaCell [c] = mr m AreaCell [c]).
  { now rewrite (hm_area _ _ _ (ready_hex S Hok n Rn)), (hm_area _ _ _ (ready_hex S Hok m Hr)) by assumption. }
  unfold Diag.ecell. rewrite EA, Eq by assumption.
  rewrite (kin_ext S Hok n Rn (fun e => mr n (VnEdge s) [e; k]) (fun e => mr m (VnEdge s) [e; k])) by (try assumption; intros; now apply Eu).
  assert (Ek : forall w, kin n w c = kin m w c).
  { intros w. unfold kin. rewrite EA. rewrite (hm_noc _ _ _ (ready_hex S Hok n Rn)), (hm_noc _ _ _ (ready_hex S Hok m Hr)) by assumption.
    do 2 f_equal. apply rsum_ext. intros j Hj. cbv zeta.
    rewrite (hm_eoc _ _ _ (ready_hex S Hok n Rn)), (hm_eoc _ _ _ (ready_hex S Hok m Hr)) by assumption.
    pose proof (hE_range (nx h) (ny h) ltac:(apply Hok) ltac:(apply Hok) c j Hc Hj) as He.
    now rewrite (hm_dve _ _ _ (ready_hex S Hok n Rn)), (hm_dve _ _ _ (ready_hex S Hok m Hr)), (hm_dce _ _ _ (ready_hex S Hok n Rn)), (hm_dce _ _ _ (ready_hex S Hok m Hr)) by assumption. }
  now rewrite Ek.
Qed.

Lemma C107_viscous_steady_states_proof :
  forall (S : setup RA), setup_ok S -> (0 < (dc (mesh_of_setup S) : R))%R ->
  2 <= nx (mesh_of_setup S) -> Z.even (ny (mesh_of_setup S)) = true ->
  disable_h (par_of S) = false -> disable_vn (par_of S) = false -> hook S = None ->
  ksimd (cfg_of S) = false \/ vector_length (cfg_of S) = 1 \/ ((visc_del4 (par_of S) : R) <= 0)%R ->
  (0 < (visc_del2 (par_of S) : R) \/ 0 < (visc_del4 (par_of S) : R))%R ->
  forall (time : R) (H : Z -> R) (m m1 : mem RA), ready S m ->
  (forall c k, 0 <= c < d_ncells (sdims S) -> 0 <= k < d_nlayers (sdims S) -> (0 < H k)%R /\ mr m (HCell St) [c; k] = H k) ->
  exec (sdims S) (compute_tendency S Tend St time Replace) m (OK m1) ->
  ((forall k, 0 <= k < d_nlayers (sdims S) -> (forall c, 0 <= c < d_ncells (sdims S) -> mr m1 (HCell Tend) [c; k] = 0%R) /\ (forall e, 0 <= e < d_nedges (sdims S) -> mr m1 (VnEdge Tend) [e; k] = 0%R)) <->
   (forall k, 0 <= k < d_nlayers (sdims S) -> exists U V : R, (f0 (par_of S) = 0%R \/ U = 0%R /\ V = 0%R) /\
      forall e, 0 <= e < d_nedges (sdims S) -> mr m (VnEdge St) [e; k] = (U * cos (mr m AngleEdge [e]) + V * sin (mr m AngleEdge [e]))%R)).
Proof.
  intros S Hok Hdc H1 Hev Hh Hv Hf Hl Hp time H m m1 Hr Hq X1.
  assert (Y1 : 1 <= ny (mesh_of_setup S)) by apply Hok. assert (H2 : 2 <= ny (mesh_of_setup S)) by (destruct (Z.eq_dec (ny (mesh_of_setup S)) 1) as [E|E]; [rewrite E in Hev; discriminate|lia]).
  set (NC := nx (mesh_of_setup S) * ny (mesh_of_setup S)). assert (N0 : 2 <= NC) by (unfold NC; nia).
  assert (Hc0 : 0 <= 0 < NC) by lia.
  destruct (ang_vals S Hok Hev m Hr 0 0 ltac:(lia) Hc0) as [A0 B0]. destruct (ang_vals S Hok Hev m Hr 0 1 ltac:(lia) Hc0) as [A1 B1].
  change (3 * 0 + 0) with 0 in A0, B0. change (3 * 0 + 1) with 1 in A1, B1. cbn [Z.eqb Pos.eqb] in A0, B0, A1, B1.
  assert (S3 : (0 < sqrt 3)%R) by (apply sqrt_lt_R0; lra).
  set (u := fun k e => mr m (VnEdge St) [e; k] : R).
  set (U := fun k => u k 0). set (V := fun k => ((u k 1%Z - U k / 2) * (2 / sqrt 3))%R).
  assert (UV : forall k a b, (forall e, 0 <= e < d_nedges (sdims S) -> mr m (VnEdge St) [e; k] = (a * cos (mr m AngleEdge [e]) + b * sin (mr m AngleEdge [e]))%R) -> a = U k /\ b = V k).
  { intros k a b E. assert (Q0 : u k 0 = a).
    { unfold u. rewrite (E 0) by (change (0 <= 0 < 3 * NC) || change (0 <= 1 < 3 * NC); lia). rewrite A0, B0. cbn [F RA]. ring. }
    assert (Q1 : u k 1 = (a * / 2 + b * (sqrt 3 / 2))%R).
    { unfold u. rewrite (E 1) by (change (0 <= 0 < 3 * NC) || change (0 <= 1 < 3 * NC); lia). now rewrite A1, B1. }
    split; [now symmetry|]. unfold V, U. rewrite Q0, Q1. cbn [F RA]. field. lra. }
  assert (Rot : (forall k, 0 <= k < d_nlayers (sdims S) -> forall e, 0 <= e < d_nedges (sdims S) -> mr m (VnEdge St) [e; k] = (U k * cos (mr m AngleEdge [e]) + V k * sin (mr m AngleEdge [e]))%R) ->
    forall k, 0 <= k < d_nlayers (sdims S) -> (forall c, 0 <= c < d_ncells (sdims S) -> mr m1 (HCell Tend) [c; k] = 0%R) /\
    (forall e, 0 <= e < d_nedges (sdims S) -> mr m1 (VnEdge Tend) [e; k] = (f0 (par_of S) * V k * cos (mr m AngleEdge [e]) - f0 (par_of S) * U k * sin (mr m AngleEdge [e]))%R)).
  { intros E. pose proof (C51_uniform_flow_rotates_proof S Hok Hdc H1 H2 Hh Hv Hf time H U V m Hr) as C. cbv zeta in C.
    destruct C as [C _]. { intros k Hk. split; [destruct (Hq 0 k Hc0 Hk); lra|]. split; [intros c Hc; now apply Hq|now apply E]. }
    destruct (C _ X1) as (M & EM & Q). injection EM as <-. exact Q. }
  split.
  - intros Z0.
    destruct (energy_value S Hok St m (fld Tend m1) Hr) as [E HE].
    destruct (C105_viscosity_damps_all_other_flow_proof S Hok Hdc H1 Hev Hh Hv Hf Hl Hp Tend St time m m1 E H ltac:(discriminate) Hr Hq X1 HE) as (W & D & _ & WZ).
    assert (EC : forall x, E x = E 0%R).
    { intros x. destruct (HE x) as (n & Rn & Qn & Hn). destruct (HE 0%R) as (n0 & R0 & Q0 & Hn0).
      apply (energy_same S Hok St n0 n _ _ R0 Rn); [| |exact Q0|exact Qn].
      - intros c k Hc Hk. destruct (Hn k Hk) as (-> & _); [|exact Hc]. destruct (Hn0 k Hk) as (-> & _); [|exact Hc]. cbn [fmap2 fh fld]. destruct (Z0 k Hk) as [-> _]; [|exact Hc]. cbn [F RA]. ring.
      - intros e k He Hk. destruct (Hn k Hk) as (_ & -> & _); [|exact He]. destruct (Hn0 k Hk) as (_ & -> & _); [|exact He]. cbn [fmap2 fv fld]. destruct (Z0 k Hk) as [_ ->]; [|exact He]. cbn [F RA]. ring. }
    assert (D0 : derivable_pt_lim E 0%R 0%R).
    { intros eps He. exists (mkposreal 1 Rlt_0_1). intros x Hx _. rewrite (EC (0 + x)%R). replace ((E 0 - E 0) / x - 0)%R with 0%R by (field; exact Hx). rewrite Rabs_R0. exact He. }
    assert (W0 : W = 0%R) by exact (uniqueness_limite _ _ _ _ D D0).
    pose proof (proj1 WZ W0) as Un. clear WZ D D0 HE EC.
    assert (Eu : forall k, 0 <= k < d_nlayers (sdims S) -> forall e, 0 <= e < d_nedges (sdims S) -> mr m (VnEdge St) [e; k] = (U k * cos (mr m AngleEdge [e]) + V k * sin (mr m AngleEdge [e]))%R).
    { intros k Hk. destruct (Un k Hk) as (a & b & Eab). destruct (UV k a b Eab) as [<- <-]. exact Eab. }
    intros k Hk. exists (U k), (V k). split; [|now apply Eu].
    pose proof (proj2 (Rot Eu k Hk)) as Q. destruct (Z0 k Hk) as [_ Zv].
    pose proof (Q 0 ltac:(change (0 <= 0 < 3 * NC) || change (0 <= 1 < 3 * NC); lia)) as Q0. pose proof (Q 1 ltac:(change (0 <= 0 < 3 * NC) || change (0 <= 1 < 3 * NC); lia)) as Q1. rewrite (Zv 0) in Q0 by (change (0 <= 0 < 3 * NC) || change (0 <= 1 < 3 * NC); lia). rewrite (Zv 1) in Q1 by (change (0 <= 0 < 3 * NC) || change (0 <= 1 < 3 * NC); lia).
    rewrite A0, B0 in Q0. rewrite A1, B1 in Q1. destruct (Req_dec (f0 (par_of S)) 0) as [F0|F0]; [now left|right].
    assert (Vz : (f0 (par_of S) * V k = 0)%R) by (cbn [F RA] in *; lra).
    assert (Uz : (f0 (par_of S) * U k * sqrt 3 = 0)%R) by (cbn [F RA] in *; nra).
    apply Rmult_integral in Vz. apply Rmult_integral in Uz. destruct Uz as [Uz|Uz]; [apply Rmult_integral in Uz|lra]. tauto.
  - intros Un.
    assert (Eu : forall k, 0 <= k < d_nlayers (sdims S) -> forall e, 0 <= e < d_nedges (sdims S) -> mr m (VnEdge St) [e; k] = (U k * cos (mr m AngleEdge [e]) + V k * sin (mr m AngleEdge [e]))%R).
    { intros k Hk. destruct (Un k Hk) as (a & b & _ & Eab). destruct (UV k a b Eab) as [<- <-]. exact Eab. }
    intros k Hk. destruct (Rot Eu k Hk) as [Q1 Q2]. split; [exact Q1|]. intros e He. rewrite (Q2 e He).
    destruct (Un k Hk) as (a & b & Z0 & Eab). destruct (UV k a b Eab) as [<- <-]. destruct Z0 as [->|[-> ->]]; cbn [F RA]; ring.
Qed.
