(** Proof that runs without viscosity, diffusion and forcing can be run backwards. *)
From Coq Require Import ZArith Reals List Bool Lia Lra.
From Verif Require Import Arith Arrays Prog Conc Launch Mesh AuxVars Tend Model Hex RSum Spec MeshProof MeshMem MeshR KernBase Ready StepFn StepVal StepRun StepThms RealTend FieldInv Vort Sim SimScale SimThms Driver DriverFn Lip Diff TimeStep TimeConv TimeThms Order4 Smooth Order4Thms Picard ExistThms.
Import ListNotations.
Open Scope Z_scope.

Ltac gen1 t := let a := fresh in generalize t; intros a; change R in a.
Ltac flin := repeat match goal with |- context [@fh RA ?y ?c ?k] => gen1 (@fh RA y c k) | |- context [@fv RA ?y ?c ?k] => gen1 (@fv RA y c k) | |- context [@ft RA ?y ?l ?c ?k] => gen1 (@ft RA y l c k) end;
  match goal with |- @eq _ ?x ?y => change (@eq R x y) end; field.

Section Rev.
Context (S1 S2 : setup RA) (Hok1 : setup_ok S1) (Hok2 : setup_ok S2) (Hd1 : (0 < (dc (mesh_of_setup S1) : R))%R) (U : change_of_units S1 S2 1 (-1) 1)
  (EL : d_nlayers (sdims S2) = d_nlayers (sdims S1)) (HK : hook S1 = None).
Local Notation idz := (fun z : Z => z).
Local Notation one := (fun _ : Z => 1%R).

Lemma rev_hook2 : hook S2 = None.
Proof using U HK. destruct U as (_ & _ & _ & _ & _ & _ & _ & _ & _ & K). rewrite HK in K. destruct (hook S2); [contradiction|reflexivity]. Qed.
Lemma rev_cells : d_ncells (sdims S2) = d_ncells (sdims S1).
Proof using U. destruct U as (Ex & Ey & _). cbn [sdims dims_of d_ncells]. now rewrite Ex, Ey. Qed.
Lemma rev_edges : d_nedges (sdims S2) = d_nedges (sdims S1).
Proof using U. destruct U as (Ex & Ey & _). cbn [sdims dims_of d_nedges]. now rewrite Ex, Ey. Qed.
Lemma rev_dc : (0 < (dc (mesh_of_setup S2) : R))%R.
Proof using U Hd1. destruct U as (_ & _ & Ed & _). rewrite Ed. lra. Qed.
Lemma rev_plc p : vplc S2 p <-> vplc S1 p.
Proof using U EL. assert (En : ntracers (par_of S2) = ntracers (par_of S1)) by apply U. destruct p; cbn [vplc]; rewrite ?rev_cells, ?rev_edges, ?EL, ?En; reflexivity. Qed.

Lemma rev_sim (time : R) y1 y2 k1 k2 : sim S1 S2 idz idz idz one 1 (-1) 1 one 1 y1 y2 -> tendency_of S1 time y1 k1 -> tendency_of S2 (-1 * time)%R y2 k2 -> sim S1 S2 idz idz idz one 1 (-1) 1 one (/ -1) k1 k2.
Proof using Hok1 Hok2 Hd1 U EL HK.
  pose proof U as (Ex & Ey & Ed & En & Dh & Dv & EV & Ed2 & Ed4 & Ek).
  assert (M0 : forall x, (0 <= Rmax 0 x)%R) by (intros; apply Rmax_l).
  apply (sim_tend S1 S2 Hok1 Hok2 Hd1 rev_dc ltac:(now rewrite Ex, Ey) idz idz idz idz one 1%R 1%R (-1)%R 1%R one).
  - intros n1 n2 R1 R2. now apply (scale_sim S1 S2 Hok1 Hok2 Hd1 1 Rlt_0_1 Ex Ey Ed).
  - lra.
  - lra.
  - lra.
  - lra.
  - intros j Hj. now rewrite <- EL.
  - exact Dh.
  - exact Dv.
  - exact En.
  - intros D0. destruct (EV D0) as (Ef & _ & _ & _). rewrite Ef. symmetry. apply Rmult_1_l.
  - intros D0. destruct (EV D0) as (_ & Eg & _ & _). replace (1 * -1 * -1)%R with (1 * (-1) ^ 2)%R by ring. rewrite Eg. ring.
  - intros D0. destruct (EV D0) as (_ & _ & Ev2 & _). rewrite Ev2. ring.
  - intros D0. destruct (EV D0) as (_ & _ & _ & Ev4). rewrite Ev4. ring.
  - rewrite Ed2. ring.
  - rewrite Ed4. ring.
  - intros D0 N0. destruct (EV D0) as (_ & _ & _ & Ev4). exfalso. pose proof (M0 (visc_del4 (par_of S2))). pose proof (M0 (visc_del4 (par_of S1))). apply N0. lra.
  - intros n1 n2 t c R1 R2 Hc. unfold hkh. rewrite HK, rev_hook2. field.
  - intros n1 n2 t e R1 R2 He. unfold hkv. rewrite HK, rev_hook2. field.
Qed.
(** The reversed state. *)
Definition revf (y : fields RA) : fields RA := mkFields (A:=RA) (fh y) (fun e k => (- fv y e k)%R) (ft y).
Definition sgp (p : plc) : R := match p with PV _ _ => 1%R | _ => (-1)%R end.
Lemma val_revf y p : val (revf y) p = (- sgp p * val y p)%R.
Proof using. destruct p; cbn [val revf fh fv ft sgp]; flin. Qed.
Lemma fp_none (S : setup RA) m p t : hook S = None -> fp S m p t = 0%R.
Proof using. intros E. destruct p; cbn [fp]; unfold hkh, hkv; rewrite ?E; reflexivity. Qed.
Lemma rev_ff m1 m2 t t' y p : ready S1 m1 -> ready S2 m2 -> vplc S1 p -> ff S2 m2 t (revf y) p = (sgp p * ff S1 m1 t' y p)%R.
Proof using Hok1 Hok2 Hd1 U EL HK.
  intros R1 R2 Hp. destruct (tendency_ex S1 Hok1 t' y) as [k1 K1]. destruct (tendency_ex S2 Hok2 (-1 * t')%R (revf y)) as [k2 K2].
  unfold ff. rewrite (fp_none S2) by apply rev_hook2. rewrite <- (fp_none S2 m2 p (-1 * t')%R rev_hook2). rewrite <- (tend_gp S2 Hok2 rev_dc m2 R2 _ _ _ K2 p) by now apply rev_plc. rewrite <- (tend_gp S1 Hok1 Hd1 m1 R1 _ _ _ K1 p Hp).
  assert (X : sim S1 S2 idz idz idz one 1 (-1) 1 one (/ -1) k1 k2).
  { apply (rev_sim t' y (revf y)); [|exact K1|exact K2]. intros j Hj. cbn [revf fh fv ft]. split; [|split]; intros; flin. }
  destruct p as [c k|e k|l c k]; cbn [vplc] in Hp; destruct (X k ltac:(rewrite EL; tauto)) as (A1 & A2 & A3); cbn [val sgp].
  - rewrite A1 by tauto. flin.
  - rewrite A2 by tauto. flin.
  - rewrite A3 by tauto. flin.
Qed.
Lemma rev_solution T H V Q : solution S1 1 T H V Q -> solution S2 1 T (fun t => H (T - t)%R) (fun t e k => (- V (T - t)%R e k)%R) (fun t => Q (T - t)%R).
Proof using Hok1 Hok2 Hd1 U EL HK.
  intros HS. destruct (fresh_any S1 Hok1 RK4 (fun _ _ => 0%R)) as (m1 & F1 & _). destruct (fresh_spec S1 Hok1 RK4 m1 F1) as [R1 _].
  destruct (fresh_any S2 Hok2 RK4 (fun _ _ => 0%R)) as (m2 & F2 & _). destruct (fresh_spec S2 Hok2 RK4 m2 F2) as [R2 _].
  pose proof (solution_der S1 Hok1 Hd1 1 T H V Q m1 R1 HS) as D.
  apply (der_solution S2 Hok2 rev_dc 1 T (fun t => revf (traj H V Q (T - t)%R)) m2 R2).
  intros t p Ht Hp. apply rev_plc in Hp. rewrite (rev_ff m1 m2 t (T - t) _ p R1 R2 Hp). specialize (D (T - t)%R p ltac:(lra) Hp).
  assert (D2 : derivable_pt_lim (fun s => val (traj H V Q (T - s)%R) p) t (1 * ff S1 m1 (T - t) (traj H V Q (T - t)) p * (0 - 1))%R).
  { apply (derivable_pt_lim_comp (fun s => T - s)%R (fun s => val (traj H V Q s) p)); [|exact D]. apply (derivable_pt_lim_minus (fun _ => T) (fun s => s)); [apply derivable_pt_lim_const|apply derivable_pt_lim_id]. }
  apply (derivable_pt_lim_scal _ (- sgp p)%R) in D2.
  assert (E : forall a, (fun s => val (revf (traj H V Q (T - s)%R)) p) a = mult_real_fct (- sgp p) (fun s => val (traj H V Q (T - s)%R) p) a) by (intros a; unfold mult_real_fct; apply val_revf).
  intros eps He. destruct (D2 eps He) as (d & G). exists d. intros h Hh0 Hh. specialize (G h Hh0 Hh). rewrite !E. replace (1 * (sgp p * ff S1 m1 (T - t) (traj H V Q (T - t)) p))%R with (- sgp p * (1 * ff S1 m1 (T - t) (traj H V Q (T - t)) p * (0 - 1)))%R by ring. exact G.
Qed.
End Rev.

(** The state of one memory with all velocities reversed is the state of the other. *)
Definition reversed (S : setup RA) (m m' : mem RA) : Prop :=
  state_is S m' (fun c k => mr m (HCell St) [c; k]) (fun e k => (- mr m (VnEdge St) [e; k])%R) (fun l c k => mr m (TrCell St) [l; c; k]).
Lemma near_more S d d' m H V Q : (d <= d')%R -> state_near S d m H V Q -> state_near S d' m H V Q.
Proof. intros Hd Hn k Hk. destruct (Hn k Hk) as (A1 & A2 & A3). split; [|split]; intros; eapply Rle_trans; eauto. Qed.
Lemma always_impl d p (m : mem RA) (P P' : mem RA -> Prop) : (forall m', P m' -> P' m') -> always d p m P -> always d p m P'.
Proof. intros H [A B]. split; [|exact B]. intros o Ho. destruct (A o Ho) as (m' & -> & X). exists m'. auto. Qed.

Lemma C95_there_and_back_proof :
forall (S S' : setup RA) (T : R) (H V : R -> Z -> Z -> R) (Q : R -> Z -> Z -> Z -> R),
  setup_ok S -> setup_ok S' -> (0 < (dc (mesh_of_setup S) : R))%R -> (0 < T)%R -> change_of_units S S' 1 (-1) 1 -> d_nlayers (sdims S') = d_nlayers (sdims S) -> hook S = None ->
  solution S 1 T H V Q -> (forall t, (0 <= t <= T)%R -> positive_thickness S (H t)) ->
  exists C : R, forall N, 1 <= N -> (C <= IZR N)%R -> forall m : mem RA, fresh S RK4 m -> state_is S m (H 0%R) (V 0%R) (Q 0%R) ->
  always (sdims S) (stepper_run S RK4 (loop_steps (A:=RA) N (T / IZR N)%R)) m (fun m1 => forall m2, fresh S' RK4 m2 -> reversed S m1 m2 ->
  always (sdims S') (stepper_run S' RK4 (loop_steps (A:=RA) N (T / IZR N)%R)) m2 (fun m3 => forall m4, reversed S m3 m4 -> state_near S (C / IZR N ^ 4) m4 (H 0%R) (V 0%R) (Q 0%R))).
Proof.
  intros S S' T H V Q Hok Hok' Hdc HT U EL HK HS HP.
  assert (SF : smooth_forcing S T) by (intros g E; congruence). assert (SF' : smooth_forcing S' T) by (intros g E; rewrite (rev_hook2 S S' U HK) in E; discriminate).
  destruct (C91_rk4_is_of_order_four_proof S T H V Q Hok Hdc HT (fun _ => HK) SF HS) as (C1 & G1); [intros t c k Ht Hc Hk; now apply HP|].
  pose proof (rev_solution S S' Hok Hok' Hdc U EL HK T H V Q HS) as HS'.
  destruct (C94_rk4_runs_from_nearby_states_proof S' T _ _ _ Hok' (rev_dc S S' Hdc U) HT (fun _ => rev_hook2 S S' U HK) SF' HS') as (C2 & G2).
  { intros t c k Ht Hc Hk. rewrite (rev_cells S S' U) in Hc. rewrite EL in Hk. apply HP; [lra|exact Hc|exact Hk]. }
  set (A1 := Rabs C1). set (A2 := Rabs C2). assert (P1 : (0 <= A1 /\ C1 <= A1)%R) by (split; [apply Rabs_pos|apply Rle_abs]). assert (P2 : (0 <= A2 /\ C2 <= A2)%R) by (split; [apply Rabs_pos|apply Rle_abs]). assert (P12 : (0 <= A1 * A2)%R) by (apply Rmult_le_pos; lra).
  exists (A1 + A2 + A1 * A2)%R. intros N HN HCN m Fm Sm. assert (Np : (1 <= IZR N)%R) by (apply IZR_le; lia).
  assert (N4 : (1 <= IZR N ^ 4)%R) by (apply pow_R1_Rle; lra). assert (N41 : (IZR N <= IZR N ^ 4)%R). { replace (IZR N) with (IZR N ^ 1)%R at 1 by ring. apply Rle_pow; [lra|lia]. }
  pose proof (Rinv_0_lt_compat (IZR N ^ 4) ltac:(lra)) as IN4. set (e := (A1 / IZR N ^ 4)%R). assert (He : (0 <= e)%R) by (apply Rmult_le_pos; lra).
  assert (He2 : (A2 * e <= 1)%R). { apply (Rmult_le_reg_r (IZR N ^ 4)); [lra|]. replace (A2 * e * IZR N ^ 4)%R with (A1 * A2)%R by (unfold e; field; lra). lra. }
  assert (He3 : (C2 * e <= 1)%R) by (assert (C2 * e <= A2 * e)%R by (apply Rmult_le_compat_r; lra); lra).
  eapply always_impl; [|apply G1; [exact HN|lra|exact Fm|exact Sm]]. intros m1 N1 m2 F2 V2.
  assert (N2 : state_near S' e m2 (H (T - 0)%R) (fun e k => (- V (T - 0)%R e k)%R) (Q (T - 0)%R)).
  { rewrite Rminus_0_r. intros k Hk. rewrite EL in Hk. rewrite (rev_cells S S' U), (rev_edges S S' U). replace (ntracers (par_of S')) with (ntracers (par_of S)) by (symmetry; apply U).
    destruct (N1 k Hk) as (B1 & B2 & B3). destruct (V2 k Hk) as (D1 & D2 & D3).
    assert (L : (C1 / IZR N ^ 4 <= e)%R) by (apply Rmult_le_compat_r; lra).
    split; [|split].
    - intros c Hc. rewrite D1 by exact Hc. eapply Rle_trans; [now apply B1|exact L].
    - intros i Hi. rewrite D2 by exact Hi. specialize (B2 i Hi). match goal with |- (Rabs ?x <= _)%R => replace x with (- (mr m1 (VnEdge St) [i; k] - V T i k))%R by ring end. rewrite Rabs_Ropp. lra.
    - intros l c Hl Hc. rewrite D3 by assumption. eapply Rle_trans; [now apply B3|exact L]. }
  eapply always_impl; [|apply (G2 N e HN ltac:(lra) He He3 m2 F2 N2)]. intros m3 N3 m4 V4. cbv beta in N3.
  assert (L : (C2 * (e + / IZR N ^ 4) <= (A1 + A2 + A1 * A2) / IZR N ^ 4)%R).
  { assert (C2 * (e + / IZR N ^ 4) <= A2 * (e + / IZR N ^ 4))%R by (apply Rmult_le_compat_r; lra). replace (A2 * (e + / IZR N ^ 4))%R with ((A2 + A1 * A2) * / IZR N ^ 4)%R in * by (unfold e; field; lra).
    assert ((A2 + A1 * A2) * / IZR N ^ 4 <= (A1 + A2 + A1 * A2) * / IZR N ^ 4)%R by (apply Rmult_le_compat_r; lra). unfold Rdiv. lra. }
  apply (near_more S _ _ m4 _ _ _ L). intros k Hk. destruct (V4 k Hk) as (D1 & D2 & D3). rewrite <- EL in Hk. destruct (N3 k Hk) as (B1 & B2 & B3). rewrite (rev_cells S S' U) in B1, B3. rewrite (rev_edges S S' U) in B2. replace (ntracers (par_of S')) with (ntracers (par_of S)) in B3 by (symmetry; apply U).
  replace (T - T)%R with 0%R in B1, B2, B3 by ring. split; [|split].
  - intros c Hc. rewrite D1 by exact Hc. now apply B1.
  - intros i Hi. rewrite D2 by exact Hi. specialize (B2 i Hi). match goal with |- (Rabs ?x <= _)%R => replace x with (- (mr m3 (VnEdge St) [i; k] - - V 0%R i k))%R by ring end. now rewrite Rabs_Ropp.
  - intros l c Hl Hc. rewrite D3 by assumption. now apply B3.
Qed.

Lemma C95_runs_can_be_reversed_proof :
forall (S S' : setup RA) (h v : Z -> Z -> R) (q : Z -> Z -> Z -> R),
  setup_ok S -> setup_ok S' -> (0 < (dc (mesh_of_setup S) : R))%R -> change_of_units S S' 1 (-1) 1 -> d_nlayers (sdims S') = d_nlayers (sdims S) -> hook S = None ->
  positive_thickness S h ->
  exists T C : R, (0 < T)%R /\ forall N, 1 <= N -> (C <= IZR N)%R -> forall m : mem RA, fresh S RK4 m -> state_is S m h v q ->
  always (sdims S) (stepper_run S RK4 (loop_steps (A:=RA) N (T / IZR N)%R)) m (fun m1 => forall m2, fresh S' RK4 m2 -> reversed S m1 m2 ->
  always (sdims S') (stepper_run S' RK4 (loop_steps (A:=RA) N (T / IZR N)%R)) m2 (fun m3 => forall m4, reversed S m3 m4 -> state_near S (C / IZR N ^ 4) m4 h v q)).
Proof.
  intros S S' h v q Hok Hok' Hdc U EL HK HP.
  destruct (C92_solutions_exist_proof S 1%R 1%R h v q Hok Hdc Rlt_0_1 ltac:(intros g E; congruence) HP) as (T & H & V & Q & HT & HS & E0 & PP).
  destruct (C95_there_and_back_proof S S' T H V Q Hok Hok' Hdc (proj1 HT) U EL HK HS PP) as (C & G).
  exists T, C. split; [apply HT|]. intros N HN HC m Fm Sm. eapply always_impl; [|apply (G N HN HC m Fm)].
  - intros m1 X m2 F2 V2. eapply always_impl; [|apply (X m2 F2 V2)]. intros m3 Y m4 V4. specialize (Y m4 V4). intros k Hk. destruct (E0 k Hk) as (B1 & B2 & B3). destruct (Y k Hk) as (A1 & A2 & A3).
    split; [|split]; intros; [rewrite <- B1 by assumption; now apply A1|rewrite <- B2 by assumption; now apply A2|rewrite <- B3 by assumption; now apply A3].
  - intros k Hk. destruct (Sm k Hk) as (A1 & A2 & A3). destruct (E0 k Hk) as (B1 & B2 & B3). split; [|split]; intros; [rewrite A1 by assumption; symmetry; now apply B1|rewrite A2 by assumption; symmetry; now apply B2|rewrite A3 by assumption; symmetry; now apply B3].
Qed.
