(** Proofs of the properties of changes of units, layers and builds. *)
From Coq Require Import ZArith Reals List Bool Lia Lra FunctionalExtensionality.
From Verif Require Import Arith Arrays Prog Conc Launch Mesh AuxVars Tend Model Hex RSum Spec MeshProof MeshMem MeshR Ready StepFn StepVal StepRun StepThms RealTend FieldInv Driver DriverFn EqThms ConsThms KernTend TendVal Sim SimScale.
Import ListNotations.
Open Scope Z_scope.

(** [S2] is the problem [S1] in other units: lengths are multiplied by [L], times by [T], thicknesses by [H].
    (The parameters of a velocity tendency that is disabled do not matter.) *)
Definition change_of_units (S1 S2 : setup RA) (L T H : R) : Prop :=
  let P1 := par_of S1 in let P2 := par_of S2 in
  nx (mesh_of_setup S2) = nx (mesh_of_setup S1) /\ ny (mesh_of_setup S2) = ny (mesh_of_setup S1) /\ (dc (mesh_of_setup S2) : R) = (L * dc (mesh_of_setup S1))%R /\
  ntracers P2 = ntracers P1 /\ disable_h P2 = disable_h P1 /\ disable_vn P2 = disable_vn P1 /\
  (disable_vn P1 = false -> (f0 P2 * T = f0 P1)%R /\ (grav P2 * (H * T ^ 2) = L ^ 2 * grav P1)%R /\
    (Rmax 0 (visc_del2 P2) * T = L ^ 2 * Rmax 0 (visc_del2 P1))%R /\ (Rmax 0 (visc_del4 P2) * T = L ^ 4 * Rmax 0 (visc_del4 P1))%R) /\
  (Rmax 0 (eddy_diff2 P2) * T = L ^ 2 * Rmax 0 (eddy_diff2 P1))%R /\ (Rmax 0 (eddy_diff4 P2) * T = L ^ 4 * Rmax 0 (eddy_diff4 P1))%R /\
  match hook S1, hook S2 with
  | None, None => True
  | Some f1, Some f2 => forall x y t : R, (force_h f2 (L * x) (L * y) (T * t) = H / T * force_h f1 x y t /\
      force_vx f2 (L * x) (L * y) (T * t) = L / T ^ 2 * force_vx f1 x y t /\ force_vy f2 (L * x) (L * y) (T * t) = L / T ^ 2 * force_vy f1 x y t)%R
  | _, _ => False
  end.

Lemma unforced_units S1 S2 L T H : change_of_units S1 S2 L T H -> unforced S1 -> unforced S2.
Proof.
  intros (_ & _ & _ & _ & Dh & Dv & _ & _ & _ & K) U D. rewrite Dh, Dv in D. rewrite (U D) in K. destruct (hook S2); [contradiction|reflexivity].
Qed.

Section Units.
Context (S1 S2 : setup RA) (Hok1 : setup_ok S1) (Hok2 : setup_ok S2) (Hd1 : (0 < (dc (mesh_of_setup S1) : R))%R) (L T H : R) (HL : (0 < L)%R) (HT : T <> 0%R) (HH : H <> 0%R).
Context (U : change_of_units S1 S2 L T H) (Uf : unforced S1) (at_ : Z -> R) (kl : Z -> Z).
Context (Kl : forall j, 0 <= j < d_nlayers (sdims S2) -> 0 <= kl j < d_nlayers (sdims S1)).
Context (E0 : disable_vn (par_of S1) = false -> (Rmax 0 (visc_del4 (par_of S1)) <> 0)%R -> forall j, 0 <= j < d_nlayers (sdims S2) -> 0 <= layer0 S2 j < d_nlayers (sdims S2) /\ kl (layer0 S2 j) = layer0 S1 (kl j)).
Local Notation idz := (fun z : Z => z).
Local Notation one := (fun _ : Z => 1%R).
Lemma units_run st steps m1 m2 y1 y2 m1' m2' : ready S1 m1 -> ready S2 m2 -> disabled_zero S1 Tend m1 -> disabled_zero S2 Tend m2 ->
  holds S1 St m1 y1 -> holds S2 St m2 y2 -> sim S1 S2 idz idz kl one L T H at_ 1 y1 y2 ->
  exec (sdims S1) (stepper_run S1 st steps) m1 (OK m1') -> exec (sdims S2) (stepper_run S2 st (scaled_steps T steps)) m2 (OK m2') ->
  exists z1 z2, holds S1 St m1' z1 /\ holds S2 St m2' z2 /\ sim S1 S2 idz idz kl one L T H at_ 1 z1 z2.
Proof.
  pose proof U as (Ex & Ey & Ed & En & Dh & Dv & EV & Ed2 & Ed4 & Ek).
  assert (Hd2 : (0 < (dc (mesh_of_setup S2) : R))%R) by (rewrite Ed; now apply Rmult_lt_0_compat).
  apply (sim_run S1 S2 Hok1 Hok2 Hd1 Hd2 ltac:(now rewrite Ex, Ey) idz idz idz kl one L 1%R T H at_).
  - intros n1 n2 R1 R2. now apply (scale_sim S1 S2 Hok1 Hok2 Hd1 L HL Ex Ey Ed).
  - lra.
  - exact HT.
  - exact HH.
  - lra.
  - exact Kl.
  - exact Dh.
  - exact Dv.
  - exact En.
  - intros D0. destruct (EV D0) as (Ef & _ & _ & _). rewrite Ef. symmetry. apply Rmult_1_l.
  - intros D0. destruct (EV D0) as (_ & Eg & _ & _). replace (H * T * T)%R with (H * T ^ 2)%R by ring. rewrite Eg. cbn [pow]. rewrite Rmult_1_r. reflexivity.
  - intros D0. destruct (EV D0) as (_ & _ & Ev2 & _). rewrite Ev2. ring.
  - intros D0. destruct (EV D0) as (_ & _ & _ & Ev4). rewrite Ev4. ring.
  - rewrite Ed2. ring.
  - rewrite Ed4. ring.
  - exact E0.
  - intros n1 n2 t c R1 R2 Hc. unfold hkh. destruct (hook S1) as [f1|], (hook S2) as [f2|]; try contradiction; [|field; exact HT].
    rewrite (xc_scale S1 S2 Hok1 Hok2 L Ex Ey Ed n1 n2 R1 R2 c Hc), (yc_scale S1 S2 Hok1 Hok2 L Ex Ey Ed n1 n2 R1 R2 c Hc). apply Ek.
  - intros n1 n2 t e R1 R2 He. unfold hkv. destruct (hook S1) as [f1|], (hook S2) as [f2|]; try contradiction; [|field; exact HT].
    rewrite (xe_scale S1 S2 Hok1 Hok2 L Ex Ey Ed n1 n2 R1 R2 e He), (ye_scale S1 S2 Hok1 Hok2 L Ex Ey Ed n1 n2 R1 R2 e He), (ang_scale S1 S2 Hok1 Hok2 Ex Ey n1 n2 R1 R2 e He).
    destruct (Ek (mr n1 XEdge [e]) (mr n1 YEdge [e]) t) as (_ & -> & ->). cbn [Arith.F RA]. field. exact HT.
  - exact Uf.
  - exact (unforced_units S1 S2 L T H U Uf).
Qed.
End Units.

Lemma zero_disabled (S : setup RA) m : holds S Tend m (zero_fields (A:=RA)) -> disabled_zero S Tend m.
Proof. intros Hz q Hq. destruct (Hz q Hq) as (A1 & A2 & _). split; intros; [now apply A1|now apply A2]. Qed.

Lemma RV (S : setup RA) (Hok : setup_ok S) k : 0 <= k < d_nlayers (sdims S) -> 0 <= layer0 S k < d_nlayers (sdims S).
Proof.
  intros Hk. replace (layer0 S k) with (rv_layer (cfg_of S) k); [exact (rv_range S (ok_wfd S Hok) k Hk)|].
  destruct Hok as (_ & _ & H). unfold rv_layer, layer0. destruct (ksimd (cfg_of S)); [|reflexivity]. now rewrite H.
Qed.
Lemma units_program (S1 S2 : setup RA) (Hok1 : setup_ok S1) (Hok2 : setup_ok S2) (Hd1 : (0 < (dc (mesh_of_setup S1) : R))%R) L T H (HL : (0 < L)%R) (HT : T <> 0%R) (HH : H <> 0%R)
  (U : change_of_units S1 S2 L T H) (Uf : unforced S1) (N1 : 0 < d_nlayers (sdims S1)) (tr : Z -> R) (I1 I2 : initial RA) :
  (forall x y : R, ini_h I2 (L * x) (L * y) = H * ini_h I1 x y /\ ini_vx I2 (L * x) (L * y) = L / T * ini_vx I1 x y /\ ini_vy I2 (L * x) (L * y) = L / T * ini_vy I1 x y /\
    forall l, ini_tr I2 l (L * x) (L * y) = tr l * ini_tr I1 l x y)%R ->
  forall st steps m1' m2', exec (sdims S1) (program S1 st I1 steps) (mzero RA) (OK m1') ->
  exec (sdims S2) (program S2 st I2 (map (fun s => (T * fst s, T * snd s)%R) steps)) (mzero RA) (OK m2') ->
  forall k2, 0 <= k2 < d_nlayers (sdims S2) ->
  (forall c, 0 <= c < d_ncells (sdims S1) -> mr m2' (HCell St) [c; k2] = (H * mr m1' (HCell St) [c; 0%Z])%R) /\
  (forall e, 0 <= e < d_nedges (sdims S1) -> mr m2' (VnEdge St) [e; k2] = (L / T * mr m1' (VnEdge St) [e; 0%Z])%R) /\
  (forall l c, 0 <= l < ntracers (par_of S1) -> 0 <= c < d_ncells (sdims S1) -> mr m2' (TrCell St) [l; c; k2] = (tr l * mr m1' (TrCell St) [l; c; 0%Z])%R).
Proof.
  intros HI st steps m1' m2' X1 X2 k2 Hk2. pose proof U as (Ex & Ey & Ed & En & _).
  destruct (program_split S1 Hok1 st I1 steps (fun m m' => exec (sdims S1) (stepper_run S1 st steps) m (OK m'))) as [A1 _].
  { intros m Hm. destruct (prologue_spec S1 Hok1 st I1 m Hm) as (Rm & _). pose proof (hs_stepper_run S1 Hok1 st steps m (ready_wfm S1 Hok1 m Rm)) as G. apply hsafe_always in G. destruct G as [G [n Gn]]. split; [|exists n; exact Gn].
    intros o Ho. destruct (G o Ho) as (n' & -> & _). eauto. }
  set (steps2 := map (fun s => (T * fst s, T * snd s)%R) steps) in *.
  destruct (program_split S2 Hok2 st I2 steps2 (fun m m' => exec (sdims S2) (stepper_run S2 st steps2) m (OK m'))) as [A2 _].
  { intros m Hm. destruct (prologue_spec S2 Hok2 st I2 m Hm) as (Rm & _). pose proof (hs_stepper_run S2 Hok2 st steps2 m (ready_wfm S2 Hok2 m Rm)) as G. apply hsafe_always in G. destruct G as [G [n Gn]]. split; [|exists n; exact Gn].
    intros o Ho. destruct (G o Ho) as (n' & -> & _). eauto. }
  destruct (A1 _ X1) as (q1 & Q1 & m1 & B1 & C1). injection Q1 as <-. destruct (A2 _ X2) as (q2 & Q2 & m2 & B2 & C2). injection Q2 as <-.
  destruct (prologue_spec S1 Hok1 st I1 m1 B1) as (R1 & Z1 & Y1). destruct (prologue_spec S2 Hok2 st I2 m2 B2) as (R2 & Z2 & Y2).
  destruct (units_run S1 S2 Hok1 Hok2 Hd1 L T H HL HT HH U Uf tr (fun _ => 0)) with (st := st) (steps := steps) (m1 := m1) (m2 := m2) (y1 := ini_fields I1 m1) (y2 := ini_fields I2 m2) (m1' := m1') (m2' := m2') as (z1 & z2 & D1 & D2 & D3); auto using zero_disabled.
  - intros; lia.
  - intros _ _ j Hj. split.
    + apply (RV S2 Hok2 j Hj).
    + unfold layer0. destruct (ksimd (cfg_of S1)); reflexivity.
  - intros j Hj. unfold ini_fields. cbn [fh fv ft]. split; [|split].
    + intros c Hc. rewrite (xc_scale S1 S2 Hok1 Hok2 L Ex Ey Ed m1 m2 R1 R2 c Hc), (yc_scale S1 S2 Hok1 Hok2 L Ex Ey Ed m1 m2 R1 R2 c Hc). rewrite (proj1 (HI _ _)). cbn [Arith.F RA]. ring.
    + intros e He. rewrite (xe_scale S1 S2 Hok1 Hok2 L Ex Ey Ed m1 m2 R1 R2 e He), (ye_scale S1 S2 Hok1 Hok2 L Ex Ey Ed m1 m2 R1 R2 e He), (ang_scale S1 S2 Hok1 Hok2 Ex Ey m1 m2 R1 R2 e He).
      destruct (HI (mr m1 XEdge [e]) (mr m1 YEdge [e])) as (_ & -> & -> & _). cbn [fadd fmul fcos fsin RA Arith.F]. ring.
    + intros l c Hl Hc. rewrite (xc_scale S1 S2 Hok1 Hok2 L Ex Ey Ed m1 m2 R1 R2 c Hc), (yc_scale S1 S2 Hok1 Hok2 L Ex Ey Ed m1 m2 R1 R2 c Hc). destruct (HI (mr m1 XCell [c]) (mr m1 YCell [c])) as (_ & _ & _ & E). rewrite E. cbn [Arith.F RA]. ring.
  - destruct (D1 0 ltac:(lia)) as (G1 & G2 & G3). destruct (D2 k2 Hk2) as (K1 & K2 & K3). destruct (D3 k2 Hk2) as (W1 & W2 & W3).
    assert (EN : d_ncells (sdims S2) = d_ncells (sdims S1)) by (cbn [sdims dims_of d_ncells]; now rewrite Ex, Ey).
    assert (EE : d_nedges (sdims S2) = d_nedges (sdims S1)) by (cbn [sdims dims_of d_nedges]; now rewrite Ex, Ey).
    split; [|split].
    + intros c Hc. rewrite K1, G1, W1 by (rewrite ?EN; exact Hc). cbn [Arith.F RA]. ring.
    + intros e He. rewrite K2, G2, W2 by (rewrite ?EE; exact He). cbn [Arith.F RA]. ring.
    + intros l c Hl Hc. rewrite K3, G3, W3 by (rewrite ?EN, ?En; assumption). cbn [Arith.F RA]. ring.
Qed.
Lemma units_refl (S : setup RA) : change_of_units S S 1 1 1.
Proof.
  unfold change_of_units. cbv zeta. rewrite !pow1, !Rmult_1_r, !Rmult_1_l. do 6 (split; [reflexivity|]). split; [auto|]. do 2 (split; [reflexivity|]). destruct (hook S); [|exact I].
  intros x y t. rewrite !Rmult_1_l. replace (1 / 1)%R with 1%R by field. rewrite !Rmult_1_l. auto.
Qed.

Lemma C87_no_preferred_units_proof :
  forall (S1 S2 : setup RA) (st : stepper) (L T H : R) (tr : Z -> R) (I1 I2 : initial RA) (steps : list (R * R)) (m1 m2 : mem RA),
  setup_ok S1 -> setup_ok S2 -> (0 < (dc (mesh_of_setup S1) : R))%R -> (0 < L)%R -> T <> 0%R -> H <> 0%R -> change_of_units S1 S2 L T H ->
  (disable_h (par_of S1) = true \/ disable_vn (par_of S1) = true -> hook S1 = None) ->
  (forall x y : R, ini_h I2 (L * x) (L * y) = H * ini_h I1 x y /\ ini_vx I2 (L * x) (L * y) = L / T * ini_vx I1 x y /\ ini_vy I2 (L * x) (L * y) = L / T * ini_vy I1 x y /\
    forall l, ini_tr I2 l (L * x) (L * y) = tr l * ini_tr I1 l x y)%R ->
  exec (sdims S1) (program S1 st I1 steps) (mzero RA) (OK m1) ->
  exec (sdims S2) (program S2 st I2 (map (fun s => (T * fst s, T * snd s)%R) steps)) (mzero RA) (OK m2) ->
  forall k1 k2, 0 <= k1 < d_nlayers (sdims S1) -> 0 <= k2 < d_nlayers (sdims S2) ->
  (forall c, 0 <= c < d_ncells (sdims S1) -> mr m2 (HCell St) [c; k2] = (H * mr m1 (HCell St) [c; k1])%R) /\
  (forall e, 0 <= e < d_nedges (sdims S1) -> mr m2 (VnEdge St) [e; k2] = (L / T * mr m1 (VnEdge St) [e; k1])%R) /\
  (forall l c, 0 <= l < ntracers (par_of S1) -> 0 <= c < d_ncells (sdims S1) -> mr m2 (TrCell St) [l; c; k2] = (tr l * mr m1 (TrCell St) [l; c; k1])%R).
Proof.
  intros S1 S2 st L T H tr I1 I2 steps m1 m2 Ok1 Ok2 Hd HL HT HH U Uf HI X1 X2 k1 k2 Hk1 Hk2.
  destruct (units_program S1 S2 Ok1 Ok2 Hd L T H HL HT HH U Uf ltac:(lia) tr I1 I2 HI st steps m1 m2 X1 X2 k2 Hk2) as (A1 & A2 & A3).
  assert (HI1 : forall x y : R, (ini_h I1 (1 * x) (1 * y) = 1 * ini_h I1 x y /\ ini_vx I1 (1 * x) (1 * y) = 1 / 1 * ini_vx I1 x y /\ ini_vy I1 (1 * x) (1 * y) = 1 / 1 * ini_vy I1 x y /\
    forall l, ini_tr I1 l (1 * x) (1 * y) = 1 * ini_tr I1 l x y)%R).
  { intros x y. rewrite !Rmult_1_l. replace (1 / 1)%R with 1%R by field. rewrite !Rmult_1_l. repeat split. intros l. now rewrite Rmult_1_l. }
  assert (X1' : exec (sdims S1) (program S1 st I1 (map (fun s : R * R => (1 * fst s, 1 * snd s)%R) steps)) (mzero RA) (OK m1)).
  { rewrite (map_ext _ (fun s => s)); [rewrite map_id; exact X1|]. intros [t dt]. cbn [fst snd]. now rewrite !Rmult_1_l. }
  destruct (units_program S1 S1 Ok1 Ok1 Hd 1 1 1 ltac:(lra) ltac:(lra) ltac:(lra) (units_refl S1) Uf ltac:(lia) (fun _ => 1%R) I1 I1 HI1 st steps m1 m1 X1 X1' k1 Hk1) as (B1 & B2 & B3).
  split; [|split].
  - intros c Hc. rewrite A1, B1 by exact Hc. cbn [Arith.F RA]. ring.
  - intros e He. rewrite A2, B2 by exact He. cbn [Arith.F RA]. field. exact HT.
  - intros l c Hl Hc. rewrite A3, B3 by assumption. cbn [Arith.F RA]. ring.
Qed.

Lemma C87_layers_and_builds_proof :
  forall (S1 S2 : setup RA) (st : stepper) (kl : Z -> Z) (steps : list (R * R)) (m1 m2 m1' m2' : mem RA),
  setup_ok S1 -> setup_ok S2 -> (0 < (dc (mesh_of_setup S1) : R))%R -> change_of_units S1 S2 1 1 1 ->
  (disable_h (par_of S1) = true \/ disable_vn (par_of S1) = true -> hook S1 = None) ->
  (forall k, 0 <= k < d_nlayers (sdims S2) -> 0 <= kl k < d_nlayers (sdims S1)) ->
  let lead S k := if ksimd (cfg_of S) then k / lanes (cfg_of S) * lanes (cfg_of S) else k in
  (disable_vn (par_of S1) = true \/ (visc_del4 (par_of S1) <= 0)%R \/ forall k, 0 <= k < d_nlayers (sdims S2) -> kl (lead S2 k) = lead S1 (kl k)) ->
  fresh S1 st m1 -> fresh S2 st m2 ->
  let same (n1 n2 : mem RA) := forall k, 0 <= k < d_nlayers (sdims S2) ->
    (forall c, 0 <= c < d_ncells (sdims S1) -> mr n2 (HCell St) [c; k] = mr n1 (HCell St) [c; kl k]) /\
    (forall e, 0 <= e < d_nedges (sdims S1) -> mr n2 (VnEdge St) [e; k] = mr n1 (VnEdge St) [e; kl k]) /\
    (forall l c, 0 <= l < ntracers (par_of S1) -> 0 <= c < d_ncells (sdims S1) -> mr n2 (TrCell St) [l; c; k] = mr n1 (TrCell St) [l; c; kl k]) in
  same m1 m2 -> exec (sdims S1) (stepper_run S1 st steps) m1 (OK m1') -> exec (sdims S2) (stepper_run S2 st steps) m2 (OK m2') -> same m1' m2'  .
Proof.
  intros S1 S2 st kl steps m1 m2 m1' m2' Ok1 Ok2 Hd U Uf Kl lead HE F1 F2 same HS X1 X2.
  destruct (fresh_spec S1 Ok1 st m1 F1) as (R1 & Z1). destruct (fresh_spec S2 Ok2 st m2 F2) as (R2 & Z2).
  pose proof U as (Ex & Ey & Ed & En & _).
  assert (EN : d_ncells (sdims S2) = d_ncells (sdims S1)) by (cbn [sdims dims_of d_ncells]; now rewrite Ex, Ey).
  assert (EE : d_nedges (sdims S2) = d_nedges (sdims S1)) by (cbn [sdims dims_of d_nedges]; now rewrite Ex, Ey).
  assert (X2' : exec (sdims S2) (stepper_run S2 st (scaled_steps 1 steps)) m2 (OK m2')).
  { unfold scaled_steps. rewrite (map_ext _ (fun s => s)); [rewrite map_id; exact X2|]. intros [t dt]. cbn [fst snd]. now rewrite !Rmult_1_l. }
  destruct (units_run S1 S2 Ok1 Ok2 Hd 1 1 1 ltac:(lra) ltac:(lra) ltac:(lra) U Uf (fun _ => 1%R) kl Kl) with (st := st) (steps := steps) (m1 := m1) (m2 := m2) (y1 := fld St m1) (y2 := fld St m2) (m1' := m1') (m2' := m2') as (z1 & z2 & D1 & D2 & D3); auto using zero_disabled, holds_fld.
  - intros Dv V4 j Hj. split; [|destruct HE as [HE|[HE|HE]]; [congruence|exfalso; apply V4; now apply Rmax_left|exact (HE j Hj)]].
    apply (RV S2 Ok2 j Hj).
  - intros j Hj. destruct (HS j Hj) as (A1 & A2 & A3). cbn [fld fh fv ft]. split; [|split]; intros; [rewrite A1 by assumption; now rewrite !Rmult_1_l|rewrite A2 by assumption; replace (1 * (1 / 1) * 1)%R with 1%R by field; now rewrite Rmult_1_l|rewrite A3 by assumption; now rewrite !Rmult_1_l].
  - intros k Hk. destruct (D1 (kl k) (Kl k Hk)) as (G1 & G2 & G3). destruct (D2 k Hk) as (K1 & K2 & K3). destruct (D3 k Hk) as (W1 & W2 & W3). split; [|split].
    + intros c Hc. rewrite K1, G1, W1 by (rewrite ?EN; exact Hc). cbn [Arith.F RA]. ring.
    + intros e He. rewrite K2, G2, W2 by (rewrite ?EE; exact He). cbn [Arith.F RA]. field.
    + intros l c Hl Hc. rewrite K3, G3, W3 by (rewrite ?EN, ?En; assumption). cbn [Arith.F RA]. ring.
Qed.

