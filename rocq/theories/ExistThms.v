(** Proof that the discrete equations have exactly one solution. *)
From Coq Require Import ZArith Reals List Bool Lia Lra.
From Verif Require Import Arith Arrays Prog Conc Launch Mesh AuxVars Tend Model Hex RSum Spec MeshProof MeshMem MeshR KernBase Ready StepFn StepVal StepRun StepThms RealTend FieldInv Vort Sim SimThms Driver DriverFn Lip Diff TimeStep TimeConv TimeThms Order4 Smooth Order4Thms Picard.
Import ListNotations.
Open Scope Z_scope.

(** Two sets of fields with the same values on the cells, edges and layers of the mesh. *)
Definition same_fields (S : setup RA) (H V : Z -> Z -> R) (Q : Z -> Z -> Z -> R) (H' V' : Z -> Z -> R) (Q' : Z -> Z -> Z -> R) : Prop :=
  forall k, 0 <= k < d_nlayers (sdims S) -> (forall c, 0 <= c < d_ncells (sdims S) -> H c k = H' c k) /\ (forall e, 0 <= e < d_nedges (sdims S) -> V e k = V' e k) /\
  (forall l c, 0 <= l < ntracers (par_of S) -> 0 <= c < d_ncells (sdims S) -> Q l c k = Q' l c k).
(** Positive thickness. *)
Definition positive_thickness (S : setup RA) (H : Z -> Z -> R) : Prop :=
  forall c k, 0 <= c < d_ncells (sdims S) -> 0 <= k < d_nlayers (sdims S) -> (0 < H c k)%R.

Lemma der_solution (S : setup RA) (Hok : setup_ok S) (Hdc : (0 < (dc (mesh_of_setup S) : R))%R) w T (Y : R -> fields RA) m0 : ready S m0 ->
  (forall t p, (0 <= t <= T)%R -> vplc S p -> derivable_pt_lim (fun s => val (Y s) p) t (w * ff S m0 t (Y t) p)%R) ->
  solution S w T (fun t => fh (Y t)) (fun t => fv (Y t)) (fun t => ft (Y t)).
Proof.
  intros Hr D t m Ht Fm Sm. destruct (tendency_ex S Hok t (Y t)) as [k Kk]. destruct (fresh_spec S Hok RK4 m Fm) as [Rm Zm].
  destruct (Kk St m) as [B1 B2]; [discriminate|exact Rm|exact Sm|now apply zero_disabled|]. split; [|exact B2]. intros o Ho. destruct (B1 o Ho) as (m' & -> & Hk). exists m'. split; [reflexivity|].
  intros j Hj. destruct (Hk j Hj) as (K1 & K2 & K3). pose proof (tend_gp S Hok Hdc m0 Hr t _ _ Kk) as E. split; [|split].
  - intros c Hc. rewrite K1 by exact Hc. change (fh k c j) with (val k (PH c j)). rewrite E by (cbn; tauto). apply (D t (PH c j) Ht). cbn; tauto.
  - intros e He. rewrite K2 by exact He. change (fv k e j) with (val k (PV e j)). rewrite E by (cbn; tauto). apply (D t (PV e j) Ht). cbn; tauto.
  - intros l c Hl Hc. rewrite K3 by assumption. change (ft k l c j) with (val k (PT l c j)). rewrite E by (cbn; tauto). apply (D t (PT l c j) Ht). cbn; tauto.
Qed.
Lemma local_solution (S : setup RA) (Hok : setup_ok S) (Hdc : (0 < (dc (mesh_of_setup S) : R))%R) (w T0 : R) m0 (y0 : fields RA) : ready S m0 -> (0 < T0)%R -> lipschitz_forcing S T0 -> posf S y0 ->
  exists (T : R) (Y : R -> fields RA), (0 < T <= T0)%R /\ (forall p, vplc S p -> val (Y 0%R) p = val y0 p) /\ (forall t, (0 <= t <= T)%R -> posf S (Y t)) /\
  forall t p, (0 <= t <= T)%R -> vplc S p -> derivable_pt_lim (fun s => val (Y s) p) t (w * ff S m0 t (Y t) p)%R.
Proof.
  intros Hr HT HF PY. destruct (forcing_lip S T0 m0 HF) as (L & HL & FP).
  destruct (plc_max S (fun p b => (Rabs (val y0 p) <= b)%R)) as (B0 & HB & B1).
  { intros; lra. } { intros p Hp. exists (Rabs (val y0 p)). split; [apply Rabs_pos|lra]. }
  destruct (plc_max S (fun p b => match p with PH c k => (0 < fh y0 c k /\ 1 <= b * fh y0 c k)%R | _ => True end)) as (X & HX & X1).
  { intros [c k|e k|l c k] M N HMN H; auto. destruct H. split; [assumption|]. assert (M * fh y0 c k <= N * fh y0 c k)%R by (apply Rmult_le_compat_r; lra). lra. }
  { intros [c k|e k|l c k] Hp; try (exists 0%R; split; [lra|exact I]). pose proof (PY c k Hp) as P. exists (/ fh y0 c k)%R. split; [left; now apply Rinv_0_lt_compat|]. split; [exact P|]. rewrite Rinv_l by (apply Rgt_not_eq, P). lra. }
  pose proof (Rinv_0_lt_compat (X + 1) ltac:(lra)) as IX. set (d := (/ (X + 1) / 2)%R). assert (Hd : (0 < d)%R) by (unfold d; lra).
  assert (Tb : forall z, close S d z y0 -> box S (B0 + d) d z).
  { intros z Hz. split.
    - intros p Hp. specialize (Hz p Hp). specialize (B1 p Hp). split_Rabs; lra.
    - intros c k Hp. specialize (Hz _ Hp). destruct (X1 (PH c k) Hp) as [A1 A2]. cbn [val] in Hz. apply Rabs_le_inv in Hz.
      assert (/ (X + 1) <= fh y0 c k)%R. { apply (Rmult_le_reg_l (X + 1)); [lra|]. rewrite Rinv_r by lra. lra. }
      unfold d in *. lra. }
  destruct (gp_bnd S (B0 + d) d Hd Hok Hdc m0 Hr) as (M1 & HM1 & G).
  destruct (plc_max S (fun p b => (Rabs (fp S m0 p 0) <= b)%R)) as (M2 & HM2 & G2).
  { intros; lra. } { intros p Hp. exists (Rabs (fp S m0 p 0)). split; [apply Rabs_pos|lra]. }
  set (M3 := (M1 + M2 + L * T0 + L)%R). assert (LT : (0 <= L * T0)%R) by (apply Rmult_le_pos; lra). assert (H3 : (0 <= M3)%R) by (unfold M3; lra).
  set (M := (Rabs w * M3)%R). assert (HM : (0 <= M)%R) by (apply Rmult_le_pos; [apply Rabs_pos|exact H3]).
  pose proof (Rinv_0_lt_compat (M + 1) ltac:(lra)) as IM. set (T := Rmin T0 (Rmin (d * / (M + 1)) (/ 2 * / (M + 1)))%R).
  assert (HT1 : (0 < T)%R) by (unfold T; apply Rmin_glb_lt; [exact HT|apply Rmin_glb_lt; apply Rmult_lt_0_compat; lra]).
  assert (HT2 : (T <= T0)%R) by apply Rmin_l.
  assert (Q1 : (M * T <= d)%R). { assert (T <= d * / (M + 1))%R by (unfold T; eapply Rle_trans; [apply Rmin_r|apply Rmin_l]). assert ((M + 1) * T <= (M + 1) * (d * / (M + 1)))%R by (apply Rmult_le_compat_l; lra). replace ((M + 1) * (d * / (M + 1)))%R with d in * by (field; lra). lra. }
  assert (Q2 : (M * T <= / 2)%R). { assert (T <= / 2 * / (M + 1))%R by (unfold T; eapply Rle_trans; [apply Rmin_r|apply Rmin_r]). assert ((M + 1) * T <= (M + 1) * (/ 2 * / (M + 1)))%R by (apply Rmult_le_compat_l; lra). replace ((M + 1) * (/ 2 * / (M + 1)))%R with (/ 2)%R in * by (field; lra). lra. }
  destruct (picard S (fun t y p => w * ff S m0 t y p)%R (box S (B0 + d) d) T M d HT1 HM ltac:(lra) y0 Tb) as (Y & Y0 & Yr & YD); [| |exact Q1|exact Q2|].
  - intros t y p Ht Hy Hp. rewrite Rabs_mult. apply Rmult_le_compat_l; [apply Rabs_pos|]. destruct (G p Hp) as [G1 _]. specialize (G1 y Hy). specialize (G2 p Hp). pose proof (FP p t 0%R Hp ltac:(lra) ltac:(lra)) as F1. rewrite Rminus_0_r, (Rabs_pos_eq t) in F1 by lra.
    assert (L * t <= L * T0)%R by (apply Rmult_le_compat_l; lra). unfold ff, M3. split_Rabs; lra.
  - intros t t' y z p e Ht Ht' Hy Hz Hp He Hc. replace (w * ff S m0 t y p - w * ff S m0 t' z p)%R with (w * (ff S m0 t y p - ff S m0 t' z p))%R by ring. rewrite Rabs_mult. unfold M. rewrite Rmult_assoc. apply Rmult_le_compat_l; [apply Rabs_pos|].
    destruct (G p Hp) as [_ G1]. specialize (G1 y z e Hy Hz He Hc). pose proof (FP p t t' Hp ltac:(lra) ltac:(lra)) as F1. unfold ff.
    replace (gp S m0 p y + fp S m0 p t - (gp S m0 p z + fp S m0 p t'))%R with ((gp S m0 p y - gp S m0 p z) + (fp S m0 p t - fp S m0 p t'))%R by ring.
    eapply Rle_trans; [apply Rabs_triang|]. pose proof (Rabs_pos (t - t')). unfold M3. nra.
  - exists T, Y. split; [lra|]. split; [exact Y0|]. split; [|exact YD]. intros t Ht c k Hp. destruct (Tb _ (Yr t Ht)) as [_ P]. specialize (P c k Hp). lra.
Qed.
Lemma smooth_lipschitz S T : (0 <= T)%R -> smooth_forcing S T -> lipschitz_forcing S T.
Proof.
  intros HT H g Eg x y. destruct (H g Eg) as (A & B & C).
  assert (W : forall F, four_derivatives F T -> exists L, (0 <= L)%R /\ forall t t', (0 <= t <= T)%R -> (0 <= t' <= T)%R -> (Rabs (F x y t - F x y t') <= L * Rabs (t - t'))%R).
  { intros F (D & HD). destruct (HD x y) as (D0 & D1 & _). destruct (cont_bound (D 1%nat x y) T HT) as (b & Hb & Bb).
    { intros t Ht. apply derivable_continuous_pt. exists (D 2%nat x y t). apply D1; [lia|exact Ht]. }
    exists b. split; [exact Hb|]. intros t t' Ht Ht'. rewrite <- !D0. apply (der_lip T (D 0%nat x y) (D 1%nat x y) b); auto. intros; apply D1; [lia|assumption]. }
  destruct (W _ A) as (a & Ha & A1). destruct (W _ B) as (b & Hb & B1). destruct (W _ C) as (c & Hc & C1). exists (a + b + c)%R. intros t t' Ht Ht'. pose proof (Rabs_pos (t - t')). specialize (A1 t t' Ht Ht'). specialize (B1 t t' Ht Ht'). specialize (C1 t t' Ht Ht'). split; [|split]; nra.
Qed.
Lemma solution_less S w T T' H V Q : (T' <= T)%R -> solution S w T H V Q -> solution S w T' H V Q.
Proof. intros L HS t m Ht. apply HS. lra. Qed.
Lemma lipschitz_less S T T' : (T' <= T)%R -> lipschitz_forcing S T -> lipschitz_forcing S T'.
Proof. intros L H g Eg x y. destruct (H g Eg x y) as (K & HK). exists K. intros t t' Ht Ht'. apply HK; lra. Qed.
Lemma smooth_less S T T' : (T' <= T)%R -> smooth_forcing S T -> smooth_forcing S T'.
Proof.
  intros L H g Eg. assert (W : forall F, four_derivatives F T -> four_derivatives F T').
  { intros F (D & HD). exists D. intros x y. destruct (HD x y) as (A & B & b & Hb). split; [exact A|]. split; [intros i t Hi Ht; apply B; [exact Hi|lra]|]. exists b. intros t Ht. apply Hb. lra. }
  destruct (H g Eg) as (A & B & C). auto.
Qed.

Lemma C92_solutions_exist_proof :
forall (S : setup RA) (w T0 : R) (h v : Z -> Z -> R) (q : Z -> Z -> Z -> R),
  setup_ok S -> (0 < (dc (mesh_of_setup S) : R))%R -> (0 < T0)%R -> lipschitz_forcing S T0 -> positive_thickness S h ->
  exists (T : R) (H V : R -> Z -> Z -> R) (Q : R -> Z -> Z -> Z -> R), (0 < T <= T0)%R /\ solution S w T H V Q /\
  same_fields S (H 0%R) (V 0%R) (Q 0%R) h v q /\ forall t, (0 <= t <= T)%R -> positive_thickness S (H t).
Proof.
  intros S w T0 h v q Hok Hdc HT HF HP.
  destruct (fresh_any S Hok RK4 (fun _ _ => 0%R)) as (m0 & F0 & _). destruct (fresh_spec S Hok RK4 m0 F0) as [R0 _].
  destruct (local_solution S Hok Hdc w T0 m0 (mkFields (A:=RA) h v q) R0 HT HF) as (T & Y & HT' & Y0 & YP & YD).
  { intros c k [Hc Hk]. now apply HP. }
  exists T, (fun t => fh (Y t)), (fun t => fv (Y t)), (fun t => ft (Y t)). split; [exact HT'|]. split; [now apply (der_solution S Hok Hdc w T Y m0)|]. split.
  - intros k Hk. split; [|split].
    + intros c Hc. apply (Y0 (PH c k)). cbn; tauto.
    + intros e He. apply (Y0 (PV e k)). cbn; tauto.
    + intros l c Hl Hc. apply (Y0 (PT l c k)). cbn; tauto.
  - intros t Ht c k Hc Hk. apply YP; [exact Ht|]. cbn; tauto.
Qed.

Lemma C92_solutions_are_unique_proof :
forall (S : setup RA) (T : R) (H V H' V' : R -> Z -> Z -> R) (Q Q' : R -> Z -> Z -> Z -> R),
  setup_ok S -> (0 < (dc (mesh_of_setup S) : R))%R -> lipschitz_forcing S T ->
  solution S 1 T H V Q -> solution S 1 T H' V' Q' -> (forall t, (0 <= t <= T)%R -> positive_thickness S (H t)) -> (forall t, (0 <= t <= T)%R -> positive_thickness S (H' t)) ->
  same_fields S (H 0%R) (V 0%R) (Q 0%R) (H' 0%R) (V' 0%R) (Q' 0%R) ->
  forall t, (0 <= t <= T)%R -> same_fields S (H t) (V t) (Q t) (H' t) (V' t) (Q' t).
Proof.
  intros S T H V H' V' Q Q' Hok Hdc HF HS HS' HP HP' E0 t [[Ht | <-] HT]; [|exact E0].
  destruct (fresh_any S Hok (LSRK 1) (fun a ix => match a, ix with HCell St, [c; k] => H 0%R c k | VnEdge St, [e; k] => V 0%R e k | TrCell St, [l; c; k] => Q 0%R l c k | _, _ => 0%R end)) as (m & Fm & E).
  destruct (fresh_spec S Hok (LSRK 1) m Fm) as [R0 _].
  assert (Sm : state_is S m (H 0%R) (V 0%R) (Q 0%R)). { intros j _. split; [|split]; intros; [apply (proj1 (E [c; j]))|apply (proj1 (proj2 (E [e; j])))|apply (proj2 (proj2 (E [l; c; j])))]. }
  assert (Sm' : state_is S m (H' 0%R) (V' 0%R) (Q' 0%R)).
  { intros j Hj. destruct (Sm j Hj) as (A1 & A2 & A3). destruct (E0 j Hj) as (B1 & B2 & B3). split; [|split]; intros; [rewrite A1 by assumption; now apply B1|rewrite A2 by assumption; now apply B2|rewrite A3 by assumption; now apply B3]. }
  destruct (forcing_lip S t m (lipschitz_less S T t HT HF)) as (L & HL & FP).
  assert (Kn : known (LSRK 1)) by (unfold known; tauto). assert (I0 : inv S (LSRK 1) m) by (split; [exact R0|discriminate]).
  assert (W : forall G U P, solution S 1 T G U P -> (forall t, (0 <= t <= T)%R -> positive_thickness S (G t)) -> holds S St m (traj G U P 0) ->
    exists C, (0 <= C)%R /\ forall N, (C <= IZR N)%R -> 1 <= N -> exists z, holds S St (run_fn S (LSRK 1) (loop_steps (A:=RA) N (t / IZR N)%R) m) z /\ close S (C / IZR N) z (traj G U P t)).
  { intros G U P Hs Hp Hh. pose proof (solution_der S Hok Hdc 1 t G U P m R0 (solution_less S 1 T t G U P HT Hs)) as D. rewrite <- weight_1 in D.
    destruct (converges S Hok Hdc m R0 (LSRK 1) Kn t Ht (traj G U P) D) with (L := L) as (C & HC & X); auto.
    { intros s c k Hs' [Hc Hk]. apply Hp; [lra|exact Hc|exact Hk]. } { discriminate. }
    exists C. split; [exact HC|]. intros N H1 H2. apply X; auto. }
  destruct (W H V Q HS HP Sm) as (C & HC & X). destruct (W H' V' Q' HS' HP' Sm') as (C' & HC' & X').
  assert (Z : forall p, vplc S p -> val (traj H V Q t) p = val (traj H' V' Q' t) p).
  { intros p Hp. apply cond_eq. intros e He.
    destruct (archimed (C + C' + (C + C') / e)) as [A1 _]. set (N := up (C + C' + (C + C') / e)) in *. assert (P : (0 <= (C + C') / e)%R) by (apply Rmult_le_pos; [lra|left; now apply Rinv_0_lt_compat]).
    assert (N1 : 1 <= N). { assert (0 < N) by (apply lt_IZR; lra). lia. } assert (NR : (1 <= IZR N)%R) by (apply IZR_le; exact N1).
    destruct (X N ltac:(lra) N1) as (z & Hz & Cz). destruct (X' N ltac:(lra) N1) as (z' & Hz' & Cz'). specialize (Cz p Hp). specialize (Cz' p Hp).
    assert (Ez : val z p = val z' p).
    { destruct p as [c j|e' j|l c j]; cbn [vplc] in Hp; destruct (Hz j) as (Z1 & Z2 & Z3); try tauto; destruct (Hz' j) as (Z1' & Z2' & Z3'); try tauto; cbn [val].
      - rewrite <- Z1, <- Z1' by tauto. reflexivity.
      - rewrite <- Z2, <- Z2' by tauto. reflexivity.
      - rewrite <- Z3, <- Z3' by tauto. reflexivity. }
    rewrite Ez in Cz. assert (Y : (Rabs (val (traj H V Q t) p - val (traj H' V' Q' t) p) <= C / IZR N + C' / IZR N)%R) by (split_Rabs; lra).
    eapply Rle_lt_trans; [exact Y|]. apply (Rmult_lt_reg_r (IZR N)); [lra|]. replace ((C / IZR N + C' / IZR N) * IZR N)%R with (C + C')%R by (field; lra).
    apply (Rmult_lt_reg_r (/ e)); [now apply Rinv_0_lt_compat|]. replace (e * IZR N * / e)%R with (IZR N) by (field; lra). unfold Rdiv in A1, P. lra. }
  intros k Hk. split; [|split].
  - intros c Hc. apply (Z (PH c k)). cbn; tauto.
  - intros e He. apply (Z (PV e k)). cbn; tauto.
  - intros l c Hl Hc. apply (Z (PT l c k)). cbn; tauto.
Qed.

Lemma C92_runs_with_small_steps_agree_proof :
forall (S : setup RA) (T0 : R) (h v : Z -> Z -> R) (q : Z -> Z -> Z -> R),
  setup_ok S -> (0 < (dc (mesh_of_setup S) : R))%R -> (0 < T0)%R -> (disable_h (par_of S) = true \/ disable_vn (par_of S) = true -> hook S = None) -> smooth_forcing S T0 -> positive_thickness S h ->
  exists (T C : R) (h' v' : Z -> Z -> R) (q' : Z -> Z -> Z -> R), (0 < T <= T0)%R /\ positive_thickness S h' /\ forall N, 1 <= N -> (C <= IZR N)%R ->
  forall m : mem RA, fresh S RK4 m -> state_is S m h v q ->
  always (sdims S) (stepper_run S RK4 (loop_steps (A:=RA) N (T / IZR N)%R)) m (fun m' => state_near S (C / IZR N ^ 4) m' h' v' q').
Proof.
  intros S T0 h v q Hok Hdc HT Uf HF HP.
  destruct (C92_solutions_exist_proof S 1%R T0 h v q Hok Hdc HT (smooth_lipschitz S T0 ltac:(lra) HF) HP) as (T & H & V & Q & HT' & HS & E0 & PP).
  destruct (C91_rk4_is_of_order_four_proof S T H V Q Hok Hdc (proj1 HT') Uf (smooth_less S T0 T (proj2 HT') HF) HS) as (C & X).
  { intros t c k Ht Hc Hk. now apply PP. }
  exists T, C, (H T), (V T), (Q T). split; [exact HT'|]. split; [apply PP; lra|]. intros N HN HC m Fm Sm. apply X; auto.
  intros k Hk. destruct (Sm k Hk) as (A1 & A2 & A3). destruct (E0 k Hk) as (B1 & B2 & B3). split; [|split]; intros; [rewrite A1 by assumption; symmetry; now apply B1|rewrite A2 by assumption; symmetry; now apply B2|rewrite A3 by assumption; symmetry; now apply B3].
Qed.

