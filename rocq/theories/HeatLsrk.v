(** Tracer diffusion at rest in binary64: one step of the five-stage low storage method differs from the exact step by a few thousand units in the last place. *)
From Coq Require Import ZArith Reals List Bool Lia Lra.
From Coq Require Import Floats.SpecFloat.
From Flocq Require Import Core.Core.
From Verif Require Import Arith Arrays Prog Conc Launch Mesh AuxVars Tend Model Hex HexComb MeshProof MeshMem Over Formulas KernBase Terms KernAux KernTend TendFn StepFn Ready Rel RelRun Relate TendVal StepVal StepRun RSum FloatFacts FloatMass FloatRun FloatRest TrFloat TrFlux TrRun NearFloat Tableau Diffuse HeatFloat.
Import ListNotations.
Open Scope Z_scope.

Section Heat.
Context (cc ss : spec_float -> spec_float) (pp : spec_float).
Local Notation A := (SFA cc ss pp).
Context (S : setup A) (Hok : setup_ok S).
Local Notation cf := (cfg_of S).
Local Notation P := (par_of S).
Local Notation D := (sdims S).
Local Notation h := (mesh_of_setup S).
Local Notation X := (nx h).
Local Notation Y := (ny h).
Local Notation NC := (X * Y).
Local Notation nl := (d_nlayers D).
Implicit Types (m n : mem A).
Context (HX : 2 <= X) (HY : 2 <= Y).
Context (Hdc : ps (-100) 100 (dc h)) (Hf0 : bd 100 (f0 P)) (Hg : bd 100 (grav P)) (Hn2 : bd 100 (visc_del2 P)) (Hn4 : bd 100 (visc_del4 P)).
Context (Ek : hook S = None).
Context (Hh : Z -> F A) (HHh : forall k, 0 <= k < nl -> ps (-100) 100 (Hh k)).
Context (l k : Z) (Hl : 0 <= l < ntracers P) (Hk : 0 <= k < nl).
Context (HK : ps (-100) 100 (eddy_diff2 P)) (E2 : tracer_diff_enabled P = true) (E4 : tracer_hyperdiff_enabled P = false).
Local Notation resting := (resting cc ss pp S Hh).
Local Notation zT := (zT cc ss pp S).
Local Notation tr s n c := (mr n (TrCell s) [l; c; k]).
Local Notation al := (al cc ss pp S).
Local Notation Lr := (Lr cc ss pp S).

(** A coefficient of the method. *)
Lemma n_frac a b : a <> 0 -> Z.abs a < 2 ^ 53 -> 0 < b < 2 ^ 53 -> ne (fofZ a / fofZ b : F A)%fp (IZR a / IZR b) 1 (IZR (Z.abs a) / IZR b) (-53) 53.
Proof.
  intros Na Ha Hb. destruct (ofZ_val cc ss pp a Ha) as [Fa Ea]. destruct (ofZ_val cc ss pp b ltac:(lia)) as [Fb Eb].
  assert (Ra : rng (IZR (Z.abs a)) 0 53) by (apply rng_Z; lia). assert (Rb : rng (IZR b) 0 53) by (apply rng_Z; lia).
  pose proof (rng_pos _ _ _ Rb) as Pb. pose proof (rng_div _ _ _ _ _ _ Ra Rb) as RR.
  assert (Er : Rabs (IZR a / IZR b) = (IZR (Z.abs a) / IZR b)%R). { unfold Rdiv. rewrite Rabs_mult, <- abs_IZR, Rabs_inv, (Rabs_pos_eq (IZR b)) by lra. reflexivity. }
  set (r := (IZR (Z.abs a) / IZR b)%R) in *. destruct (rng_wide _ _ _ (-1000) 1000 RR ltac:(lia) ltac:(lia)) as [L1 L2].
  destruct (one_rnd (IZR a / IZR b) r) as [Sm Er2]; [rewrite Er; lra|exact L1|eapply Rle_trans; [exact L2|now apply bpow_le]|].
  destruct (div_ok cc ss pp (fofZ a) (fofZ b) Fa Fb) as [G1 G2]; rewrite ?Ea, ?Eb; [lra|exact Sm|].
  split; [exact G1|]. split; [rewrite Er; lra|]. split; [|exact RR]. rewrite G2, Ea, Eb. cbn [pow]. unfold q64. eapply Rle_trans; [exact Er2|]. right. ring.
Qed.
Definition aa (st : Z) : R := match st with 0%Z => 0 | 1%Z => 0.418 | 2%Z => 1.1922 | 3%Z => 1.6978 | _ => 1.5142 end%R.
Lemma ne_wb x r i b lo hi b' lo' hi' : ne x r i b lo hi -> (b <= b')%R -> rng b' lo' hi' -> ne x r i b' lo' hi'.
Proof.
  intros (H1 & H2 & H3 & H4) Hb HR. split; [exact H1|]. split; [lra|]. split; [|exact HR]. eapply Rle_trans; [exact H3|]. apply Rmult_le_compat_l; [apply q_sub|exact Hb].
Qed.
Lemma n_la st : 1 <= st < 5 -> ne (lsrk_a 5 st : F A) (tab_a st) 1 (aa st) (-2) 1.
Proof.
  intros Hs. assert (st = 1 \/ st = 2 \/ st = 3 \/ st = 4) as [-> | [-> | [-> | ->]]] by lia; (eapply ne_wb; [apply (n_frac _ _); cbn; lia|cbn [Z.abs aa]; lra|split; cbn; lra]).
Qed.
Lemma n_lb st : 0 <= st < 5 -> ne (lsrk_b 5 st : F A) (tab_b st) 1 (tab_b st) (-3) 0.
Proof.
  intros Hs. assert (st = 0 \/ st = 1 \/ st = 2 \/ st = 3 \/ st = 4) as [-> | [-> | [-> | [-> | ->]]]] by lia; (eapply ne_wb; [apply (n_frac _ _); cbn; lia|cbn [Z.abs tab_b]; lra|split; cbn; lra]).
Qed.
Lemma sc_tr (a : F A) n c : 0 <= c < NC -> tr Tend (scale_fn S a n) c = (tr Tend n c * a)%fp.
Proof.
  intros Hc. unfold scale_fn. cbv zeta. replace (0 <? ntracers P) with true by (symmetry; apply Z.ltb_lt; lia).
  rewrite upd_same by (cbn [rext]; apply inb3; rewrite (d_ntr S); repeat split; tauto || lia). cbn [on3]. rewrite !upd_other by discriminate. reflexivity.
Qed.
(** The tendency added to what the work array holds. *)
Lemma add_tr time n c : ready S n -> 0 <= c < NC -> tr Tend (tendency_fn S Tend St time Increment n) c = (tr Tend n c + fa cc ss pp S St l k n c + fd cc ss pp S St l k n c)%fp.
Proof.
  intros Hr Hc. rewrite (val_tr S (ok_wfd S Hok)); auto; [|discriminate|now apply ready_wfm].
  rewrite (gtr_val cc ss pp S Hok HX HY St l k n Hr Hl Hk 1%R); [|split; [change 1%R with (bpow radix2 0); now apply bpow_le|change 1%R with (bpow radix2 0); now apply bpow_le]|exact Hc].
  cbv zeta. now rewrite E2, E4.
Qed.
Lemma ne_z (x y : F A) r i b lo hi : ne x r i b lo hi -> zero y -> ne (x + y : F A)%fp r i b lo hi.
Proof.
  intros (F1 & R1 & Q1 & G1) [F0 V0]. assert (E : rnd (val x + val y) = val x) by (rewrite V0, Rplus_0_r; now apply rnd_val, fin_dbl).
  destruct (add_ok cc ss pp x y F1 F0) as [F V]; [unfold small; rewrite E; now apply fin_lt|]. split; [exact F|]. split; [exact R1|]. split; [|exact G1]. now rewrite V, E.
Qed.

Context (dt : F A) (Fdt : fin dt) (Hdt : (0 <= val dt /\ al * val dt <= 1)%R) (Bdt : bd 200 dt).
Context (B : R) (HB : rng B (-100) 100).
Lemma rngL (x : R) : (1 <= x <= 64)%R -> rng (x * B) (-150) 150.
Proof.
  intros Hx. assert (R6 : rng x 0 6) by (split; cbn; lra). eapply rng_wide; [exact (rng_mul _ _ _ _ _ _ R6 HB)|lia|lia].
Qed.
Lemma rngT (y : R) : (1 <= y <= 64)%R -> rng (2 * (al * (y * B))) (-460) 473.
Proof.
  intros Hy. assert (R2 : rng 2 1 1) by (split; cbn; lra). eapply rng_wide; [exact (rng_mul _ _ _ _ _ _ R2 (rng_mul _ _ _ _ _ _ (al_rng cc ss pp S Hdc HK) (rngL y Hy)))|lia|lia].
Qed.
(** A state between two stages: [g] the exact values of the state, [r] those of the work array. *)
Definition lst (g : Z -> R) (i : nat) (x : R) (r : Z -> R) (j : nat) (y : R) n : Prop :=
  (ready S n /\ resting St n /\ zT n) /\
  (forall c, 0 <= c < NC -> ne (tr St n c) (g c) i (x * B) (-150) 150) /\ (forall c, 0 <= c < NC -> ne (tr Tend n c) (r c) j (2 * (al * (y * B))) (-460) 473).
(** The update of the state at the end of a stage. *)
Lemma lst_upd g i x r y x' n st : 0 <= st < 5 -> (i <= 300)%nat -> (1 <= x <= 64)%R -> (1 <= y <= 64)%R -> (x + 2 * tab_b st * y <= x' <= 64)%R ->
  (forall c, 0 <= c < NC -> ne (tr St n c) (g c) i (x * B) (-150) 150) -> (forall c, 0 <= c < NC -> ne (tr Tend n c) (r c) (27 + i) (2 * (al * (y * B))) (-460) 473) ->
  forall c, 0 <= c < NC -> ne (tr St (axpy S St St dt (lsrk_b 5 st) n) c) (g c + val dt * tab_b st * r c) (31 + i) (x' * B) (-150) 150.
Proof.
  intros Hs Hi Hx Hy Hx' HS HT c Hc. pose proof (rng_pos _ _ _ HB) as B0. pose proof (n_lb st Hs) as NB. pose proof (rng_pos _ _ _ (proj2 (proj2 (proj2 NB)))) as b0.
  assert (yb : (0 < tab_b st * y)%R) by (apply Rmult_lt_0_compat; lra).
  assert (Re : (x * B + 2 * tab_b st * (y * B) = (x + 2 * tab_b st * y) * B)%R) by ring.
  assert (RX : rng (x * B + 2 * tab_b st * (y * B)) (-150) 150) by (rewrite Re; apply rngL; lra).
  pose proof (n_axpy cc ss pp S Hdc l k Hl Hk HK E2 E4 dt Fdt Hdt St St (lsrk_b 5 st) (tab_b st) n g (x * B)%R i r (27 + i)%nat (y * B)%R c NB ltac:(lia) ltac:(lia) (rngL y Hy) (rngL x Hx) RX Hc (HS c Hc) (HT c Hc)) as G.
  eapply ne_wb; [exact G| |apply rngL; lra]. rewrite Re. apply Rmult_le_compat_r; lra.
Qed.
(** Every stage but the first. *)
Lemma lst_step g i x r j y x' y' n st (t : F A) : 1 <= st < 5 -> (i <= 300)%nat -> (2 + j <= 26 + i)%nat -> (1 <= x <= 64)%R -> (1 <= y <= 64)%R ->
  (aa st * y + x <= y' <= 64)%R -> (x + 2 * tab_b st * y' <= x' <= 64)%R -> lst g i x r j y n ->
  let r' := fun c => (tab_a st * r c + Lr g c)%R in
  lst (fun c => g c + val dt * tab_b st * r' c)%R (31 + i) x' r' (27 + i) y' (lsrk_stage_fn S 5 t dt st n).
Proof.
  intros Hs Hi Hj Hx Hy Hy' Hx' (I0 & HS & HT) r'. pose proof (rng_pos _ _ _ HB) as B0. pose proof (rng_pos _ _ _ (al_rng cc ss pp S Hdc HK)) as A0.
  split; [now apply (rest_lsrk_stage cc ss pp S Hok Hdc Hf0 Hg Hn2 Hn4 Ek Hh HHh)|]. destruct I0 as (Hr & R1 & _).
  unfold lsrk_stage_fn. cbv zeta. set (n1 := scale_fn S (lsrk_a 5 st) n).
  assert (Q1 : ready S n1) by (eapply ready_cst; [apply cst_scale|exact Hr]).
  assert (S1 : resting St n1) by (eapply rest_other; [|exact R1]; intros a ix Ha; apply scale_other; apply (is_st_ne St); congruence).
  assert (HS1 : forall c, 0 <= c < NC -> ne (tr St n1 c) (g c) i (x * B) (-150) 150) by (intros c Hc; unfold n1; rewrite scale_other by reflexivity; auto).
  set (n2 := tendency_fn S Tend St (t + lsrk_c 5 st * dt)%fp Increment n1).
  assert (HS2 : forall c, 0 <= c < NC -> ne (tr St n2 c) (g c) i (x * B) (-150) 150) by (intros c Hc; unfold n2; rewrite tend_other by (discriminate || reflexivity); auto).
  pose proof (n_la st Hs) as NA. pose proof (rng_pos _ _ _ (proj2 (proj2 (proj2 NA)))) as a0.
  assert (ay : (0 < aa st * y)%R) by (apply Rmult_lt_0_compat; lra).
  assert (HT2 : forall c, 0 <= c < NC -> ne (tr Tend n2 c) (r' c) (27 + i) (2 * (al * (y' * B))) (-460) 473).
  { intros c Hc. unfold n2. rewrite add_tr by assumption.
    pose proof (z_fa cc ss pp S Hok HX HY Hdc Hh HHh l k Hk E2 E4 St n1 Q1 S1 g i (x * B)%R ltac:(lia) HS1 c Hc) as ZA.
    pose proof (n_fd cc ss pp S Hok HX HY Hdc Hh HHh l k Hk HK E2 E4 St n1 Q1 S1 g i (x * B)%R ltac:(lia) (rngL x Hx) HS1 c Hc) as ND.
    pose proof (ne_mul cc ss pp _ _ _ _ _ _ _ _ _ _ _ _ (HT c Hc) NA ltac:(lia) ltac:(lia) ltac:(lia)) as NM. rewrite <- sc_tr in NM by exact Hc. fold n1 in NM.
    apply (ne_up cc ss pp _ _ _ _ _ _ (26 + i)) in NM; [|lia]. pose proof (ne_z _ _ _ _ _ _ _ NM ZA) as NZ.
    assert (Es : (2 * (al * (y * B)) * aa st + 2 * (al * (x * B)) = 2 * (al * ((aa st * y + x) * B)))%R) by ring.
    assert (RS : rng (2 * (al * (y * B)) * aa st + 2 * (al * (x * B))) (-460) 473) by (rewrite Es; apply rngT; lra).
    pose proof (ne_add cc ss pp _ _ _ _ _ _ _ _ _ _ _ _ _ NZ ND ltac:(lia) RS ltac:(lia) ltac:(lia)) as NS.
    unfold r'. replace (tab_a st * r c + Lr g c)%R with (r c * tab_a st + Lr g c)%R by ring. eapply ne_wb; [exact NS| |apply rngT; lra].
    rewrite Es. apply Rmult_le_compat_l; [lra|]. apply Rmult_le_compat_l; [lra|]. apply Rmult_le_compat_r; lra. }
  assert (y1 : (1 <= y' <= 64)%R) by lra. split; intros c Hc.
  - apply (lst_upd g i x r' y'); auto; lia.
  - rewrite axpy_other by reflexivity. now apply HT2.
Qed.
(** The first stage. *)
Lemma lst_first (t : F A) n (u : Z -> R) x' : (1 + 2 * tab_b 0 * 1 <= x' <= 64)%R -> ready S n -> resting St n -> zT n -> (forall c, 0 <= c < NC -> fin (tr Tend n c)) ->
  (forall c, 0 <= c < NC -> fin (tr St n c) /\ (Rabs (val (tr St n c)) <= B)%R /\ val (tr St n c) = u c) ->
  lst (fun c => u c + val dt * tab_b 0 * Lr u c)%R 31 x' (Lr u) 27 1 (lsrk_stage_fn S 5 t dt 0 n).
Proof.
  intros Hx' Hr R1 Z1 FT HS. assert (HS0 : forall c, 0 <= c < NC -> ne (tr St n c) (u c) 0 (1 * B) (-150) 150).
  { intros c Hc. destruct (HS c Hc) as (X1 & X2 & <-). rewrite Rmult_1_l. apply ne_val; [exact X1|exact X2|]. eapply rng_wide; [exact HB|lia|lia]. }
  split; [now apply (rest_lsrk_stage cc ss pp S Hok Hdc Hf0 Hg Hn2 Hn4 Ek Hh HHh)|].
  unfold lsrk_stage_fn. cbv zeta. set (n1 := scale_fn S (lsrk_a 5 0) n).
  assert (Q1 : ready S n1) by (eapply ready_cst; [apply cst_scale|exact Hr]).
  assert (S1 : resting St n1) by (eapply rest_other; [|exact R1]; intros a ix Ha; apply scale_other; apply (is_st_ne St); congruence).
  assert (HS1 : forall c, 0 <= c < NC -> ne (tr St n1 c) (u c) 0 (1 * B) (-150) 150) by (intros c Hc; unfold n1; rewrite scale_other by reflexivity; auto).
  set (n2 := tendency_fn S Tend St (t + lsrk_c 5 0 * dt)%fp Increment n1).
  assert (HS2 : forall c, 0 <= c < NC -> ne (tr St n2 c) (u c) 0 (1 * B) (-150) 150) by (intros c Hc; unfold n2; rewrite tend_other by (discriminate || reflexivity); auto).
  assert (L1 : (1 <= 1 <= 64)%R) by lra.
  assert (HT2 : forall c, 0 <= c < NC -> ne (tr Tend n2 c) (Lr u c) 27 (2 * (al * (1 * B))) (-460) 473).
  { intros c Hc. unfold n2. rewrite add_tr by assumption.
    pose proof (z_fa cc ss pp S Hok HX HY Hdc Hh HHh l k Hk E2 E4 St n1 Q1 S1 u 0 (1 * B)%R ltac:(lia) HS1 c Hc) as ZA.
    pose proof (n_fd cc ss pp S Hok HX HY Hdc Hh HHh l k Hk HK E2 E4 St n1 Q1 S1 u 0 (1 * B)%R ltac:(lia) (rngL 1 L1) HS1 c Hc) as ND.
    apply (ne_up cc ss pp _ _ (26 + 0)); [lia|]. apply ne_add0; [|exact ND]. apply z_add; [|exact ZA]. unfold n1. rewrite sc_tr by exact Hc. apply z_mul_r; [now apply FT|apply z0]. }
  split; intros c Hc.
  - apply (lst_upd u 0 1 (Lr u) 1); auto; lia.
  - rewrite axpy_other by reflexivity. now apply HT2.
Qed.
(** One step: [Yv] and [Q] are the exact values of the stages. *)
Definition exact_step (u : Z -> R) (Yv Q : Z -> Z -> R) : Prop :=
  (forall c, Yv 0 c = u c) /\ (forall c, Q 1 c = Lr (Yv 0) c /\ Yv 1 c = (Yv 0%Z c + val dt * tab_b 0 * Q 1%Z c)%R) /\
  forall i, 1 <= i < 5 -> forall c, (Q (i + 1)%Z c = tab_a i * Q i c + Lr (Yv i) c /\ Yv (i + 1)%Z c = Yv i c + val dt * tab_b i * Q (i + 1)%Z c)%R.
Lemma lsrk5_near (t : F A) n : ready S n -> resting St n -> zT n -> (forall c, 0 <= c < NC -> fin (tr Tend n c)) -> (forall c, 0 <= c < NC -> fin (tr St n c) /\ (Rabs (val (tr St n c)) <= B)%R) ->
  let n' := lsrk_fn S 5 t dt n in ready S n' /\ resting St n' /\ zT n' /\ (forall c, 0 <= c < NC -> fin (tr Tend n' c)) /\
  exists Yv Q, exact_step (fun c => val (tr St n c)) Yv Q /\ forall c, 0 <= c < NC -> ne (tr St n' c) (Yv 5 c) 155 (55.05 * B) (-150) 150.
Proof.
  intros Hr HR HZ FT HS. set (u := fun c => val (tr St n c)).
  assert (HS' : forall c, 0 <= c < NC -> fin (tr St n c) /\ (Rabs (val (tr St n c)) <= B)%R /\ val (tr St n c) = u c) by (intros c Hc; destruct (HS c Hc) as [X1 X2]; exact (conj X1 (conj X2 eq_refl))).
  pose proof (lst_first t n u 1.3 ltac:(cbn [tab_b]; lra) Hr HR HZ FT HS') as I1.
  match type of I1 with lst ?g ?i ?x ?r ?j ?y ?n => set (r1 := r) in *; set (g1 := g) in *;
    pose proof (lst_step g1 i x r1 j y 2.605 1.72 n 1 t ltac:(lia) ltac:(lia) ltac:(lia) ltac:(lra) ltac:(lra) ltac:(cbn [aa]; lra) ltac:(cbn [tab_b]; lra) I1) as I2 end.
  cbv zeta in I2. match type of I2 with lst ?g ?i ?x ?r ?j ?y ?n => set (r2 := r) in *; set (g2 := fun c => (g1 c + val dt * tab_b 1 * r2 c)%R); change g with g2 in I2;
    pose proof (lst_step g2 i x r2 j y 10.269 4.656 n 2 t ltac:(lia) ltac:(lia) ltac:(lia) ltac:(lra) ltac:(lra) ltac:(cbn [aa]; lra) ltac:(cbn [tab_b]; lra) I2) as I3 end.
  cbv zeta in I3. match type of I3 with lst ?g ?i ?x ?r ?j ?y ?n => set (r3 := r) in *; set (g3 := fun c => (g2 c + val dt * tab_b 2 * r3 c)%R); change g with g3 in I3;
    pose proof (lst_step g3 i x r3 j y 35.695 18.175 n 3 t ltac:(lia) ltac:(lia) ltac:(lia) ltac:(lra) ltac:(lra) ltac:(cbn [aa]; lra) ltac:(cbn [tab_b]; lra) I3) as I4 end.
  cbv zeta in I4. match type of I4 with lst ?g ?i ?x ?r ?j ?y ?n => set (r4 := r) in *; set (g4 := fun c => (g3 c + val dt * tab_b 3 * r4 c)%R); change g with g4 in I4;
    pose proof (lst_step g4 i x r4 j y 55.05 63.22 n 4 t ltac:(lia) ltac:(lia) ltac:(lia) ltac:(lra) ltac:(lra) ltac:(cbn [aa]; lra) ltac:(cbn [tab_b]; lra) I4) as I5 end.
  cbv zeta in I5. match type of I5 with lst ?g ?i ?x ?r ?j ?y ?n => set (r5 := r) in *; set (g5 := fun c => (g4 c + val dt * tab_b 4 * r5 c)%R); change g with g5 in I5 end.
  clear I1 I2 I3 I4. intros n'. change (lsrk_stage_fn S 5 t dt 4 (lsrk_stage_fn S 5 t dt 3 (lsrk_stage_fn S 5 t dt 2 (lsrk_stage_fn S 5 t dt 1 (lsrk_stage_fn S 5 t dt 0 n))))) with n' in I5.
  destruct I5 as ((A1 & A2 & A3) & G & T). split; [exact A1|]. split; [exact A2|]. split; [exact A3|]. split; [intros c Hc; apply (T c Hc)|].
  exists (fun i => match i with 0 => u | 1 => g1 | 2 => g2 | 3 => g3 | 4 => g4 | _ => g5 end), (fun i => match i with 1 => r1 | 2 => r2 | 3 => r3 | 4 => r4 | _ => r5 end).
  split; [|exact G]. split; [reflexivity|]. split; [intros c; split; reflexivity|].
  intros i Hi c. assert (i = 1 \/ i = 2 \/ i = 3 \/ i = 4) as [-> | [-> | [-> | ->]]] by lia; split; reflexivity.
Qed.
End Heat.
