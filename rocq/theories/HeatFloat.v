(** Tracer diffusion at rest in binary64: one RK4 step differs from the exact step by a few hundred units in the last place. *)
From Coq Require Import ZArith Reals List Bool Lia Lra.
From Coq Require Import Floats.SpecFloat.
From Flocq Require Import Core.Core.
From Verif Require Import Arith Arrays Prog Conc Launch Mesh AuxVars Tend Model Hex HexComb MeshProof MeshMem Over Formulas KernBase Terms KernAux KernTend TendFn StepFn Ready Rel RelRun Relate TendVal StepVal StepRun RSum FloatFacts FloatMass FloatRun FloatRest TrFloat TrFlux TrRun NearFloat Diffuse.
Import ListNotations.
Open Scope Z_scope.

Section Heat.
Context (cc ss : spec_float -> spec_float) (pp : spec_float).
Local Notation A := (SFA cc ss pp).
Context (S : setup A) (Hok : setup_ok S).
Local Notation cf := (cfg_of S).
Local Notation P := (par_of S).
Local Notation D := (sdims S).
Local Notation h := (mesh_of_setup S).
Local Notation X := (nx h).
Local Notation Y := (ny h).
Local Notation NC := (X * Y).
Local Notation nl := (d_nlayers D).
Implicit Types (m n : mem A).
Context (HX : 2 <= X) (HY : 2 <= Y).
Context (Hdc : ps (-100) 100 (dc h)) (Hf0 : bd 100 (f0 P)) (Hg : bd 100 (grav P)) (Hn2 : bd 100 (visc_del2 P)) (Hn4 : bd 100 (visc_del4 P)).
Context (Ek : hook S = None).
Context (Hh : Z -> F A) (HHh : forall k, 0 <= k < nl -> ps (-100) 100 (Hh k)).
Context (l k : Z) (Hl : 0 <= l < ntracers P) (Hk : 0 <= k < nl).
Context (HK : ps (-100) 100 (eddy_diff2 P)) (E2 : tracer_diff_enabled P = true) (E4 : tracer_hyperdiff_enabled P = false).
Local Notation d := (val (dc h)).
Local Notation K := (val (eddy_diff2 P)).
Local Notation Hv := (val (Hh k)).
Local Notation resting := (resting cc ss pp S Hh).
Local Notation tr s n c := (mr n (TrCell s) [l; c; k]).
Lemma rd : rng d (-100) 100. Proof. exact (proj2 Hdc). Qed.
Lemma rd' : rng d (-200) 200. Proof. eapply rng_wide; [exact rd|lia|lia]. Qed.
Lemma rK : rng K (-100) 100. Proof. exact (proj2 HK). Qed.
Lemma rH : rng Hv (-100) 100. Proof. exact (proj2 (HHh k Hk)). Qed.
Lemma d0 : (0 < d)%R. Proof. exact (rng_pos _ _ _ rd). Qed.
Lemma K0 : (0 < K)%R. Proof. exact (rng_pos _ _ _ rK). Qed.
Lemma H0 : (0 < Hv)%R. Proof. exact (rng_pos _ _ _ rH). Qed.
Lemma s30 : (0 < sqrt 3)%R. Proof. apply sqrt_lt_R0. lra. Qed.
Lemma rng1 : rng 1 0 0. Proof. split; cbn; lra. Qed.
Lemma rng2 : rng 2 1 1. Proof. split; cbn; lra. Qed.
Lemma rng3 : rng 3 1 2. Proof. split; cbn; lra. Qed.
Lemma ap1 : approx (@fofZ A 1) 1 0. Proof. now apply (ap_ofZ cc ss pp 1). Qed.

(** The diffusion operator with the factor of the program. *)
Definition al : R := (4 * K / (d * d))%R.
Definition Lr (f : Z -> R) (c : Z) : R := (al * (avg6 X Y f c - f c))%R.
Lemma al_rng : rng al (-298) 302.
Proof.
  unfold al. assert (R4 : rng 4 2 2) by (split; cbn; lra). exact (rng_div _ _ _ _ _ _ (rng_mul _ _ _ _ _ _ R4 rK) (rng_mul _ _ _ _ _ _ rd rd)).
Qed.
Lemma al0 : (0 < al)%R. Proof. exact (rng_pos _ _ _ al_rng). Qed.

(** Constants. *)
Lemma n_K : ne (eddy_diff2 P) K 0 K (-100) 100.
Proof. apply ne_val; [apply HK|rewrite Rabs_pos_eq; [lra|pose proof K0; lra]|exact rK]. Qed.
Lemma n_h : ne (Hh k) Hv 0 Hv (-100) 100.
Proof. apply ne_val; [apply (HHh k Hk)|rewrite Rabs_pos_eq; [lra|pose proof H0; lra]|exact rH]. Qed.
Lemma n_ih : ne (#1 / Hh k : F A)%fp (1 / Hv) 1 (1 / Hv) (-100) 100.
Proof.
  pose proof H0. pose proof (rng_div _ _ _ _ _ _ rng1 rH) as R3. apply ne_ap; [|exact R3].
  apply (ap_div cc ss pp _ _ _ _ 0 0); [lra|lra|apply ap1|split; [apply (HHh k Hk)|cbn [pow]; lra]|eapply rng_mid; [apply R3| |]; discriminate|lia].
Qed.
Lemma n_idc : ne (#1 / dc h : F A)%fp (1 / d) 1 (1 / d) (-100) 100.
Proof.
  pose proof d0. pose proof (rng_div _ _ _ _ _ _ rng1 rd) as R3. apply ne_ap; [|exact R3].
  apply (ap_div cc ss pp _ _ _ _ 0 0); [lra|lra|apply ap1|exact (ap_dc cc ss pp S d (proj1 Hdc) eq_refl)|eapply rng_mid; [apply R3| |]; discriminate|lia].
Qed.
Lemma n_dve : ne (hdve h) (d * sqrt 3 / 3) 3 (d * sqrt 3 / 3) (-102) 100.
Proof. apply ne_ap; [exact (ap_dve cc ss pp S d (proj1 Hdc) eq_refl rd')|]. exact (rng_div _ _ _ _ _ _ (rng_mul _ _ _ _ _ _ rd rng_sqrt3) rng3). Qed.
Lemma n_ia : ne (#1 / hareac h : F A)%fp (1 / (d * d * sqrt 3 / 2)) 5 (1 / (d * d * sqrt 3 / 2)) (-200) 201.
Proof.
  pose proof d0 as Hp. pose proof s30 as H3. pose proof (Rmult_lt_0_compat _ _ Hp Hp) as P1. pose proof (Rmult_lt_0_compat _ _ P1 H3) as P2.
  pose proof (rng_div _ _ _ _ _ _ rng1 (rng_div _ _ _ _ _ _ (rng_mul _ _ _ _ _ _ (rng_mul _ _ _ _ _ _ rd rd) rng_sqrt3) rng2)) as R3.
  apply ne_ap; [|exact R3].
  apply (ap_div cc ss pp _ _ _ _ 0 4); [lra|lra|apply ap1|exact (ap_area cc ss pp S d (proj1 Hdc) eq_refl rd')|eapply rng_mid; [apply R3| |]; discriminate|lia].
Qed.
Lemma n_sg z : z = 1 \/ z = -1 -> ne (@fofZ A z) (IZR z) 0 1 0 0.
Proof. intros Hz. destruct (ofZ_val cc ss pp z ltac:(lia)) as [F1 F2]. rewrite <- F2. apply ne_val; [exact F1| |exact rng1]. rewrite F2. destruct Hz as [-> | ->]; split_Rabs; lra. Qed.
Lemma n_half : ne (@fhalf A) (1 / 2) 0 (1 / 2) (-1) (-1).
Proof. destruct (half_v cc ss pp) as [F1 F2]. apply ne_ap; [split; [exact F1|rewrite F2; cbn [pow]; lra]|split; cbn; lra]. Qed.

Section One.
Context (s : sid) (n : mem A) (Hr : ready S n) (HR : resting s n).
Context (f : Z -> R) (j : nat) (b : R) (Hj : (j <= 500)%nat) (Hb : rng b (-150) 150) (HT : forall c, 0 <= c < NC -> ne (tr s n c) (f c) j b (-150) 150).
Local Notation c0 := (fun e => mi n CellsOnEdge [e; 0]).
Local Notation c1 := (fun e => mi n CellsOnEdge [e; 1]).
Let cr := coe_r cc ss pp S Hok HX HY n Hr.
Lemma n_ntr c : 0 <= c < NC -> ne (f_ntr n s l c k) (f c * (1 / Hv)) (2 + j) (b * (1 / Hv)) (-250) 250.
Proof.
  intros Hc. unfold f_ntr. rewrite (proj1 (HR k Hk) c Hc). pose proof (ne_mul cc ss pp _ _ _ _ _ _ _ _ _ _ _ _ (HT c Hc) n_ih ltac:(lia) ltac:(lia) ltac:(lia)) as G.
  replace (1 + (j + 1))%nat with (2 + j)%nat in G by lia. exact G.
Qed.
Lemma rbh : rng (b * (1 / Hv) + b * (1 / Hv)) (-250) 253.
Proof. replace (b * (1 / Hv) + b * (1 / Hv))%R with (2 * (b * (1 / Hv)))%R by ring. apply (rng_n _ (-250) 250 2); [apply (n_ntr 0 ltac:(nia))|lra]. Qed.
Lemma n_gr e : 0 <= e < 3 * NC -> ne (gr cc ss pp S s l k n e) ((f (c1 e) * (1 / Hv) - f (c0 e) * (1 / Hv)) * (1 / d)) (5 + j) ((b * (1 / Hv) + b * (1 / Hv)) * (1 / d)) (-350) 353.
Proof.
  intros He. unfold gr. pose proof (ne_sub cc ss pp _ _ _ _ _ _ _ _ _ _ _ _ _ (n_ntr _ (cr e 1 He ltac:(lia))) (n_ntr _ (cr e 0 He ltac:(lia))) ltac:(lia) rbh ltac:(lia) ltac:(lia)) as G.
  pose proof (ne_mul cc ss pp _ _ _ _ _ _ _ _ _ _ _ _ G n_idc ltac:(lia) ltac:(lia) ltac:(lia)) as G2. replace (1 + (1 + (2 + j) + 1))%nat with (5 + j)%nat in G2 by lia. exact G2.
Qed.
Lemma n_tm' (x : F A) r i b1 lo hi e : ne x r i b1 lo hi -> (i <= 100)%nat -> -500 <= lo -> hi <= 500 -> 0 <= e < 3 * NC -> fin (x * tm cc ss pp S s l k n e)%fp.
Proof.
  intros Hx Hi Hlo Hhi He. unfold tm. cbv zeta. pose proof (ne_add cc ss pp _ _ _ _ _ _ _ _ _ _ _ _ _ (n_ntr _ (cr e 0 He ltac:(lia))) (n_ntr _ (cr e 1 He ltac:(lia))) ltac:(lia) rbh ltac:(lia) ltac:(lia)) as G.
  destruct (ksimd cf).
  - pose proof (ne_mul cc ss pp _ _ _ _ _ _ _ _ _ _ _ _ n_half G ltac:(lia) ltac:(lia) ltac:(lia)) as G1. exact (proj1 (ne_mul cc ss pp _ _ _ _ _ _ _ _ _ _ _ _ Hx G1 ltac:(lia) ltac:(lia) ltac:(lia))).
  - pose proof (ne_mul cc ss pp _ _ _ _ _ _ _ _ _ _ _ _ G n_half ltac:(lia) ltac:(lia) ltac:(lia)) as G1. exact (proj1 (ne_mul cc ss pp _ _ _ _ _ _ _ _ _ _ _ _ Hx G1 ltac:(lia) ltac:(lia) ltac:(lia))).
Qed.
Lemma n_hm e : 0 <= e < 3 * NC -> ne (f_mean n s e k) Hv 2 Hv (-101) 102.
Proof.
  intros He. unfold f_mean. rewrite !(proj1 (HR k Hk)) by (apply cr; lia).
  assert (R2 : rng (Hv + Hv) (-100) 103) by (replace (Hv + Hv)%R with (2 * Hv)%R by ring; apply (rng_n _ _ 100); [exact rH|lra]).
  pose proof (ne_add cc ss pp _ _ _ _ _ _ _ _ _ _ _ _ _ n_h n_h ltac:(lia) R2 ltac:(lia) ltac:(lia)) as G.
  eapply ne_re; [exact (ne_mul cc ss pp _ _ _ _ _ _ _ _ _ _ _ _ n_half G ltac:(lia) ltac:(lia) ltac:(lia))|lra|lra|eapply rng_wide; [exact rH|lia|lia]].
Qed.
Lemma n_pd e z : 0 <= e < 3 * NC -> z = 1 \/ z = -1 ->
  ne (pd cc ss pp S s l k n e z) (al / 6 * (IZR z * (f (c1 e) - f (c0 e)))) (21 + j) (al / 6 * (2 * b)) (-460) 470.
Proof.
  intros He Hz. pose proof d0. pose proof s30. pose proof H0.
  assert (RB : rng (al / 6 * (2 * b)) (-460) 470).
  { assert (R6 : rng 6 2 3) by (split; cbn; lra). eapply rng_wide; [exact (rng_mul _ _ _ _ _ _ (rng_div _ _ _ _ _ _ al_rng R6) (rng_mul _ _ _ _ _ _ rng2 Hb))|lia|lia]. }
  pose proof (ne_mul cc ss pp _ _ _ _ _ _ _ _ _ _ _ _ n_K n_ia ltac:(lia) ltac:(lia) ltac:(lia)) as G1.
  pose proof (ne_mul cc ss pp _ _ _ _ _ _ _ _ _ _ _ _ G1 n_dve ltac:(lia) ltac:(lia) ltac:(lia)) as G2.
  pose proof (ne_mul cc ss pp _ _ _ _ _ _ _ _ _ _ _ _ G2 (n_sg z Hz) ltac:(lia) ltac:(lia) ltac:(lia)) as G3.
  unfold pd. cbv zeta. destruct (ksimd cf).
  - pose proof (ne_mul cc ss pp _ _ _ _ _ _ _ _ _ _ _ _ G3 (n_sg 1 (or_introl eq_refl)) ltac:(lia) ltac:(lia) ltac:(lia)) as G4.
    pose proof (ne_mul cc ss pp _ _ _ _ _ _ _ _ _ _ _ _ G4 (n_hm e He) ltac:(lia) ltac:(lia) ltac:(lia)) as G5.
    pose proof (ne_mul cc ss pp _ _ _ _ _ _ _ _ _ _ _ _ G5 (n_gr e He) ltac:(lia) ltac:(lia) ltac:(lia)) as G6.
    eapply ne_re; [eapply ne_up; [|exact G6]; lia| | |exact RB]; unfold al; field; lra.
  - pose proof (ne_mul cc ss pp _ _ _ _ _ _ _ _ _ _ _ _ G3 (n_hm e He) ltac:(lia) ltac:(lia) ltac:(lia)) as G4.
    pose proof (ne_mul cc ss pp _ _ _ _ _ _ _ _ _ _ _ _ G4 (n_sg 1 (or_introl eq_refl)) ltac:(lia) ltac:(lia) ltac:(lia)) as G5.
    pose proof (ne_mul cc ss pp _ _ _ _ _ _ _ _ _ _ _ _ G5 (n_gr e He) ltac:(lia) ltac:(lia) ltac:(lia)) as G6.
    eapply ne_re; [eapply ne_up; [|exact G6]; lia| | |exact RB]; unfold al; field; lra.
Qed.
(** The difference across an edge, seen from one of its cells. *)
Lemma side c i : 0 <= c < NC -> 0 <= i < 6 -> (IZR (hesc h c i) * (f (c1 (hE X Y c i)) - f (c0 (hE X Y c i))) = f (nbr X Y c i) - f c)%R.
Proof.
  intros Hc Hi. pose proof (ready_hex S Hok n Hr) as Hm. pose proof (proj1 Hok) as Hmo. pose proof (hE_range X Y ltac:(lia) ltac:(lia) c i Hc Hi) as He.
  assert (Es : hesc h c i = if i <? 3 then -1 else 1) by (unfold hesc; rewrite coe0_hE by lia; destruct (Z.leb_spec 3 i), (Z.ltb_spec i 3); lia).
  cbv beta. rewrite !(hm_coe _ _ _ Hm) by lia. rewrite Es. unfold nbr. destruct (Z.ltb_spec i 3).
  - rewrite coe0_hE_low by lia. assert (E1 : hcoe X Y (hE X Y c i) 1 = c).
    { unfold hcoe. cbn [Z.eqb]. rewrite hE_div_ by lia. destruct (Z.ltb_spec i 3); [reflexivity|lia]. }
    rewrite E1. ring.
  - assert (E0 : hcoe X Y (hE X Y c i) 0 = c).
    { apply Z.eqb_eq. rewrite coe0_hE by lia. apply Z.leb_le. lia. }
    assert (E1 : hcoe X Y (hE X Y c i) 1 = nb X Y c i).
    { unfold hcoe. cbn [Z.eqb]. rewrite hE_div_ by lia. destruct (Z.ltb_spec i 3); [lia|reflexivity]. }
    rewrite E0, E1. ring.
Qed.
Lemma n_fd c : 0 <= c < NC -> ne (fd cc ss pp S s l k n c) (Lr f c) (26 + j) (2 * (al * b)) (-460) 473.
Proof.
  intros Hc. assert (Es : forall i, hesc h c i = 1 \/ hesc h c i = -1) by (intros; unfold hesc; destruct (_ =? _); auto).
  pose proof (ne_six cc ss pp (fun i => pd cc ss pp S s l k n (hE X Y c i) (hesc h c i)) (fun i => al / 6 * (f (nbr X Y c i) - f c))%R (21 + j) (al / 6 * (2 * b)) (-460) 470 ltac:(lia) ltac:(lia) ltac:(lia)) as G.
  assert (G0 : forall i, 0 <= i < 6 -> ne (pd cc ss pp S s l k n (hE X Y c i) (hesc h c i)) (al / 6 * (f (nbr X Y c i) - f c)) (21 + j) (al / 6 * (2 * b)) (-460) 470).
  { intros i Hi. rewrite <- side by assumption. apply n_pd; [apply hE_range; lia|apply Es]. }
  specialize (G G0). unfold fd, eadd. eapply ne_re; [eapply ne_up; [|exact G]; lia| | |].
  - unfold Lr, avg6. rewrite rsum_small6. field.
  - field.
  - replace (2 * (al * b))%R with (6 * (al / 6 * (2 * b)))%R by field. apply G.
Qed.
Lemma z_fa c : 0 <= c < NC -> zero (fa cc ss pp S s l k n c).
Proof.
  intros Hc. unfold fa, esub. apply z_iter; [lia|apply z0|]. intros i y Hi Hy. apply z_sub; [exact Hy|]. pose proof (hE_range X Y ltac:(lia) ltac:(lia) c i Hc Hi) as He.
  assert (Es : hesc h c i = 1 \/ hesc h c i = -1) by (unfold hesc; destruct (_ =? _); auto).
  unfold pa. apply z_mul_r; [|apply (proj2 (HR k Hk)); exact He].
  pose proof (ne_ap cc ss pp _ _ 9 (-101) 102 (ap_gg cc ss pp S d (proj1 Hdc) eq_refl rd')) as Gg.
  assert (Rg : rng (2 / (3 * d)) (-101) 102) by (eapply rng_wide; [exact (rng_div _ _ _ _ _ _ rng2 (rng_mul _ _ _ _ _ _ rng3 rd))|lia|lia]). specialize (Gg Rg).
  pose proof (ne_mul cc ss pp _ _ _ _ _ _ _ _ _ _ _ _ Gg (n_sg _ Es) ltac:(lia) ltac:(lia) ltac:(lia)) as G1.
  pose proof (ne_mul cc ss pp _ _ _ _ _ _ _ _ _ _ _ _ G1 (n_hm _ He) ltac:(lia) ltac:(lia) ltac:(lia)) as G2.
  apply (n_tm' _ _ _ _ _ _ _ G2); [lia|lia|lia|exact He].
Qed.
Lemma n_tend time c : s <> Tend -> 0 <= c < NC -> ne (tr Tend (tendency_fn S Tend s time Replace n) c) (Lr f c) (26 + j) (2 * (al * b)) (-460) 473.
Proof.
  intros Hs Hc. rewrite (val_tr S (ok_wfd S Hok)); auto; [|now apply ready_wfm].
  rewrite (gtr_val cc ss pp S Hok HX HY s l k n Hr Hl Hk 1%R); [|split; [change 1%R with (bpow radix2 0); now apply bpow_le|change 1%R with (bpow radix2 0); now apply bpow_le]|exact Hc].
  cbv zeta. rewrite E2, E4. apply ne_add0; [|now apply n_fd]. apply z_add; [apply z0|now apply z_fa].
Qed.
End One.

(** One update. *)
Section Axpy.
Context (dt : F A) (Fdt : fin dt) (Hdt : (0 <= val dt /\ al * val dt <= 1)%R).
Lemma n_dt : ne dt (val dt) 0 (1 / al) (-302) 298.
Proof.
  pose proof al0. apply ne_val; [exact Fdt| |exact (rng_div _ _ _ _ _ _ rng1 al_rng)]. rewrite Rabs_pos_eq by lra. apply (Rmult_le_reg_l al); [lra|]. replace (al * (1 / al))%R with 1%R by (field; lra). lra.
Qed.
Lemma n_axpy dst base (w : F A) (be : R) n g (b0 : R) (i : nat) r (j : nat) b c : ne w be 1 be (-3) 0 -> (j <= 700)%nat -> (i <= 3 + j)%nat -> rng b (-150) 150 -> rng b0 (-150) 150 ->
  rng (b0 + 2 * be * b) (-150) 150 -> 0 <= c < NC ->
  ne (tr base n c) (g c) i b0 (-150) 150 -> ne (tr Tend n c) (r c) j (2 * (al * b)) (-460) 473 ->
  ne (tr dst (axpy S dst base dt w n) c) (g c + val dt * be * r c) (4 + j) (b0 + 2 * be * b) (-150) 150.
Proof.
  intros Hw Hj Hi Rb Rb0 Rs Hc HB HT. pose proof al0 as A0.
  rewrite (axpy_h cc ss pp S l k Hl Hk 1%R ltac:(split; change 1%R with (bpow radix2 0); now apply bpow_le) K 1%R); [|intros _; split; [split; [apply HK|rewrite Rabs_pos_eq; pose proof K0; lra]|apply rK]|intros E; rewrite E4 in E; discriminate|exact Hc].
  pose proof (ne_mul cc ss pp _ _ _ _ _ _ _ _ _ _ _ _ n_dt Hw ltac:(lia) ltac:(lia) ltac:(lia)) as G1.
  pose proof (ne_mul cc ss pp _ _ _ _ _ _ _ _ _ _ _ _ G1 HT ltac:(lia) ltac:(lia) ltac:(lia)) as G2.
  assert (Pb : rng (2 * be * b) (-152) 151) by (eapply rng_wide; [exact (rng_mul _ _ _ _ _ _ (rng_mul _ _ _ _ _ _ rng2 (proj2 (proj2 (proj2 Hw)))) Rb)|lia|lia]).
  assert (G3 : ne (dt * w * tr Tend n c)%fp (val dt * be * r c) (3 + j) (2 * be * b) (-152) 151).
  { eapply ne_re; [eapply ne_up; [|exact G2]; lia|reflexivity| |exact Pb]. field. lra. }
  pose proof (ne_up cc ss pp _ _ _ _ _ _ (3 + j) Hi HB) as G0.
  exact (ne_add cc ss pp _ _ _ _ _ _ _ _ _ _ _ _ _ G0 G3 ltac:(lia) Rs ltac:(lia) ltac:(lia)).
Qed.

(** ** One step of the classical method *)
Lemma n_quot z : 2 <= z <= 6 -> ne (#1 / fofZ z : F A)%fp (1 / IZR z) 1 (1 / IZR z) (-3) 0.
Proof.
  intros Hz. assert (2 <= IZR z <= 6)%R by (split; apply IZR_le; lia). assert (R0 : rng (1 / IZR z) (-3) 0).
  { assert (R0 : rng (IZR z) 0 3) by (apply rng_Z; cbn; lia). exact (rng_div _ _ _ _ _ _ rng1 R0). }
  apply ne_ap; [|exact R0]. apply (ap_div cc ss pp _ _ _ _ 0 0); [lra|lra|apply ap1|apply ap_ofZ; lia|eapply rng_mid; [apply R0| |]; discriminate|lia].
Qed.
Definition bR (i : Z) : R := if (i =? 0) || (i =? 3) then (1 / 6)%R else (1 / 3)%R.
Definition aR (i : Z) : R := if i =? 2 then 1%R else (1 / 2)%R.
Lemma n_b i : ne (rk4_b i : F A) (bR i) 1 (bR i) (-3) 0.
Proof. unfold rk4_b, bR. destruct (_ || _); apply n_quot; lia. Qed.
Lemma n_a i : ne (rk4_a i : F A) (aR i) 1 (aR i) (-3) 0.
Proof.
  unfold rk4_a, aR. destruct (i =? 2); [|apply n_quot; lia]. apply (ne_up cc ss pp _ _ 0); [lia|]. eapply ne_re; [apply (n_sg 1); auto|reflexivity|reflexivity|]. eapply rng_wide; [exact rng1|lia|lia].
Qed.
Context (Bdt : bd 200 dt).
Context (B : R) (HB : rng B (-100) 100).
Lemma rngB (x : R) : (1 <= x <= 8)%R -> rng (x * B) (-150) 150.
Proof. intros Hx. eapply rng_wide; [exact (rng_n _ _ _ x HB Hx)|lia|lia]. Qed.
(** A state between two stages: [u] the values before the step, [g] the exact values of the sum so far, [r] the exact tendency. *)
Definition stg (o : Z -> F A) (g : Z -> R) (i : nat) (x : R) (r : Z -> R) (j : nat) (y : R) n : Prop :=
  ready S n /\ resting St n /\ resting Old n /\ zT cc ss pp S n /\ (forall c, 0 <= c < NC -> tr Old n c = o c) /\
  (forall c, 0 <= c < NC -> ne (tr St n c) (g c) i (x * B) (-150) 150) /\ (forall c, 0 <= c < NC -> ne (tr Tend n c) (r c) j (2 * (al * (y * B))) (-460) 473).
Lemma stg_step (o : Z -> F A) g i x r j y n st (t : F A) : (forall c, 0 <= c < NC -> fin (o c) /\ (Rabs (val (o c)) <= B)%R) ->
  (j <= 400)%nat -> (i <= 3 + j)%nat -> (1 <= x)%R -> (1 <= y)%R -> (x + 2 * bR st * y <= 8)%R -> (1 + 2 * aR st * y <= 8)%R -> stg o g i x r j y n ->
  stg o (fun c => g c + val dt * bR st * r c)%R (4 + j) (x + 2 * bR st * y) (Lr (fun c => val (o c) + val dt * aR st * r c)%R) (30 + j) (1 + 2 * aR st * y)
    (tendency_fn S Tend Provis t Replace (axpy S Provis Old dt (rk4_a st) (axpy S St St dt (rk4_b st) n))).
Proof.
  intros Ho Hj Hi Hx Hy H8 H8' (Hr & R1 & R2 & Z1 & O1 & G1 & T1). set (n1 := axpy S St St dt (rk4_b st) n). set (n2 := axpy S Provis Old dt (rk4_a st) n1).
  assert (Q1 : ready S n1) by (eapply ready_cst; [apply cst_axpy|exact Hr]). assert (Q2 : ready S n2) by (eapply ready_cst; [apply cst_axpy|exact Q1]).
  assert (A1 : resting St n1) by (apply rest_axpy; auto using bd_rkb). assert (A2 : resting Old n1) by (apply rest_axpy_other; [discriminate|exact R2]).
  assert (A3 : zT cc ss pp S n1) by (eapply zT_other; [|exact Z1]; intros a ix Ha; apply axpy_other; apply (is_st_ne Tend); congruence).
  assert (A4 : resting Provis n2) by (apply rest_axpy; auto using bd_rka). assert (A5 : resting St n2) by (apply rest_axpy_other; [discriminate|exact A1]).
  assert (A6 : resting Old n2) by (apply rest_axpy_other; [discriminate|exact A2]).
  assert (A7 : zT cc ss pp S n2) by (eapply zT_other; [|exact A3]; intros a ix Ha; apply axpy_other; apply (is_st_ne Tend); congruence).
  assert (b0 : (0 < bR st)%R) by (unfold bR; destruct (_ || _); lra). assert (a0 : (0 < aR st)%R) by (unfold aR; destruct (_ =? _); lra).
  assert (b2 : (bR st <= 1)%R) by (unfold bR; destruct (_ || _); lra). assert (a2 : (/ 2 <= aR st)%R) by (unfold aR; destruct (_ =? _); lra).
  assert (yb : (0 < bR st * y)%R) by (apply Rmult_lt_0_compat; lra). assert (ya : (y <= 2 * aR st * y)%R) by (rewrite <- (Rmult_1_l y) at 1; apply Rmult_le_compat_r; lra).
  assert (Ry : rng (y * B) (-150) 150) by (apply rngB; lra). assert (Rx : rng (x * B) (-150) 150) by (apply rngB; lra).
  split; [eapply ready_cst; [apply cst_tendency|exact Q2]|]. split; [apply rest_tend_other; [discriminate|exact A5]|]. split; [apply rest_tend_other; [discriminate|exact A6]|].
  split; [apply (zT_tend cc ss pp S Hok Hdc Hf0 Hg Hn2 Hn4 Ek Hh HHh); auto using zT_zTd; discriminate|].
  assert (O2 : forall c, 0 <= c < NC -> tr Old n1 c = o c) by (intros c Hc; unfold n1; rewrite axpy_other by reflexivity; auto).
  assert (T2 : forall c, 0 <= c < NC -> tr Tend n1 c = tr Tend n c) by (intros c Hc; unfold n1; now rewrite axpy_other by reflexivity).
  split; [intros c Hc; rewrite tend_other by (discriminate || reflexivity); unfold n2; rewrite axpy_other by reflexivity; auto|]. split.
  - intros c Hc. rewrite tend_other by (discriminate || reflexivity). unfold n2. rewrite axpy_other by reflexivity.
    eapply ne_re; [apply (n_axpy St St (rk4_b st) (bR st) n g (x * B) i r j (y * B) c (n_b st)); auto; try lia| | |].
    + replace (x * B + 2 * bR st * (y * B))%R with ((x + 2 * bR st * y) * B)%R by ring. apply rngB. lra.
    + reflexivity.
    + ring.
    + apply rngB. lra.
  - intros c Hc. replace (30 + j)%nat with (26 + (4 + j))%nat by lia. apply (n_tend Provis n2 Q2 A4); [lia|apply rngB; lra| |discriminate|exact Hc].
    intros c' Hc'. eapply ne_re; [apply (n_axpy Provis Old (rk4_a st) (aR st) n1 (fun c => val (o c)) B 0 r j (y * B) c' (n_a st)); auto; try lia| | |].
    + eapply rng_wide; [exact HB|lia|lia].
    + replace (B + 2 * aR st * (y * B))%R with ((1 + 2 * aR st * y) * B)%R by ring. apply rngB. lra.
    + rewrite O2 by exact Hc'. destruct (Ho c' Hc'). apply ne_val; [assumption|assumption|]. eapply rng_wide; [exact HB|lia|lia].
    + rewrite T2 by exact Hc'. auto.
    + reflexivity.
    + ring.
    + apply rngB. lra.
Qed.
Definition R4 (u : Z -> R) : Z -> R := let t := val dt in
  let k1 := Lr u in let k2 := Lr (fun c => u c + t * (1 / 2) * k1 c)%R in let k3 := Lr (fun c => u c + t * (1 / 2) * k2 c)%R in let k4 := Lr (fun c => u c + t * 1 * k3 c)%R in
  fun c => (u c + t * (1 / 6) * k1 c + t * (1 / 3) * k2 c + t * (1 / 3) * k3 c + t * (1 / 6) * k4 c)%R.
Lemma rk4_near (t : F A) n : ready S n -> resting St n -> zTd cc ss pp S n -> (forall c, 0 <= c < NC -> fin (tr St n c) /\ (Rabs (val (tr St n c)) <= B)%R) ->
  let n' := rk4_fn S t dt n in ready S n' /\ resting St n' /\ zTd cc ss pp S n' /\
  forall c, 0 <= c < NC -> ne (tr St n' c) (R4 (fun c => val (tr St n c)) c) 120 (7 * B) (-150) 150.
Proof.
  intros Hr HR HZ HT. cbv zeta. destruct (rest_rk4 cc ss pp S Hok Hdc Hf0 Hg Hn2 Hn4 Ek Hh HHh t dt n Bdt Hr HR HZ) as (X1 & X2 & X3).
  split; [exact X1|]. split; [exact X2|]. split; [exact X3|]. clear X1 X2 X3. rewrite rk4_eq. cbv zeta.
  assert (Rs : ready S (save_fn S n)) by (eapply ready_cst; [apply cst_save|exact Hr]).
  assert (Rt : resting St (save_fn S n)) by (eapply rest_other; [|exact HR]; intros a ix Ha; apply save_other; apply (is_st_ne St); congruence).
  assert (Zt : zTd cc ss pp S (save_fn S n)) by (eapply zTd_other; [|exact HZ]; intros a ix Ha; apply save_other; apply (is_st_ne Tend); congruence).
  set (o := fun c => tr St n c). set (u := fun c => val (tr St n c)). assert (RB : rng B (-150) 150) by (eapply rng_wide; [exact HB|lia|lia]).
  assert (N0 : forall c, 0 <= c < NC -> ne (tr St (save_fn S n) c) (u c) 0 B (-150) 150).
  { intros c Hc. rewrite save_other by reflexivity. destruct (HT c Hc). now apply ne_val. }
  assert (I0 : stg o u 0 1 (Lr u) 26 1 (tendency_fn S Tend St t Replace (save_fn S n))).
  { split; [eapply ready_cst; [apply cst_tendency|exact Rs]|]. split; [apply rest_tend_other; [discriminate|exact Rt]|].
    split; [apply rest_tend_other; [discriminate|now apply rest_save]|]. split; [apply (zT_tend cc ss pp S Hok Hdc Hf0 Hg Hn2 Hn4 Ek Hh HHh); auto; discriminate|].
    rewrite !Rmult_1_l. split; [|split]; intros c Hc.
    - rewrite tend_other by (discriminate || reflexivity). unfold save_fn. cbv zeta. rewrite upd_same by (cbn [rext]; apply inb3; rewrite (d_ntr S); repeat split; tauto || lia).
      cbn [on3]. rewrite !upd_other by discriminate. reflexivity.
    - rewrite tend_other by (discriminate || reflexivity). now apply N0.
    - apply (n_tend St (save_fn S n) Rs Rt u 0 B); auto; [lia|discriminate]. }
  match type of I0 with stg _ ?g ?i ?x ?r ?j ?y ?n => pose proof (stg_step o g i x r j y n 0 (t + rk4_c 0 * dt)%fp HT ltac:(lia) ltac:(lia) ltac:(cbn; lra) ltac:(cbn; lra) ltac:(cbn; lra) ltac:(cbn; lra) I0) as I1 end.
  match type of I1 with stg _ ?g ?i ?x ?r ?j ?y ?n => pose proof (stg_step o g i x r j y n 1 (t + rk4_c 1 * dt)%fp HT ltac:(lia) ltac:(lia) ltac:(cbn; lra) ltac:(cbn; lra) ltac:(cbn; lra) ltac:(cbn; lra) I1) as I2 end.
  match type of I2 with stg _ ?g ?i ?x ?r ?j ?y ?n => pose proof (stg_step o g i x r j y n 2 (t + rk4_c 2 * dt)%fp HT ltac:(lia) ltac:(lia) ltac:(cbn; lra) ltac:(cbn; lra) ltac:(cbn; lra) ltac:(cbn; lra) I2) as I3 end.
  match type of I3 with stg _ ?g ?i ?x ?r ?j ?y ?n => destruct I3 as (_ & _ & _ & _ & _ & G & T); intros c Hc; specialize (G c Hc); specialize (T c Hc);
    pose proof (n_axpy St St (rk4_b 3) (bR 3) n g (x * B) i r j (y * B) c (n_b 3) ltac:(lia) ltac:(lia) ltac:(apply rngB; cbn; lra) ltac:(apply rngB; cbn; lra)) as G4 end.
  eapply ne_re; [apply G4; [|exact Hc|exact G|exact T]| | |apply rngB; lra].
  - match goal with |- rng ?z _ _ => replace z with (7 * B)%R by (cbn; field) end. apply rngB. lra.
  - reflexivity.
  - cbn. field.
Qed.
End Axpy.
End Heat.
