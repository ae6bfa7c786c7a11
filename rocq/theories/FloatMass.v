(** Mass in binary64: the thickness fluxes through the two sides of an edge are exactly opposite
    numbers, so that only the rounding of the sums and of the updates changes the total. *)
From Coq Require Import ZArith Reals List Bool Lia Lra Floats.SpecFloat.
From Flocq Require Import Core.Core.
From Verif Require Import Arith Arrays Prog Conc Launch Mesh RSum AuxVars Tend Model Hex HexComb MeshProof MeshMem MeshFacts MeshR MeshCalc SumParts Over Formulas KernBase Terms KernAux KernTend TendFn StepFn Ready Rel RelRun Relate TendVal StepVal StepRun FloatFacts.
Import ListNotations.
Open Scope Z_scope.

(** ** Ranges given by exponents *)
Definition rng (r : R) (a b : Z) : Prop := (bpow radix2 a <= r <= bpow radix2 b)%R.
Lemma rng_pos r a b : rng r a b -> (0 < r)%R.
Proof. intros [H _]. pose proof (bpow_gt_0 radix2 a). lra. Qed.
Lemma rng_mul r s a b c d : rng r a b -> rng s c d -> rng (r * s) (a + c) (b + d).
Proof.
  intros Hr Hs. pose proof (rng_pos _ _ _ Hr). pose proof (rng_pos _ _ _ Hs). destruct Hr, Hs.
  pose proof (bpow_gt_0 radix2 a). pose proof (bpow_gt_0 radix2 c). unfold rng. rewrite !bpow_plus. split; apply Rmult_le_compat; lra.
Qed.
Lemma rng_inv r a b : rng r a b -> rng (/ r) (- b) (- a).
Proof.
  intros Hr. pose proof (rng_pos _ _ _ Hr). destruct Hr. pose proof (bpow_gt_0 radix2 a). unfold rng. rewrite !bpow_opp.
  split; apply Rinv_le_contravar; lra.
Qed.
Lemma rng_div r s a b c d : rng r a b -> rng s c d -> rng (r / s) (a - d) (b - c).
Proof. intros Hr Hs. apply (rng_mul _ _ _ _ _ _ Hr (rng_inv _ _ _ Hs)). Qed.
Lemma rng_mid r a b : rng r a b -> -1000 <= a -> b <= 1000 -> mid r.
Proof. intros [H1 H2] Ha Hb. split; [eapply Rle_trans; [|exact H1]|eapply Rle_trans; [exact H2|]]; now apply bpow_le. Qed.
Lemma rng_sqrt3 : rng (sqrt 3) 0 1.
Proof.
  unfold rng. change (bpow radix2 0) with 1%R. change (bpow radix2 1) with 2%R.
  split; [rewrite <- sqrt_1; apply sqrt_le_1; lra|]. replace 2%R with (sqrt (2 * 2)) by (apply sqrt_square; lra). apply sqrt_le_1; lra.
Qed.
Lemma rng_Z z a b : 0 <= a -> 0 <= b -> 2 ^ a <= z <= 2 ^ b -> rng (IZR z) a b.
Proof. intros Ha Hb [H1 H2]. unfold rng. rewrite <- !IZR_Zpower by lia. split; now apply IZR_le. Qed.

(** ** Fluxes cancel *)
Lemma sides_cancel {A : Arith} (cf : config) (h : hexargs A) (g : Z -> R) : mesh_ok cf h -> 2 <= nx h -> 2 <= ny h ->
  rsum (nx h * ny h) (fun c => rsum 6 (fun j => IZR (hesc h c j) * g (hE (nx h) (ny h) c j))%R) = 0%R.
Proof.
  intros Hok H1 H2. pose (h' := mkHex (A:=RA) (nx h) (ny h) 1%R (nlayers h)).
  assert (Hok' : mesh_ok cf h') by exact Hok.
  rewrite (rsum_ext _ _ (fun c => rsum 6 (fun j => if j <? 3 then (fun c e => - g e) c (hE (nx h') (ny h') c j) else (fun c e => g e) c (hE (nx h') (ny h') c j)))%R).
  2:{ intros c Hc. apply rsum_ext. intros j Hj. change (IZR (hesc h c j)) with (cs h' c j).
      rewrite (cs_closed cf h' Hok') by (cbn; lia). destruct (j <? 3); cbn; ring. }
  etransitivity; [exact (cell_edge cf h' Hok' (fun c e => g e) (fun c e => - g e)%R)|]. apply rsum_zero. intros e He. ring.
Qed.

Lemma Rabs_rsum N f : (Rabs (rsum N f) <= rsum N (fun i => Rabs (f i)))%R.
Proof.
  assert (G : forall j, 0 <= j -> (Rabs (rsum j f) <= rsum j (fun i => Rabs (f i)))%R).
  { apply natlike_ind; [rewrite !rsum_0, Rabs_R0; lra|]. intros i Hi IH. unfold Z.succ. rewrite !rsum_succ by exact Hi.
    eapply Rle_trans; [apply Rabs_triang|]. lra. }
  destruct (Z.le_gt_cases 0 N); [now apply G|]. rewrite !rsum_neg, Rabs_R0 by lia. lra.
Qed.

Section Flux.
Context (cc ss : spec_float -> spec_float) (pp : spec_float).
Local Notation A := (SFA cc ss pp).
Context (S : setup A) (Hok : setup_ok S).
Local Notation cf := (cfg_of S).
Local Notation P := (par_of S).
Local Notation D := (sdims S).
Local Notation h := (mesh_of_setup S).
Local Notation X := (nx h).
Local Notation Y := (ny h).
Local Notation NC := (nx h * ny h).
Implicit Types (m : mem A).
Local Notation aux := (aux_fn cf D).
Context (HX : 2 <= X) (HY : 2 <= Y).
Context (d : R) (Hd1 : fin (dc h)) (Hd2 : val (dc h) = d) (Hd3 : rng d (-200) 200).

(** The factor [dv / area] of every flux. *)
Definition gg : F A := (hdve h * (#1 / hareac h))%fp.
Lemma ap_dc : approx (dc h) d 0.
Proof. split; [exact Hd1|]. rewrite Hd2. cbn [pow]. lra. Qed.
Lemma d_pos : (0 < d)%R. Proof. exact (rng_pos _ _ _ Hd3). Qed.
Lemma z3 : rng 3 1 2. Proof. apply rng_Z; [| |split]; discriminate. Qed.
Lemma z2 : rng 2 1 1. Proof. apply rng_Z; [| |split]; discriminate. Qed.
Lemma z1 : rng 1 0 0. Proof. apply rng_Z; [| |split]; discriminate. Qed.
Lemma ap_dve : approx (hdve h) (d * sqrt 3 / 3) 3.
Proof.
  pose proof d_pos as Hp. pose proof (rng_pos _ _ _ rng_sqrt3) as H3. pose proof (Rmult_lt_0_compat _ _ Hp H3).
  pose proof (rng_mul _ _ _ _ _ _ Hd3 rng_sqrt3) as R1.
  apply (ap_div cc ss pp _ _ (d * sqrt 3) 3 2 0); [lra|lra| |now apply (ap_ofZ cc ss pp 3)|eapply rng_mid; [apply (rng_div _ _ _ _ _ _ R1 z3)| |]; discriminate|lia].
  apply (ap_mul cc ss pp _ _ d (sqrt 3) 0 1); [lra|lra|apply ap_dc|apply ap_sqrt3|eapply rng_mid; [apply R1| |]; discriminate|lia].
Qed.
Lemma ap_area : approx (hareac h) (d * d * sqrt 3 / 2) 4.
Proof.
  pose proof d_pos as Hp. pose proof (rng_pos _ _ _ rng_sqrt3) as H3.
  pose proof (Rmult_lt_0_compat _ _ Hp Hp) as P1. pose proof (Rmult_lt_0_compat _ _ P1 H3) as P2.
  pose proof (rng_mul _ _ _ _ _ _ Hd3 Hd3) as R0. pose proof (rng_mul _ _ _ _ _ _ R0 rng_sqrt3) as R1.
  apply (ap_div cc ss pp _ _ (d * d * sqrt 3) 2 3 0); [lra|lra| |now apply (ap_ofZ cc ss pp 2)|eapply rng_mid; [apply (rng_div _ _ _ _ _ _ R1 z2)| |]; discriminate|lia].
  apply (ap_mul cc ss pp _ _ (d * d) (sqrt 3) 1 1); [lra|lra| |apply ap_sqrt3|eapply rng_mid; [apply R1| |]; discriminate|lia].
  apply (ap_mul cc ss pp _ _ d d 0 0); [lra|lra|apply ap_dc|apply ap_dc|eapply rng_mid; [apply R0| |]; discriminate|lia].
Qed.
Lemma ap_gg : approx gg (2 / (3 * d)) 9.
Proof.
  pose proof d_pos as Hp. pose proof (rng_pos _ _ _ rng_sqrt3) as H3.
  pose proof (Rmult_lt_0_compat _ _ Hp Hp) as P1. pose proof (Rmult_lt_0_compat _ _ P1 H3) as P2. pose proof (Rmult_lt_0_compat _ _ Hp H3) as P3.
  pose proof (rng_mul _ _ _ _ _ _ Hd3 Hd3) as R0. pose proof (rng_mul _ _ _ _ _ _ R0 rng_sqrt3) as R1.
  pose proof (rng_div _ _ _ _ _ _ R1 z2) as R2. pose proof (rng_div _ _ _ _ _ _ z1 R2) as R3.
  pose proof (rng_div _ _ _ _ _ _ (rng_mul _ _ _ _ _ _ Hd3 rng_sqrt3) z3) as R4.
  replace (2 / (3 * d))%R with (d * sqrt 3 / 3 * (1 / (d * d * sqrt 3 / 2)))%R by (field; lra).
  apply (ap_mul cc ss pp _ _ _ _ 3 5); [lra| |apply ap_dve| |eapply rng_mid; [apply (rng_mul _ _ _ _ _ _ R4 R3)| |]; discriminate|lia].
  - apply Rmult_lt_0_compat; [lra|]. apply Rinv_0_lt_compat. lra.
  - apply (ap_div cc ss pp _ _ _ _ 0 4); [lra|lra|now apply (ap_ofZ cc ss pp 1)|apply ap_area|eapply rng_mid; [apply R3| |]; discriminate|lia].
Qed.

(** ** The thickness tendency of one memory *)
Section One.
Context (s : sid) (k : Z) (n : mem A) (Hr : ready S n) (Hk : 0 <= k < d_nlayers D).
Context (Dh : forall c, 0 <= c < NC -> dbl (mr n (HCell s) [c; k])) (Dv : forall e, 0 <= e < 3 * NC -> dbl (mr n (VnEdge s) [e; k])).
Local Notation hm := (fun e => f_mean n s e k).
Local Notation v := (fun e => mr n (VnEdge s) [e; k]).
Definition flux (e : Z) : R := rnd (rnd (val (gg) * val (hm e)) * val (v e)).
Definition pc (c j : Z) : F A := (gg * fofZ (hesc h c j) * hm (hE X Y c j) * v (hE X Y c j))%fp.
Definition fold_h (c : Z) : F A := iterZ 6 (fun j a => (a - pc c j)%fp) (#0)%fp.
Lemma hesc_pm c j : hesc h c j = 1 \/ hesc h c j = -1.
Proof. unfold hesc. destruct (_ =? _); auto. Qed.
Lemma E_rng c j : 0 <= c < NC -> 0 <= j < 6 -> 0 <= hE X Y c j < 3 * NC.
Proof. intros Hc Hj. apply hE_range; lia. Qed.
Lemma hadv_fold c x : 0 <= c < NC -> t_hadv (aux s n) s c k x = (x + fold_h c)%fp.
Proof.
  intros Hc. pose proof (ready_hex S Hok n Hr) as Hm. unfold t_hadv, fold_h. f_equal. rewrite aux_mi, (hm_noc _ _ _ Hm) by exact Hc.
  apply iterZ_ext. intros j a Hj. unfold s_hadv. cbv zeta. rewrite aux_mi, (hm_eoc _ _ _ Hm) by assumption.
  pose proof (E_rng c j Hc Hj) as He. rewrite !aux_other by reflexivity.
  rewrite (hm_dve _ _ _ Hm), (hm_area _ _ _ Hm), (hm_esc _ _ _ Hm) by assumption.
  rewrite (av_flux S (ok_wfd S Hok) s n k Hk) by exact He. reflexivity.
Qed.
Lemma coe_rng e i : 0 <= e < 3 * NC -> 0 <= i < 2 -> 0 <= mi n CellsOnEdge [e; i] < NC.
Proof.
  intros He Hi. rewrite (hm_coe _ _ _ (ready_hex S Hok n Hr)) by assumption. apply hcoe_range; lia.
Qed.
Lemma dbl_half : dbl (@fhalf A). Proof. apply dbl_div; apply dbl_ofZ. Qed.
Lemma dbl_hm e : 0 <= e < 3 * NC -> dbl (hm e).
Proof. intros He. apply dbl_mul; [exact dbl_half|]. apply dbl_add; apply Dh, coe_rng; lia. Qed.
Lemma fin_gg : fin gg. Proof. apply ap_gg. Qed.
Lemma dbl_pc c j : 0 <= c < NC -> 0 <= j < 6 -> dbl (pc c j).
Proof.
  intros Hc Hj. pose proof (E_rng c j Hc Hj) as He. apply dbl_mul; [|now apply Dv].
  apply dbl_mul; [|now apply dbl_hm]. apply dbl_mul; [apply fin_dbl, fin_gg|apply dbl_ofZ].
Qed.
(** The two sides of an edge see exactly opposite fluxes. *)
Lemma val_pc c j : 0 <= c < NC -> 0 <= j < 6 -> fin (pc c j) ->
  val (pc c j) = (IZR (hesc h c j) * flux (hE X Y c j))%R /\ fin (hm (hE X Y c j)) /\ fin (v (hE X Y c j)).
Proof.
  intros Hc Hj Hf. pose proof (E_rng c j Hc Hj) as He. set (e := hE X Y c j) in *.
  assert (D1 : dbl (gg * fofZ (hesc h c j))%fp) by (apply dbl_mul; [apply fin_dbl, fin_gg|apply dbl_ofZ]).
  pose proof (dbl_hm e He) as D2. pose proof (Dv e He) as D3.
  destruct (fin_mul cc ss pp _ _ (dbl_mul cc ss pp _ _ D1 D2) D3 Hf) as (F1 & F2 & E1).
  destruct (fin_mul cc ss pp _ _ D1 D2 F1) as (F3 & F4 & E2).
  destruct (mul_sign cc ss pp gg (hesc h c j) fin_gg (hesc_pm c j)) as [_ E3].
  split; [|split; assumption]. unfold pc. fold e. rewrite E1, E2, E3. unfold flux.
  destruct (hesc_pm c j) as [-> | ->].
  - rewrite !Rmult_1_l. reflexivity.
  - replace (-1 * val gg * val (hm e))%R with (- (val gg * val (hm e)))%R by ring. rewrite rnd_opp.
    match goal with |- rnd (- ?a * ?b)%R = _ => replace (- a * b)%R with (- (a * b))%R by ring end. rewrite rnd_opp. ring.
Qed.
Lemma fold_facts c : 0 <= c < NC -> dbl (fold_h c) /\ (fin (fold_h c) ->
  (forall j, 0 <= j < 6 -> fin (pc c j)) /\
  (Rabs (val (fold_h c) + rsum 6 (fun j => IZR (hesc h c j) * flux (hE X Y c j)))
    <= (q64 ^ 6 - 1) * rsum 6 (fun j => Rabs (flux (hE X Y c j))))%R).
Proof.
  intros Hc. unfold fold_h. destruct (fold_sub cc ss pp 6 (pc c) ltac:(lia) ltac:(intros; now apply dbl_pc)) as [H1 H2].
  split; [exact H1|]. intros Hf. destruct (H2 Hf) as [H3 H4]. split; [exact H3|].
  rewrite (rsum_ext 6 (fun j => val (pc c j)) (fun j => IZR (hesc h c j) * flux (hE X Y c j))%R) in H4.
  2:{ intros j Hj. now apply val_pc; [| |apply H3]. }
  rewrite (rsum_ext 6 (fun j => Rabs (val (pc c j))) (fun j => Rabs (flux (hE X Y c j)))) in H4.
  2:{ intros j Hj. rewrite (proj1 (val_pc c j Hc Hj (H3 j Hj))), Rabs_mult. destruct (hesc_pm c j) as [-> | ->].
      - rewrite Rabs_R1. ring.
      - rewrite Rabs_left by lra. ring. }
  exact H4.
Qed.
Lemma fold_total : (forall c, 0 <= c < NC -> fin (fold_h c)) ->
  (Rabs (rsum NC (fun c => val (fold_h c))) <= (q64 ^ 6 - 1) * rsum NC (fun c => rsum 6 (fun j => Rabs (flux (hE X Y c j)))))%R.
Proof.
  intros Hf. pose proof (sides_cancel cf h flux (proj1 Hok) HX HY) as E.
  replace (rsum NC (fun c => val (fold_h c))) with (rsum NC (fun c => val (fold_h c) + rsum 6 (fun j => IZR (hesc h c j) * flux (hE X Y c j))))%R
    by (rewrite rsum_plus, E; ring).
  eapply Rle_trans; [apply Rabs_rsum|]. rewrite <- rsum_scal. apply rsum_le. intros c Hc.
  now apply (proj2 (fold_facts c Hc) (Hf c Hc)).
Qed.

(** Bounds, if the state is bounded. *)
Context (Hb Vb : R) (HH : (bpow radix2 (-200) <= Hb)%R) (HV : (bpow radix2 (-200) <= Vb)%R).
Context (Bh : forall c, 0 <= c < NC -> (Rabs (val (mr n (HCell s) [c; k])) <= Hb)%R) (Bv : forall e, 0 <= e < 3 * NC -> (Rabs (val (v e)) <= Vb)%R).
Definition fb : R := (q64 ^ 13 * (2 / (3 * d) * Hb * Vb))%R.
Lemma lo_H : (0 < Hb)%R. Proof. pose proof (bpow_gt_0 radix2 (-200)). lra. Qed.
Lemma lo_V : (0 < Vb)%R. Proof. pose proof (bpow_gt_0 radix2 (-200)). lra. Qed.
Lemma half_val : fin (@fhalf A) /\ val (@fhalf A) = (1 / 2)%R.
Proof.
  destruct (ofZ_val cc ss pp 1 ltac:(reflexivity)) as [F1 E1]. destruct (ofZ_val cc ss pp 2 ltac:(reflexivity)) as [F2 E2].
  assert (E : rnd (1 / 2) = (1 / 2)%R) by (replace (1 / 2)%R with (bpow radix2 (-1)) by (cbn; lra); now apply rnd_bpow).
  destruct (div_ok cc ss pp _ _ F1 F2) as [G1 G2]; rewrite ?E1, ?E2; [lra| |].
  - unfold small. rewrite E, Rabs_pos_eq by lra. apply Rlt_trans with (bpow radix2 0); [cbn; lra|now apply bpow_lt].
  - split; [exact G1|]. unfold fhalf. rewrite G2, E1, E2. exact E.
Qed.
Lemma hm_bound e : 0 <= e < 3 * NC -> fin (hm e) -> (Rabs (val (hm e)) <= q64 ^ 2 * Hb)%R.
Proof.
  intros He Hf. set (a := mr n (HCell s) [mi n CellsOnEdge [e; 0]; k]). set (b := mr n (HCell s) [mi n CellsOnEdge [e; 1]; k]).
  assert (Da : dbl a) by (apply Dh, coe_rng; lia). assert (Db : dbl b) by (apply Dh, coe_rng; lia).
  assert (Ba : (Rabs (val a) <= Hb)%R) by (apply Bh, coe_rng; lia). assert (Bb : (Rabs (val b) <= Hb)%R) by (apply Bh, coe_rng; lia).
  destruct (fin_mul cc ss pp fhalf (a + b)%fp dbl_half (dbl_add cc ss pp _ _ Da Db) Hf) as (_ & F2 & E1).
  destruct (fin_add cc ss pp a b Da Db F2) as (_ & _ & E2). unfold f_mean. fold a b. rewrite E1, E2, (proj2 half_val).
  pose proof (add_err a b Da Db) as E3. pose proof lo_H as H0. pose proof eps_pos as He0.
  assert (S1 : (Rabs (val a + val b) <= 2 * Hb)%R) by (eapply Rle_trans; [apply Rabs_triang|lra]).
  assert (S2 : (Rabs (rnd (val a + val b)) <= q64 * (2 * Hb))%R).
  { replace (rnd (val a + val b)) with ((rnd (val a + val b) - (val a + val b)) + (val a + val b))%R by ring.
    eapply Rle_trans; [apply Rabs_triang|]. assert (eps64 * Rabs (val a + val b) <= eps64 * (2 * Hb))%R by (apply Rmult_le_compat_l; lra).
    unfold q64. lra. }
  replace (q64 ^ 2 * Hb)%R with ((1 + eps64) * (q64 * Hb))%R by (unfold q64; ring). apply rnd_le.
  - rewrite Rabs_mult, (Rabs_pos_eq (1 / 2)) by lra. lra.
  - apply Rle_trans with (1 * Hb)%R.
    + rewrite Rmult_1_l. eapply Rle_trans; [|exact HH]. now apply bpow_le.
    + apply Rmult_le_compat_r; [lra|]. pose proof q1. lra.
Qed.
Lemma d_lo : (bpow radix2 (-201) <= 2 / (3 * d))%R.
Proof.
  pose proof (rng_div _ _ _ _ _ _ z2 (rng_mul _ _ _ _ _ _ z3 Hd3)) as [H _]. exact H.
Qed.
Lemma flux_bound e : 0 <= e < 3 * NC -> fin (hm e) -> (Rabs (flux e) <= fb)%R.
Proof.
  intros He Hf. pose proof (hm_bound e He Hf) as B1. pose proof (Bv e He) as B2. destruct ap_gg as [_ [G1 G2]].
  pose proof d_pos as P0. assert (P1 : (0 < 2 / (3 * d))%R) by (apply Rmult_lt_0_compat; [lra|apply Rinv_0_lt_compat; lra]).
  pose proof lo_H. pose proof lo_V. pose proof (qk0 9) as Q9. pose proof (qk1 11) as Q11. pose proof q1 as Q1. pose proof (qk0 2) as Q2.
  assert (G0 : (Rabs (val gg) <= q64 ^ 9 * (2 / (3 * d)))%R).
  { rewrite Rabs_pos_eq; [lra|]. eapply Rle_trans; [|exact G1]. apply Rlt_le, Rmult_lt_0_compat; [exact P1|now apply Rinv_0_lt_compat]. }
  pose proof d_lo as DL.
  assert (T1 : (bpow radix2 (-401) <= 2 / (3 * d) * Hb)%R).
  { change (-401) with (-201 + -200). rewrite bpow_plus. apply Rmult_le_compat; try apply bpow_ge_0; assumption. }
  assert (T2 : (bpow radix2 (-601) <= 2 / (3 * d) * Hb * Vb)%R).
  { change (-601) with (-401 + -200). rewrite bpow_plus. apply Rmult_le_compat; try apply bpow_ge_0; assumption. }
  assert (A1 : (Rabs (rnd (val gg * val (hm e))) <= q64 ^ 12 * (2 / (3 * d) * Hb))%R).
  { replace (q64 ^ 12 * (2 / (3 * d) * Hb))%R with ((1 + eps64) * (q64 ^ 11 * (2 / (3 * d) * Hb)))%R by (unfold q64; ring). apply rnd_le.
    - rewrite Rabs_mult. replace (q64 ^ 11 * (2 / (3 * d) * Hb))%R with (q64 ^ 9 * (2 / (3 * d)) * (q64 ^ 2 * Hb))%R by ring.
      apply Rmult_le_compat; auto using Rabs_pos.
    - apply Rle_trans with (1 * bpow radix2 (-401))%R; [rewrite Rmult_1_l; now apply bpow_le|].
      apply Rmult_le_compat; [lra|apply bpow_ge_0|exact Q11|exact T1]. }
  unfold flux, fb. replace (q64 ^ 13 * (2 / (3 * d) * Hb * Vb))%R with ((1 + eps64) * (q64 ^ 12 * (2 / (3 * d) * Hb * Vb)))%R by (unfold q64; ring).
  apply rnd_le.
  - rewrite Rabs_mult. replace (q64 ^ 12 * (2 / (3 * d) * Hb * Vb))%R with (q64 ^ 12 * (2 / (3 * d) * Hb) * Vb)%R by ring.
    apply Rmult_le_compat; auto using Rabs_pos.
  - apply Rle_trans with (1 * bpow radix2 (-601))%R; [rewrite Rmult_1_l; now apply bpow_le|].
    apply Rmult_le_compat; [lra|apply bpow_ge_0|apply qk1|exact T2].
Qed.
Lemma fold_bounds : (forall c, 0 <= c < NC -> fin (fold_h c)) ->
  (forall c, 0 <= c < NC -> (Rabs (val (fold_h c)) <= q64 ^ 6 * (6 * fb))%R) /\
  (Rabs (rsum NC (fun c => val (fold_h c))) <= IZR NC * ((q64 ^ 6 - 1) * (6 * fb)))%R.
Proof.
  intros Hf.
  assert (B : forall c j, 0 <= c < NC -> 0 <= j < 6 -> (Rabs (flux (hE X Y c j)) <= fb)%R).
  { intros c j Hc Hj. apply flux_bound; [now apply E_rng|]. destruct (proj2 (fold_facts c Hc) (Hf c Hc)) as [H1 _].
    apply (val_pc c j Hc Hj (H1 j Hj)). }
  assert (B6 : forall c, 0 <= c < NC -> (rsum 6 (fun j => Rabs (flux (hE X Y c j))) <= 6 * fb)%R).
  { intros c Hc. eapply Rle_trans; [apply rsum_le; intros j Hj; apply (B c j Hc Hj)|]. rewrite rsum_const by lia. lra. }
  pose proof (qk1 6) as Q6. split.
  - intros c Hc. destruct (proj2 (fold_facts c Hc) (Hf c Hc)) as [_ H2]. specialize (B6 c Hc).
    set (t := rsum 6 (fun j => IZR (hesc h c j) * flux (hE X Y c j))%R) in *.
    assert (T : (Rabs t <= rsum 6 (fun j => Rabs (flux (hE X Y c j))))%R).
    { eapply Rle_trans; [apply Rabs_rsum|]. right. apply rsum_ext. intros j Hj. rewrite Rabs_mult. destruct (hesc_pm c j) as [-> | ->]; [rewrite Rabs_R1|rewrite Rabs_left by lra]; ring. }
    generalize dependent (val (fold_h c)). intros w H2. replace w with ((w + t) - t)%R by ring. eapply Rle_trans; [apply Rabs_triang|]. rewrite Rabs_Ropp.
    set (a := rsum 6 (fun j => Rabs (flux (hE X Y c j)))) in *.
    assert ((q64 ^ 6 - 1) * a <= (q64 ^ 6 - 1) * (6 * fb))%R by (apply Rmult_le_compat_l; lra). lra.
  - eapply Rle_trans; [now apply fold_total|]. rewrite <- rsum_scal.
    eapply Rle_trans; [apply rsum_le; intros c Hc; apply Rmult_le_compat_l; [lra|apply (B6 c Hc)]|]. rewrite rsum_const by nia. lra.
Qed.
End One.
End Flux.
