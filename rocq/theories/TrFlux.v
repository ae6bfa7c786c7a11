(** The three terms of the tracer tendency in binary64: bounds of the rates and of their sums. *)
From Coq Require Import ZArith Reals List Bool Lia Lra.
From Coq Require Import Floats.SpecFloat.
From Flocq Require Import Core.Core.
From Verif Require Import Arith Arrays Prog Conc Launch Mesh AuxVars Tend Model Hex MeshProof MeshMem Over Formulas KernBase Terms KernAux KernTend TendFn StepFn Ready Rel RelRun Relate TendVal StepVal StepRun MeshFacts MeshR RSum FloatFacts FloatMass FloatRun TrFloat.
Import ListNotations.
Open Scope Z_scope.

(** A layer of a state in which tracer [l] can be followed: thicknesses finite, at least [2^-200] and at most [Hb], velocities at
    most [Vb], concentrations (tracer divided by thickness) at most [Rb], in absolute value. *)
Definition tbounded {cc ss pp} (S : setup (SFA cc ss pp)) (l k : Z) (Hb Vb Rb : R) (s : sid) (m : mem (SFA cc ss pp)) : Prop :=
  (forall c, 0 <= c < d_ncells (sdims S) -> fin_le Hb (mr m (HCell s) [c; k]) /\ (bpow radix2 (-200) <= Rabs (val (mr m (HCell s) [c; k])))%R) /\
  (forall e, 0 <= e < d_nedges (sdims S) -> fin_le Vb (mr m (VnEdge s) [e; k])) /\
  (forall c, 0 <= c < d_ncells (sdims S) -> fin_le (Rb * Rabs (val (mr m (HCell s) [c; k]))) (mr m (TrCell s) [l; c; k])).
(** The sum of a tracer over the cells of a layer, in exact arithmetic. *)
Definition ttotal {cc ss pp} (S : setup (SFA cc ss pp)) (l k : Z) (s : sid) (m : mem (SFA cc ss pp)) : R :=
  rsum (d_ncells (sdims S)) (fun c => val (mr m (TrCell s) [l; c; k])).

Section Flux.
Context (cc ss : spec_float -> spec_float) (pp : spec_float).
Local Notation A := (SFA cc ss pp).
Context (S : setup A) (Hok : setup_ok S).
Local Notation cf := (cfg_of S).
Local Notation P := (par_of S).
Local Notation D := (sdims S).
Local Notation h := (mesh_of_setup S).
Local Notation X := (nx h).
Local Notation Y := (ny h).
Local Notation NC := (nx h * ny h).
Local Notation sd := (ksimd cf).
Implicit Types (m : mem A).
Local Notation aux := (aux_fn cf D).
Local Notation lek := (lek cc ss pp).
Local Notation J := (J cc ss pp).
Context (HX : 2 <= X) (HY : 2 <= Y).
Context (d : R) (Hd1 : fin (dc h)) (Hd2 : val (dc h) = d) (Hd3 : rng d (-100) 100).
Lemma Hd3' : rng d (-200) 200.
Proof. destruct Hd3 as [H1 H2]. split; [eapply Rle_trans; [|exact H1]|eapply Rle_trans; [exact H2|]]; now apply bpow_le. Qed.
Lemma dp : (0 < d)%R. Proof. exact (rng_pos _ _ _ Hd3). Qed.
Lemma s3p : (0 < sqrt 3)%R. Proof. apply sqrt_lt_R0. lra. Qed.
Local Notation gg := (gg cc ss pp S).
Local Notation ia := (#1 / hareac h)%fp.
Local Notation idc := (#1 / dc h)%fp.
Lemma lek_gg : lek gg 9 (-101) (2 / (3 * d)).
Proof. apply lek_ap; [exact (ap_gg cc ss pp S d Hd1 Hd2 Hd3')|]. exact (proj1 (rng_div _ _ _ _ _ _ z2 (rng_mul _ _ _ _ _ _ z3 Hd3))). Qed.
Lemma lek_dve : lek (hdve h) 3 (-102) (d * sqrt 3 / 3).
Proof. apply lek_ap; [exact (ap_dve cc ss pp S d Hd1 Hd2 Hd3')|]. exact (proj1 (rng_div _ _ _ _ _ _ (rng_mul _ _ _ _ _ _ Hd3 rng_sqrt3) z3)). Qed.
Lemma lek_ia : lek ia 5 (-200) (1 / (d * d * sqrt 3 / 2)).
Proof.
  pose proof dp as Hp. pose proof s3p as H3. pose proof (Rmult_lt_0_compat _ _ Hp Hp) as P1. pose proof (Rmult_lt_0_compat _ _ P1 H3) as P2.
  pose proof (rng_div _ _ _ _ _ _ z1 (rng_div _ _ _ _ _ _ (rng_mul _ _ _ _ _ _ (rng_mul _ _ _ _ _ _ Hd3 Hd3) rng_sqrt3) z2)) as R3.
  apply lek_ap; [|exact (proj1 R3)].
  apply (ap_div cc ss pp _ _ _ _ 0 4); [lra|lra|now apply (ap_ofZ cc ss pp 1)|exact (ap_area cc ss pp S d Hd1 Hd2 Hd3')|eapply rng_mid; [apply R3| |]; discriminate|lia].
Qed.
Lemma lek_idc : lek idc 1 (-100) (1 / d).
Proof.
  pose proof dp as Hp. pose proof (rng_div _ _ _ _ _ _ z1 Hd3) as R3. apply lek_ap; [|exact (proj1 R3)].
  apply (ap_div cc ss pp _ _ _ _ 0 0); [lra|lra|now apply (ap_ofZ cc ss pp 1)|exact (ap_dc cc ss pp S d Hd1 Hd2)|eapply rng_mid; [apply R3| |]; discriminate|lia].
Qed.

(** ** Sums over the edges of a cell *)
Definition esub (p : Z -> Z -> F A) (c : Z) : F A := iterZ 6 (fun j y => y - p (hE X Y c j) (hesc h c j))%fp (#0)%fp.
Definition eadd (p : Z -> Z -> F A) (c : Z) : F A := iterZ 6 (fun j y => y + p (hE X Y c j) (hesc h c j))%fp (#0)%fp.
Lemma edge_fold (p : Z -> Z -> F A) n a r :
  (forall e z, 0 <= e < 3 * NC -> z = 1 \/ z = -1 -> lek (p e z) n a r) -> (forall e, p e (-1) = SFopp (p e 1)) ->
  J NC (q64 ^ (6 + n) * (6 * r)) (6 * eps64 * (q64 ^ (6 + n) * (6 * r))) (esub p) /\ (forall c, 0 <= c < NC -> lek (esub p c) (6 + n) a (6 * r)).
Proof.
  intros HL HS. set (f := esub p).
  assert (Er : forall c j, 0 <= c < NC -> 0 <= j < 6 -> 0 <= hE X Y c j < 3 * NC) by (intros; apply hE_range; lia).
  assert (Es : forall c j, hesc h c j = 1 \/ hesc h c j = -1) by (intros; unfold hesc; destruct (_ =? _); auto).
  set (phi := fun e => val (p e 1)).
  assert (Ev : forall c j, val (p (hE X Y c j) (hesc h c j)) = (IZR (hesc h c j) * phi (hE X Y c j))%R).
  { intros c j. destruct (Es c j) as [-> | ->]; [unfold phi; ring|]. rewrite HS, val_opp. unfold phi. ring. }
  assert (L6 : (bpow radix2 a <= r)%R) by (apply (HL 0 1); [lia|auto]). pose proof (bpow_gt_0 radix2 a) as Pa. pose proof (qk1 6) as Q6. pose proof (qk0 n) as Qn.
  set (B := (q64 ^ n * r)%R). assert (PB : (0 < B)%R) by (apply Rmult_lt_0_compat; lra).
  assert (Fc : forall c, 0 <= c < NC -> dbl (f c) /\ (fin (f c) -> (forall j, 0 <= j < 6 -> fin (p (hE X Y c j) (hesc h c j))) /\
    (Rabs (val (f c) + rsum 6 (fun j => IZR (hesc h c j) * phi (hE X Y c j))) <= (q64 ^ 6 - 1) * (6 * B))%R /\ (rsum 6 (fun j => Rabs (IZR (hesc h c j) * phi (hE X Y c j))) <= 6 * B)%R)).
  { intros c Hc. destruct (fold_sub cc ss pp 6 (fun j => p (hE X Y c j) (hesc h c j)) ltac:(lia)) as [G1 G2]; [intros j Hj; apply (HL _ _ (Er c j Hc Hj) (Es c j))|].
    split; [exact G1|]. intros Hf. destruct (G2 Hf) as [G3 G4]. split; [exact G3|].
    assert (S6 : (rsum 6 (fun j => Rabs (val (p (hE X Y c j) (hesc h c j)))) <= 6 * B)%R).
    { eapply Rle_trans; [apply rsum_le; intros j Hj; apply (proj2 (proj2 (HL _ _ (Er c j Hc Hj) (Es c j))) (G3 j Hj))|]. rewrite rsum_const by lia. fold B. lra. }
    rewrite (rsum_ext 6 (fun j => IZR (hesc h c j) * phi (hE X Y c j))%R (fun j => val (p (hE X Y c j) (hesc h c j)))) by (intros; now rewrite Ev).
    rewrite (rsum_ext 6 (fun j => Rabs (IZR (hesc h c j) * phi (hE X Y c j)))%R (fun j => Rabs (val (p (hE X Y c j) (hesc h c j))))) by (intros; now rewrite Ev).
    split; [|exact S6]. eapply Rle_trans; [exact G4|]. apply Rmult_le_compat_l; [cbn; lra|exact S6]. }
  assert (Fb : forall c, 0 <= c < NC -> fin (f c) -> (Rabs (val (f c)) <= q64 ^ (6 + n) * (6 * r))%R).
  { intros c Hc Hf. destruct (proj2 (Fc c Hc) Hf) as (_ & G2 & G3). set (t := rsum 6 (fun j => IZR (hesc h c j) * phi (hE X Y c j))%R) in *.
    assert (T : (Rabs t <= 6 * B)%R) by (eapply Rle_trans; [apply Rabs_rsum|exact G3]).
    replace (val (f c)) with ((val (f c) + t) - t)%R by ring. eapply Rle_trans; [apply Rabs_triang|]. rewrite Rabs_Ropp.
    replace (q64 ^ (6 + n) * (6 * r))%R with (q64 ^ 6 * (6 * B))%R by (unfold B; rewrite pow_add; ring). lra. }
  split.
  - split; [intros c Hc; now apply Fc|]. intros Hf. split; [intros; now apply Fb; [|apply Hf]|].
    pose proof (sides_cancel cf h phi (proj1 Hok) HX HY) as E.
    replace (rsum NC (fun c => val (f c))) with (rsum NC (fun c => val (f c) + rsum 6 (fun j => IZR (hesc h c j) * phi (hE X Y c j))))%R by (rewrite rsum_plus, E; ring).
    eapply Rle_trans; [apply Rabs_rsum|]. rewrite <- rsum_const by nia. apply rsum_le. intros c Hc. destruct (proj2 (Fc c Hc) (Hf c Hc)) as (_ & G2 & _).
    eapply Rle_trans; [exact G2|]. replace (6 * eps64 * (q64 ^ (6 + n) * (6 * r)))%R with (6 * eps64 * q64 ^ 6 * (6 * B))%R by (unfold B; rewrite pow_add; ring).
    apply Rmult_le_compat_r; [lra|apply pow6].
  - intros c Hc. split; [now apply Fc|]. split; [lra|now apply Fb].
Qed.
Lemma edge_fold_add (p : Z -> Z -> F A) n a r :
  (forall e z, 0 <= e < 3 * NC -> z = 1 \/ z = -1 -> lek (p e z) n a r) -> (forall e, p e (-1) = SFopp (p e 1)) ->
  J NC (q64 ^ (6 + n) * (6 * r)) (6 * eps64 * (q64 ^ (6 + n) * (6 * r))) (eadd p) /\ (forall c, 0 <= c < NC -> lek (eadd p c) (6 + n) a (6 * r)).
Proof.
  intros HL HS. destruct (edge_fold (fun e z => SFopp (p e z)) n a r) as [G1 G2].
  - intros e z He Hz. apply lek_opp. now apply HL.
  - intros e. now rewrite HS.
  - assert (E : forall c, eadd p c = esub (fun e z => SFopp (p e z)) c).
    { intros c. apply iterZ_ext. intros j y Hj. symmetry. exact (sub_opp y _). }
    split; [eapply J_ext; [|exact G1]; intros c _; apply E|]. intros c Hc. rewrite E. now apply G2.
Qed.

(** ** One memory *)
Section One.
Context (s : sid) (l k : Z) (n : mem A) (Hr : ready S n) (Hl : 0 <= l < ntracers P) (Hk : 0 <= k < d_nlayers D).
Context (Hb Vb Rb : R) (HH : (bpow radix2 (-100) <= Hb <= bpow radix2 200)%R) (HV : (bpow radix2 (-100) <= Vb)%R) (HR : (bpow radix2 (-100) <= Rb)%R).
Context (HB : tbounded S l k Hb Vb Rb s n).
Local Notation hm := (fun e => f_mean n s e k).
Local Notation v := (fun e => mr n (VnEdge s) [e; k]).
Local Notation ntr := (fun c => f_ntr n s l c k).
Local Notation c0 := (fun e => mi n CellsOnEdge [e; 0]).
Local Notation c1 := (fun e => mi n CellsOnEdge [e; 1]).
Lemma coe_r e i : 0 <= e < 3 * NC -> 0 <= i < 2 -> 0 <= mi n CellsOnEdge [e; i] < NC.
Proof. intros He Hi. rewrite (hm_coe _ _ _ (ready_hex S Hok n Hr)) by assumption. apply hcoe_range; lia. Qed.
Lemma lek_hm e : 0 <= e < 3 * NC -> lek (hm e) 2 (-101) Hb.
Proof.
  intros He. destruct HB as (B1 & _). eapply lek_eq; [apply (lek_mul cc ss pp fhalf _ 0 1 (-1) (-100)); [apply lek_half| |discriminate]|].
  - apply lek_add; apply lek_fin; try apply HH; apply B1, coe_r; lia.
  - lra.
Qed.
Lemma lek_v e : 0 <= e < 3 * NC -> lek (v e) 0 (-100) Vb.
Proof. intros He. apply lek_fin; [now apply HB|exact HV]. Qed.
Lemma lek_ntr c : 0 <= c < NC -> lek (ntr c) 2 (-100) Rb.
Proof.
  intros Hc. destruct HB as (B1 & _ & B3). destruct (B1 c Hc) as [[F1 B1'] L1]. destruct (B3 c Hc) as [F3 B3']. unfold f_ntr.
  set (x := mr n (TrCell s) [l; c; k]) in *. set (y := mr n (HCell s) [c; k]) in *. pose proof (bpow_gt_0 radix2 (-200)) as Z0. pose proof (bpow_gt_0 radix2 (-100)) as Z1.
  assert (Ny : val y <> 0%R) by (intros E; rewrite E, Rabs_R0 in L1; lra).
  destruct (ofZ_val cc ss pp 1 ltac:(reflexivity)) as [F0 E0].
  assert (Bi : (Rabs (1 / val y) <= bpow radix2 200)%R).
  { unfold Rdiv. rewrite Rmult_1_l, Rabs_inv. change 200 with (- -200). rewrite bpow_opp. apply Rinv_le_contravar; lra. }
  assert (By : (Rabs (val y) < bpow radix2 1024)%R) by now apply fin_lt.
  assert (Di : dbl (#1 / y)%fp) by (apply dbl_div; [apply dbl_ofZ|now apply fin_dbl]).
  split; [apply dbl_mul; [now apply fin_dbl|exact Di]|]. split; [exact HR|]. intros Hf.
  destruct (div_ok cc ss pp (#1)%fp y F0 F1 Ny) as [G1 G2].
  { rewrite E0. unfold small. eapply Rle_lt_trans; [apply rnd_le; [exact Bi|now apply bpow_le]|].
    apply Rle_lt_trans with (2 * bpow radix2 200)%R; [apply Rmult_le_compat_r; [apply bpow_ge_0|pose proof eps_small; lra]|].
    replace 2%R with (bpow radix2 1) by reflexivity. rewrite <- bpow_plus. now apply bpow_lt. }
  rewrite E0 in G2. destruct (fin_mul cc ss pp x (#1 / y)%fp (fin_dbl _ F3) Di Hf) as (_ & _ & E). rewrite E, G2.
  assert (Py : (0 < Rabs (val y))%R) by lra. pose proof q1 as Q1. pose proof eps_pos as Ep.
  assert (Er : (Rabs (rnd (1 / val y)) <= q64 * (1 / Rabs (val y)))%R).
  { apply rnd_le.
    - unfold Rdiv. rewrite !Rmult_1_l, Rabs_inv. lra.
    - apply Rle_trans with (bpow radix2 (-200)); [now apply bpow_le|]. unfold Rdiv. rewrite Rmult_1_l. change (-200) with (- (200)). rewrite bpow_opp. apply Rinv_le_contravar; lra. }
  assert (Bx : (Rabs (val x * rnd (1 / val y)) <= q64 * Rb)%R).
  { rewrite Rabs_mult. apply Rle_trans with (Rb * Rabs (val y) * (q64 * (1 / Rabs (val y))))%R; [apply Rmult_le_compat; auto using Rabs_pos|]. right. field. lra. }
  replace (q64 ^ 2 * Rb)%R with ((1 + eps64) * (q64 * Rb))%R by (cbn [pow]; unfold q64; ring). apply rnd_le; [exact Bx|].
  apply Rle_trans with (1 * bpow radix2 (-100))%R; [rewrite Rmult_1_l; now apply bpow_le|]. apply Rmult_le_compat; lra.
Qed.

(** The amounts exchanged through edge [e], for the side with sign [z]. *)
Definition tm (e : Z) : F A := (let t := ntr (c0 e) + ntr (c1 e) in if sd then fhalf * t else t * fhalf)%fp.
Definition gr (e : Z) : F A := ((ntr (c1 e) - ntr (c0 e)) * idc)%fp.
Definition pa (e z : Z) : F A := (gg * fofZ z * hm e * tm e * v e)%fp.
Definition pd (e z : Z) : F A := (let kap := eddy_diff2 P in
  if sd then kap * ia * hdve h * fofZ z * #1 * hm e * gr e else kap * ia * hdve h * fofZ z * hm e * #1 * gr e)%fp.
Definition p2 (e z : Z) : F A := (gg * fofZ z * hm e * gr e)%fp.
Definition del2 (c : Z) : F A := eadd p2 c.
Definition ph (e z : Z) : F A := (eddy_diff4 P * ia * hdve h * fofZ z * #1 * ((del2 (c1 e) - del2 (c0 e)) * idc))%fp.
Definition fa (c : Z) : F A := esub pa c.
Definition fd (c : Z) : F A := eadd pd c.
Definition fh (c : Z) : F A := esub ph c.
Lemma gtr_val md c x : 0 <= c < NC ->
  g_tr S Tend s md (trdel2_fn S (aux s n)) l c k x =
  (let y := zr md x + fa c in let y := if tracer_diff_enabled P then y + fd c else y in if tracer_hyperdiff_enabled P then y + fh c else y)%fp.
Proof.
  intros Hc. pose proof (ready_hex S Hok n Hr) as Hm. pose proof (ok_wfd S Hok) as Hw.
  assert (Er : forall c j, 0 <= c < NC -> 0 <= j < 6 -> 0 <= hE X Y c j < 3 * NC) by (intros; apply hE_range; lia).
  assert (Hld : 0 <= l < d_ntracers D) by now rewrite (d_ntr S).
  assert (Mi : forall b ix, mi (trdel2_fn S (aux s n)) b ix = mi n b ix) by (intros; unfold trdel2_fn; destruct (tracer_hyperdiff_enabled P); reflexivity).
  assert (Mr : forall b ix, b <> TracerDel2Cell -> mr (trdel2_fn S (aux s n)) b ix = mr (aux s n) b ix) by (intros; now apply trdel2_other).
  assert (Nt : forall c, 0 <= c < NC -> mr (aux s n) NormTrCell [l; c; k] = ntr c) by (intros; now apply (av_ntr S Hw s n k Hk)).
  assert (Ngr : forall e, 0 <= e < 3 * NC -> ((mr (aux s n) NormTrCell [l; mi n CellsOnEdge [e; 1]; k] - mr (aux s n) NormTrCell [l; mi n CellsOnEdge [e; 0]; k]) * (#1 / mr (aux s n) DcEdge [e]))%fp = gr e).
  { intros e He. rewrite !Nt by (apply coe_r; lia). rewrite aux_other by reflexivity. now rewrite (hm_dce _ _ _ Hm) by exact He. }
  assert (G2 : forall c, 0 <= c < NC -> f_trdel2 (aux s n) FluxHEdge l c k = del2 c).
  { intros c' Hc'. unfold f_trdel2, del2, eadd. rewrite aux_mi, (hm_noc _ _ _ Hm) by exact Hc'. apply iterZ_ext. intros j y Hj. unfold s_trdel2. cbv zeta.
    rewrite !aux_mi, (hm_eoc _ _ _ Hm) by assumption. pose proof (Er c' j Hc' Hj) as He. rewrite Ngr by exact He. rewrite (av_flux S Hw s n k Hk) by exact He.
    rewrite !aux_other by reflexivity. rewrite (hm_dve _ _ _ Hm), (hm_area _ _ _ Hm), (hm_esc _ _ _ Hm) by assumption. reflexivity. }
  unfold g_tr. cbv zeta.
  assert (Xa : forall x, t_trhadv (trdel2_fn S (aux s n)) sd MeanHEdge s l c k x = (x + fa c)%fp).
  { intros y0. unfold t_trhadv, fa, esub. f_equal. rewrite Mi, (hm_noc _ _ _ Hm) by exact Hc. apply iterZ_ext. intros j y Hj. unfold s_trhadv. cbv zeta.
    rewrite !Mi, (hm_eoc _ _ _ Hm) by assumption. pose proof (Er c j Hc Hj) as He. rewrite !Mr by discriminate. rewrite !Nt by (apply coe_r; lia).
    rewrite (av_mean S Hw s n k Hk) by exact He. rewrite !aux_other by reflexivity.
    rewrite (hm_dve _ _ _ Hm), (hm_area _ _ _ Hm), (hm_esc _ _ _ Hm) by assumption. reflexivity. }
  assert (Xd : forall x, t_trdiff (trdel2_fn S (aux s n)) sd (eddy_diff2 P) FluxHEdge l c k x = (x + fd c)%fp).
  { intros y0. unfold t_trdiff, fd, eadd. f_equal. rewrite Mi, (hm_noc _ _ _ Hm) by exact Hc. apply iterZ_ext. intros j y Hj. unfold s_trdiff, pd. cbv zeta.
    rewrite !Mi, (hm_eoc _ _ _ Hm) by assumption. pose proof (Er c j Hc Hj) as He. rewrite !Mr by discriminate. rewrite Ngr by exact He.
    rewrite (av_flux S Hw s n k Hk) by exact He. rewrite !aux_other by reflexivity.
    rewrite (hm_dve _ _ _ Hm), (hm_area _ _ _ Hm), (hm_esc _ _ _ Hm), (hm_sc2 _ _ _ Hm) by assumption. destruct sd; reflexivity. }
  rewrite Xa, Xd. destruct (tracer_hyperdiff_enabled P) eqn:Eh; [|reflexivity].
  generalize (if tracer_diff_enabled P then (zr md x + fa c + fd c)%fp else (zr md x + fa c)%fp). intros y0.
  unfold t_trhyp, fh, esub. f_equal. rewrite Mi, (hm_noc _ _ _ Hm) by exact Hc. apply iterZ_ext. intros j y Hj. unfold s_trhyp, ph. cbv zeta.
  rewrite !Mi, (hm_eoc _ _ _ Hm) by assumption. pose proof (Er c j Hc Hj) as He.
  assert (Nd : forall c', 0 <= c' < NC -> mr (trdel2_fn S (aux s n)) TracerDel2Cell [l; c'; k] = del2 c').
  { intros c' Hc'. unfold trdel2_fn. rewrite Eh. rewrite upd_same by (cbn [rext]; apply inb3; repeat split; tauto || lia). cbn [on3]. now apply G2. }
  rewrite !Nd by (apply coe_r; lia). rewrite !Mr by discriminate. rewrite !aux_other by reflexivity.
  rewrite (hm_dve _ _ _ Hm), (hm_area _ _ _ Hm), (hm_esc _ _ _ Hm), (hm_sc4 _ _ _ Hm), (hm_dce _ _ _ Hm) by assumption. reflexivity.
Qed.

(** Sizes. *)
Lemma lek_tm e : 0 <= e < 3 * NC -> lek (tm e) 4 (-101) Rb.
Proof.
  intros He. assert (L : lek (ntr (c0 e) + ntr (c1 e))%fp 3 (-100) (Rb + Rb)) by (apply (lek_add cc ss pp _ _ 2); apply lek_ntr, coe_r; lia).
  unfold tm. cbv zeta. destruct sd; eapply lek_eq.
  - apply (lek_mul cc ss pp fhalf _ 0 3 (-1) (-100)); [apply lek_half|exact L|discriminate].
  - lra.
  - apply (lek_mul cc ss pp _ fhalf 3 0 (-100) (-1)); [exact L|apply lek_half|discriminate].
  - lra.
Qed.
Lemma lek_gr e : 0 <= e < 3 * NC -> lek (gr e) 5 (-200) (2 * Rb / d).
Proof.
  intros He. pose proof dp. eapply lek_eq; [apply (lek_mul cc ss pp _ _ 3 1 (-100) (-100)); [apply (lek_sub cc ss pp _ _ 2); apply lek_ntr, coe_r; lia|apply lek_idc|discriminate]|]. field. lra.
Qed.
Lemma sgn_mul (x : F A) z : z = 1 \/ z = -1 -> forall i a r, lek x i a r -> -1000 <= a -> lek (x * fofZ z)%fp (1 + i) a r.
Proof.
  intros Hz i a r HL Ha. replace (1 + i)%nat with (1 + (i + 0))%nat by lia. replace a with (a + 0) by lia. eapply lek_eq; [apply lek_mul; [exact HL|now apply lek_sg|lia]|lra].
Qed.
Lemma one_mul (x : F A) : forall i a r, lek x i a r -> -1000 <= a -> lek (x * #1)%fp (1 + i) a r.
Proof. intros i a r. apply sgn_mul. auto. Qed.
Lemma lek_pa e z : 0 <= e < 3 * NC -> z = 1 \/ z = -1 -> lek (pa e z) 19 (-404) (2 / (3 * d) * Hb * Rb * Vb).
Proof.
  intros He Hz. apply (lek_up cc ss pp _ 19 (-101 + -101 + -101 + -100)); [lia|lia|].
  apply (lek_mul cc ss pp _ _ 18 0); [|now apply lek_v|lia]. apply (lek_mul cc ss pp _ _ 13 4); [|now apply lek_tm|lia].
  apply (lek_mul cc ss pp _ _ 10 2); [|now apply lek_hm|lia]. apply (sgn_mul gg z Hz 9); [apply lek_gg|lia].
Qed.
Lemma lek_p2 e z : 0 <= e < 3 * NC -> z = 1 \/ z = -1 -> lek (p2 e z) 19 (-402) (2 / (3 * d) * Hb * (2 * Rb / d)).
Proof.
  intros He Hz. apply (lek_up cc ss pp _ 19 (-101 + -101 + -200)); [lia|lia|].
  apply (lek_mul cc ss pp _ _ 13 5); [|now apply lek_gr|lia].
  apply (lek_mul cc ss pp _ _ 10 2); [|now apply lek_hm|lia]. apply (sgn_mul gg z Hz 9); [apply lek_gg|lia].
Qed.
Lemma geo_eq K : (K * (1 / (d * d * sqrt 3 / 2)) * (d * sqrt 3 / 3) = K * (2 / (3 * d)))%R.
Proof. pose proof dp. pose proof s3p. field. lra. Qed.
Lemma lek_geo (kap : F A) K z : fin_le K kap -> (bpow radix2 (-100) <= K)%R -> z = 1 \/ z = -1 -> lek (kap * ia * hdve h * fofZ z)%fp 11 (-402) (K * (2 / (3 * d))).
Proof.
  intros HK LK Hz. apply (sgn_mul _ z Hz 10); [|lia]. eapply lek_eq; [|apply geo_eq]. change (-402) with (-100 + -200 + -102).
  apply (lek_mul cc ss pp _ _ 6 3); [|apply lek_dve|lia]. apply (lek_mul cc ss pp _ _ 0 5); [|apply lek_ia|lia]. now apply lek_fin.
Qed.
Lemma lek_pd K e z : fin_le K (eddy_diff2 P) -> (bpow radix2 (-100) <= K)%R -> 0 <= e < 3 * NC -> z = 1 \/ z = -1 ->
  lek (pd e z) 21 (-703) (K * (2 / (3 * d)) * Hb * (2 * Rb / d)).
Proof.
  intros HK LK He Hz. pose proof (lek_geo _ K z HK LK Hz) as G. change (-703) with (-402 + -101 + -200). unfold pd. cbv zeta. destruct sd.
  - apply (lek_mul cc ss pp _ _ 15 5); [|now apply lek_gr|lia]. apply (lek_mul cc ss pp _ _ 12 2); [|now apply lek_hm|lia]. apply (one_mul _ 11); [exact G|lia].
  - apply (lek_mul cc ss pp _ _ 15 5); [|now apply lek_gr|lia]. apply (one_mul _ 14); [|lia]. apply (lek_mul cc ss pp _ _ 11 2); [exact G|now apply lek_hm|lia].
Qed.
Lemma m1 (x : F A) : (x * fofZ (-1))%fp = SFopp (x * fofZ 1)%fp.
Proof. rewrite m1_opp. exact (mul_opp_r x _). Qed.
Lemma ml (x y : F A) : @fmul A (SFopp x) y = SFopp (x * y)%fp. Proof. exact (mul_opp_l x y). Qed.
Lemma opp_pa e : pa e (-1) = SFopp (pa e 1). Proof. unfold pa. rewrite m1. rewrite !ml. reflexivity. Qed.
Lemma opp_p2 e : p2 e (-1) = SFopp (p2 e 1). Proof. unfold p2. rewrite m1. rewrite !ml. reflexivity. Qed.
Lemma opp_pd e : pd e (-1) = SFopp (pd e 1). Proof. unfold pd. cbv zeta. destruct sd; rewrite m1; rewrite !ml; reflexivity. Qed.
Lemma opp_ph e : ph e (-1) = SFopp (ph e 1). Proof. unfold ph. rewrite m1. rewrite !ml. reflexivity. Qed.
Lemma lek_del2 c : 0 <= c < NC -> lek (del2 c) 25 (-402) (8 * Hb * Rb / (d * d)).
Proof.
  intros Hc. pose proof dp. destruct (edge_fold_add p2 19 (-402) _ lek_p2 opp_p2) as [_ G]. specialize (G c Hc). unfold del2. eapply lek_eq; [exact G|]. field. lra.
Qed.
Lemma lek_ph K e z : fin_le K (eddy_diff4 P) -> (bpow radix2 (-100) <= K)%R -> 0 <= e < 3 * NC -> z = 1 \/ z = -1 ->
  lek (ph e z) 41 (-904) (K * (2 / (3 * d)) * (16 * Hb * Rb / (d * d) * (1 / d))).
Proof.
  intros HK LK He Hz. pose proof (lek_geo _ K z HK LK Hz) as G. change (-904) with (-402 + (-402 + -100)). pose proof dp.
  apply (lek_mul cc ss pp _ _ 12 28); [apply (one_mul _ 11); [exact G|lia]| |lia]. apply (lek_mul cc ss pp _ _ 26 1); [|apply lek_idc|lia].
  eapply lek_eq; [apply (lek_sub cc ss pp _ _ 25); apply lek_del2, coe_r; lia|]. field. lra.
Qed.
Lemma J_fa : J NC (q64 ^ 25 * (4 * Vb / d * (Hb * Rb))) (6 * eps64 * (q64 ^ 25 * (4 * Vb / d * (Hb * Rb)))) fa.
Proof.
  pose proof dp. replace (4 * Vb / d * (Hb * Rb))%R with (6 * (2 / (3 * d) * Hb * Rb * Vb))%R by (field; lra). exact (proj1 (edge_fold pa 19 (-404) _ lek_pa opp_pa)).
Qed.
Lemma J_fd K : fin_le K (eddy_diff2 P) -> (bpow radix2 (-100) <= K)%R ->
  J NC (q64 ^ 27 * (8 * K / (d * d) * (Hb * Rb))) (6 * eps64 * (q64 ^ 27 * (8 * K / (d * d) * (Hb * Rb)))) fd.
Proof.
  intros HK LK. pose proof dp. replace (8 * K / (d * d) * (Hb * Rb))%R with (6 * (K * (2 / (3 * d)) * Hb * (2 * Rb / d)))%R by (field; lra).
  exact (proj1 (edge_fold_add pd 21 (-703) _ (fun e z => lek_pd K e z HK LK) opp_pd)).
Qed.
Lemma J_fh K : fin_le K (eddy_diff4 P) -> (bpow radix2 (-100) <= K)%R ->
  J NC (q64 ^ 47 * (64 * K / (d * d * d * d) * (Hb * Rb))) (6 * eps64 * (q64 ^ 47 * (64 * K / (d * d * d * d) * (Hb * Rb)))) fh.
Proof.
  intros HK LK. pose proof dp. replace (64 * K / (d * d * d * d) * (Hb * Rb))%R with (6 * (K * (2 / (3 * d)) * (16 * Hb * Rb / (d * d) * (1 / d))))%R by (field; lra).
  exact (proj1 (edge_fold ph 41 (-904) _ (fun e z => lek_ph K e z HK LK) opp_ph)).
Qed.

(** The whole rate. *)
Context (K2 K4 : R) (P2 : (0 <= K2)%R) (P4 : (0 <= K4)%R).
Context (E2 : tracer_diff_enabled P = true -> fin_le K2 (eddy_diff2 P) /\ (bpow radix2 (-100) <= K2)%R).
Context (E4 : tracer_hyperdiff_enabled P = true -> fin_le K4 (eddy_diff4 P) /\ (bpow radix2 (-100) <= K4)%R).
Local Notation w := (Hb * Rb * (4 * Vb / d + 8 * K2 / (d * d) + 64 * K4 / (d * d * d * d)))%R.
Lemma J_rate md (Mx Ex : R) (x : Z -> F A) : (0 <= Mx)%R -> J NC Mx Ex (fun c => zr md (x c)) ->
  J NC (q64 ^ 3 * Mx + q64 ^ 50 * w) (Ex + 9 * eps64 * (q64 ^ 50 * w) + 3 * eps64 * (q64 ^ 3 * Mx)) (fun c => g_tr S Tend s md (trdel2_fn S (aux s n)) l c k (x c)).
Proof.
  intros Hx HJ. pose proof dp as Hd. pose proof (bpow_gt_0 radix2 (-100)) as Z1.
  assert (PH : (0 < Hb * Rb)%R) by (apply Rmult_lt_0_compat; lra).
  assert (Pd2 : (0 < d * d)%R) by (apply Rmult_lt_0_compat; lra). assert (Pd4 : (0 < d * d * d * d)%R) by (do 2 (apply Rmult_lt_0_compat; [|lra]); lra).
  assert (N1 : (0 <= 4 * Vb / d * (Hb * Rb))%R) by (apply Rmult_le_pos; [apply Rmult_le_pos; [lra|]|]; [apply Rlt_le, Rinv_0_lt_compat|]; lra).
  assert (N2 : (0 <= 8 * K2 / (d * d) * (Hb * Rb))%R) by (apply Rmult_le_pos; [apply Rmult_le_pos; [lra|]|]; [apply Rlt_le, Rinv_0_lt_compat|]; lra).
  assert (N3 : (0 <= 64 * K4 / (d * d * d * d) * (Hb * Rb))%R) by (apply Rmult_le_pos; [apply Rmult_le_pos; [lra|]|]; [apply Rlt_le, Rinv_0_lt_compat|]; lra).
  pose proof (qk0 25) as Q25. pose proof (qk0 27) as Q27. pose proof (qk0 47) as Q47.
  pose proof (qk_mono 25 47 ltac:(lia)) as M25. pose proof (qk_mono 27 47 ltac:(lia)) as M27.
  eapply J_ext; [intros c Hc; apply gtr_val; exact Hc|].
  apply (three_sums cc ss pp NC (tracer_diff_enabled P) (tracer_hyperdiff_enabled P) Mx Ex (q64 ^ 25 * (4 * Vb / d * (Hb * Rb))) (q64 ^ 27 * (8 * K2 / (d * d) * (Hb * Rb))) (q64 ^ 47 * (64 * K4 / (d * d * d * d) * (Hb * Rb))) w (fun c => zr md (x c)) fa fd fh).
  - nia.
  - exact Hx.
  - apply Rmult_le_pos; lra.
  - apply Rmult_le_pos; lra.
  - apply Rmult_le_pos; lra.
  - set (a := (4 * Vb / d)%R) in *. set (b := (8 * K2 / (d * d))%R) in *. set (c := (64 * K4 / (d * d * d * d))%R) in *.
    replace (q64 ^ 47 * (Hb * Rb * (a + b + c)))%R with (q64 ^ 47 * (a * (Hb * Rb)) + q64 ^ 47 * (b * (Hb * Rb)) + q64 ^ 47 * (c * (Hb * Rb)))%R by ring.
    pose proof (Rmult_le_compat_r _ _ _ N1 M25). pose proof (Rmult_le_compat_r _ _ _ N2 M27). lra.
  - exact HJ.
  - exact J_fa.
  - intros B. destruct (E2 B). now apply J_fd.
  - intros B. destruct (E4 B). now apply J_fh.
Qed.
End One.
End Flux.
