(** One step of either stepper compared with the forward Euler step. *)
From Coq Require Import ZArith Reals List Bool Lia Lra.
From Verif Require Import Arith Arrays Prog Conc Launch Mesh AuxVars Tend Model Hex RSum Spec MeshProof MeshMem MeshR KernBase Ready StepFn StepVal StepRun StepThms RealTend FieldInv Vort Sim SimThms Driver DriverFn Lip.
Import ListNotations.
Open Scope Z_scope.

(** The sum of the weights of a stepper. *)
Fixpoint gam (n : Z) (i : nat) : R := match i with O => 0 | Datatypes.S i => lsrk_a (A:=RA) n (Z.of_nat i) * gam n i + 1 end%R.
Fixpoint sgm (n : Z) (i : nat) : R := match i with O => 0 | Datatypes.S i => sgm n i + lsrk_b (A:=RA) n (Z.of_nat i) * gam n (Datatypes.S i) end%R.
Definition weight (st : stepper) : R := match st with RK4 => 1%R | LSRK n => sgm n (Z.to_nat n) end.
Lemma weight_1 : weight (LSRK 1) = 1%R.
Proof. unfold weight. change (Z.to_nat 1) with 1%nat. cbn. ring. Qed.
Lemma weight_5 : (Rabs (weight (LSRK 5) - 1) <= 1 / 10 ^ 25)%R.
Proof.
  unfold weight. change (Z.to_nat 5) with 5%nat. unfold sgm, gam. change (Z.of_nat 0) with 0. change (Z.of_nat 1) with 1. change (Z.of_nat 2) with 2. change (Z.of_nat 3) with 3. change (Z.of_nat 4) with 4.
  unfold lsrk_a, lsrk_b. change (5 =? 5) with true. cbv iota. cbn [fdiv fofZ RA]. apply Rabs_le. lra.
Qed.
Lemma lsrk_coef n i : n = 1 \/ n = 5 -> 0 <= i < n -> (Rabs (lsrk_a (A:=RA) n i) <= 2 /\ Rabs (lsrk_b (A:=RA) n i) <= 1 /\ 0 <= lsrk_c (A:=RA) n i <= 1)%R.
Proof.
  intros [-> | ->] Hi.
  - replace i with 0 by lia. cbn. repeat split; try (apply Rabs_le); lra.
  - unfold lsrk_a, lsrk_b, lsrk_c. change (5 =? 5) with true. cbv iota. cbn [fdiv fofZ RA].
    assert (i = 0 \/ i = 1 \/ i = 2 \/ i = 3 \/ i = 4) as [-> | [-> | [-> | [-> | ->]]]] by lia; repeat split; try (apply Rabs_le); lra.
Qed.
Lemma rk4_coef i : 0 <= i < 3 -> (0 <= rk4_a (A:=RA) i <= 1 /\ 0 <= rk4_c (A:=RA) i <= 1)%R.
Proof. intros Hi. assert (i = 0 \/ i = 1 \/ i = 2) as [-> | [-> | ->]] by lia; cbn; lra. Qed.

Section Step.
Context (S : setup RA) (Hok : setup_ok S) (Hdc : (0 < (dc (mesh_of_setup S) : R))%R) (m : mem RA) (Hr : ready S m) (bx : fields RA -> Prop) (T M : R) (HM : (0 <= M)%R).
Definition ff (t : R) (y : fields RA) (p : plc) : R := (gp S m p y + fp S m p t)%R.
Context (FM : forall t y p, (0 <= t <= T)%R -> bx y -> vplc S p -> (Rabs (ff t y p) <= M)%R).
Context (FL : forall t t' y z p d, (0 <= t <= T)%R -> (0 <= t' <= T)%R -> bx y -> bx z -> vplc S p -> (0 <= d)%R -> close S d y z -> (Rabs (ff t y p - ff t' z p) <= M * (Rabs (t - t') + d))%R).

Lemma close_refl y : close S 0 y y.
Proof. intros p _. rewrite Rminus_diag_eq, Rabs_R0 by reflexivity. lra. Qed.
Lemma val_fmap2 g y z p : val (fmap2 (A:=RA) g y z) p = g (val y p) (val z p).
Proof. destruct p; reflexivity. Qed.

Section One.
Context (t dt r : R) (Ht : (0 <= t)%R) (Hdt : (0 <= dt)%R) (HT : (t + dt <= T)%R) (y : fields RA) (Hy : forall z, close S r z y -> bx z) (Hrr : (64 * M * dt <= r)%R).
Local Notation f0 := (ff t y).
Local Notation E := (M * (1 + 64 * M) * dt)%R.
Lemma E_pos : (0 <= E)%R.
Proof. apply Rmult_le_pos; [|exact Hdt]. apply Rmult_le_pos; lra. Qed.
Lemma bx_y : bx y.
Proof. apply Hy. intros p _. rewrite Rminus_diag_eq, Rabs_R0 by reflexivity. assert (0 <= 64 * M * dt)%R by (apply Rmult_le_pos; lra). lra. Qed.
Lemma f0_le p : vplc S p -> (Rabs (f0 p) <= M)%R.
Proof. intros Hp. apply FM; [lra|apply bx_y|exact Hp]. Qed.
Lemma stage_near c Y K : (0 <= c <= 1)%R -> close S (64 * M * dt) Y y -> tendency_of S (t + c * dt)%R Y K -> forall p, vplc S p -> (Rabs (val K p) <= M /\ Rabs (val K p - f0 p) <= E)%R.
Proof.
  intros Hc HY HK p Hp. rewrite (tend_gp S Hok Hdc m Hr _ _ _ HK p Hp). fold (ff (t + c * dt) Y p).
  assert (0 <= c * dt <= dt)%R by (split; [apply Rmult_le_pos; lra|]; nra).
  assert (bx Y). { apply Hy. intros q Hq. specialize (HY q Hq). lra. }
  split; [apply FM; auto; lra|].
  assert (0 <= 64 * M * dt)%R by (apply Rmult_le_pos; lra).
  eapply Rle_trans; [apply (FL (t + c * dt) t Y y p (64 * M * dt)); auto using bx_y; lra|].
  replace (t + c * dt - t)%R with (c * dt)%R by ring. rewrite Rabs_pos_eq by lra. nra.
Qed.
Lemma rk4_one m1 : unforced S -> ready S m1 -> disabled_zero S Tend m1 -> holds S St m1 y ->
  exists z, let m' := rk4_fn S t dt m1 in ready S m' /\ disabled_zero S Tend m' /\ holds S St m' z /\ forall p, vplc S p -> (Rabs (val z p - (val y p + dt * f0 p)) <= dt * E)%R.
Proof.
  intros U R1 Z1 Y1.
  destruct (tendency_ex S Hok t y) as [k1 K1]. destruct (tendency_ex S Hok (t + rk4_c (A:=RA) 0 * dt)%R (add (A:=RA) dt (rk4_a 0) y k1)) as [k2 K2].
  destruct (tendency_ex S Hok (t + rk4_c (A:=RA) 1 * dt)%R (add (A:=RA) dt (rk4_a 1) y k2)) as [k3 K3]. destruct (tendency_ex S Hok (t + rk4_c (A:=RA) 2 * dt)%R (add (A:=RA) dt (rk4_a 2) y k3)) as [k4 K4].
  destruct (rk4_holds S Hok t dt m1 y k1 k2 k3 k4 U R1 Y1 Z1 K1 K2 K3 K4) as (A1 & A2 & A3).
  assert (Cl : forall i k, 0 <= i < 3 -> (forall p, vplc S p -> (Rabs (val k p) <= M)%R) -> close S (64 * M * dt) (add (A:=RA) dt (rk4_a i) y k) y).
  { intros i k Hi Hk p Hp. unfold add. rewrite val_fmap2. cbn [fadd fmul RA]. destruct (rk4_coef i Hi) as [[B1 B2] _]. specialize (Hk p Hp).
    replace (val y p + dt * rk4_a (A:=RA) i * val k p - val y p)%R with (dt * rk4_a (A:=RA) i * val k p)%R by ring. rewrite !Rabs_mult, (Rabs_pos_eq dt) by exact Hdt. rewrite (Rabs_pos_eq (rk4_a (A:=RA) i)) by exact B1.
    pose proof (Rabs_pos (val k p)). assert (dt * rk4_a (A:=RA) i <= dt * 1)%R by (apply Rmult_le_compat_l; assumption). assert (0 <= dt * rk4_a (A:=RA) i)%R by (apply Rmult_le_pos; assumption).
    assert (dt * rk4_a (A:=RA) i * Rabs (val k p) <= dt * 1 * M)%R by (apply Rmult_le_compat; assumption). nra. }
  assert (N1 : forall p, vplc S p -> (Rabs (val k1 p) <= M /\ Rabs (val k1 p - f0 p) <= E)%R).
  { apply (stage_near 0 y k1); [lra| |now replace (t + 0 * dt)%R with t by ring]. intros p _. rewrite Rminus_diag_eq, Rabs_R0 by reflexivity. apply Rmult_le_pos; lra. }
  assert (N2 := stage_near _ _ _ (proj2 (rk4_coef 0 ltac:(lia))) (Cl 0 k1 ltac:(lia) (fun p Hp => proj1 (N1 p Hp))) K2).
  assert (N3 := stage_near _ _ _ (proj2 (rk4_coef 1 ltac:(lia))) (Cl 1 k2 ltac:(lia) (fun p Hp => proj1 (N2 p Hp))) K3).
  assert (N4 := stage_near _ _ _ (proj2 (rk4_coef 2 ltac:(lia))) (Cl 2 k3 ltac:(lia) (fun p Hp => proj1 (N3 p Hp))) K4).
  eexists. cbv zeta. split; [exact A3|]. split; [exact A2|]. split; [exact A1|]. intros p Hp.
  destruct (N1 p Hp) as [_ D1]. destruct (N2 p Hp) as [_ D2]. destruct (N3 p Hp) as [_ D3]. destruct (N4 p Hp) as [_ D4].
  unfold add. rewrite !val_fmap2. change (rk4_b (A:=RA) 0) with (1 / 6)%R. change (rk4_b (A:=RA) 1) with (1 / 3)%R. change (rk4_b (A:=RA) 2) with (1 / 3)%R. change (rk4_b (A:=RA) 3) with (1 / 6)%R. cbn [fadd fmul RA].
  set (g := f0 p) in *. set (x1 := val k1 p) in *. set (x2 := val k2 p) in *. set (x3 := val k3 p) in *. set (x4 := val k4 p) in *. set (e := E) in *. clearbody g x1 x2 x3 x4 e.
  replace (val y p + dt * (1 / 6) * x1 + dt * (1 / 3) * x2 + dt * (1 / 3) * x3 + dt * (1 / 6) * x4 - (val y p + dt * g))%R
    with (dt * ((x1 - g) / 6 + (x2 - g) / 3 + (x3 - g) / 3 + (x4 - g) / 6))%R by field.
  rewrite Rabs_mult, (Rabs_pos_eq dt) by exact Hdt. apply Rmult_le_compat_l; [exact Hdt|].
  revert D1 D2 D3 D4. clear. intros. split_Rabs; lra.
Qed.
Lemma lsrk_one n m1 : n = 1 \/ n = 5 -> ready S m1 -> holds S St m1 y ->
  exists z, let m' := lsrk_fn S n t dt m1 in ready S m' /\ holds S St m' z /\ forall p, vplc S p -> (Rabs (val z p - (val y p + dt * (weight (LSRK n) * f0 p))) <= dt * (64 * E))%R.
Proof.
  intros Hn R1 Y1. destruct (stages_ex S Hok n t dt y (fld Tend m1) ltac:(lia)) as (Y & Q & K & EY & EQ & H).
  destruct (lsrk_holds S Hok n t dt m1 Y Q K ltac:(lia) R1) as (A1 & A2 & _); [rewrite EY; exact Y1|rewrite EQ; apply holds_fld|exact H|].
  exists (Y n). cbv zeta. split; [exact A1|]. split; [exact A2|].
  pose proof E_pos as E0.
  assert (G : forall i : nat, Z.of_nat i <= n -> forall p, vplc S p ->
    (Rabs (val (Y (Z.of_nat i)) p - (val y p + dt * (sgm n i * f0 p))) <= dt * ((2 * 2 ^ i - 2) * E) /\ Rabs (val (Y (Z.of_nat i)) p - val y p) <= (2 * 2 ^ i - 2) * (M * dt) /\
     (i = O \/ Rabs (val (Q (Z.of_nat i)) p - gam n i * f0 p) <= (2 ^ i - 1) * E /\ Rabs (val (Q (Z.of_nat i)) p) <= (2 ^ i - 1) * M))%R).
  { induction i as [|i IH]; intros Hi.
    - intros p Hp. change (Z.of_nat 0) with 0. rewrite EY. cbn [sgm pow]. split; [|split; [|now left]].
      + replace (val y p - (val y p + dt * (0 * f0 p)))%R with 0%R by ring. rewrite Rabs_R0. lra.
      + rewrite Rminus_diag_eq, Rabs_R0 by reflexivity. lra.
    - specialize (IH ltac:(lia)). destruct (H (Z.of_nat i) ltac:(lia)) as (H1 & H2 & H3). destruct (lsrk_coef n (Z.of_nat i) Hn ltac:(lia)) as (C1 & C2 & C3).
      assert (P2 : (1 <= 2 ^ i)%R) by (apply pow_R1_Rle; lra).
      assert (P3 : (2 ^ i <= 16)%R). { assert (L : (i <= 4)%nat) by lia. pose proof (Rle_pow 2 i 4 ltac:(lra) L). simpl in *. lra. }
      assert (Cl : close S (64 * M * dt) (Y (Z.of_nat i)) y).
      { intros p Hp. destruct (IH p Hp) as (_ & B & _). assert (0 <= M * dt)%R by (apply Rmult_le_pos; assumption). nra. }
      pose proof (stage_near _ _ _ C3 Cl H1) as SN. intros p Hp. destruct (IH p Hp) as (B1 & B2 & B3). destruct (SN p Hp) as (D1 & D2).
      replace (Z.of_nat (Datatypes.S i)) with (Z.of_nat i + 1) by lia. rewrite H3, H2, !val_fmap2.
      set (a := lsrk_a (A:=RA) n (Z.of_nat i)) in *. set (b := lsrk_b (A:=RA) n (Z.of_nat i)) in *. cbn [gam sgm]. fold a b.
      set (g := f0 p) in *. set (q := val (Q (Z.of_nat i)) p) in *. set (k := val (K (Z.of_nat i)) p) in *. set (u := val (Y (Z.of_nat i)) p) in *. set (e := E) in *.
      assert (Q1 : (Rabs (a * q + k - (a * gam n i + 1) * g) <= (2 * 2 ^ i - 1) * e /\ Rabs (a * q + k) <= (2 * 2 ^ i - 1) * M)%R).
      { destruct B3 as [-> | [B3 B4]].
        - assert (a = 0)%R as -> by (unfold a; destruct Hn as [-> | ->]; reflexivity). cbn [gam pow]. replace (0 * q + k - (0 * 0 + 1) * g)%R with (k - g)%R by ring. replace (0 * q + k)%R with k by ring. lra.
        - split.
          + replace (a * q + k - (a * gam n i + 1) * g)%R with (a * (q - gam n i * g) + (k - g))%R by ring. eapply Rle_trans; [apply Rabs_triang|]. rewrite Rabs_mult.
            assert (Rabs a * Rabs (q - gam n i * g) <= 2 * ((2 ^ i - 1) * e))%R by (apply Rmult_le_compat; auto using Rabs_pos). lra.
          + eapply Rle_trans; [apply Rabs_triang|]. rewrite Rabs_mult. assert (Rabs a * Rabs q <= 2 * ((2 ^ i - 1) * M))%R by (apply Rmult_le_compat; auto using Rabs_pos). lra. }
      destruct Q1 as [Q1 Q2]. cbn [pow]. split; [|split; [|right; split; [exact Q1|exact Q2]]].
      + replace (u + dt * b * (a * q + k) - (val y p + dt * ((sgm n i + b * (a * gam n i + 1)) * g)))%R with ((u - (val y p + dt * (sgm n i * g))) + dt * (b * (a * q + k - (a * gam n i + 1) * g)))%R by ring.
        eapply Rle_trans; [apply Rabs_triang|]. rewrite (Rabs_mult dt), (Rabs_pos_eq dt) by exact Hdt. rewrite Rabs_mult.
        assert (Rabs b * Rabs (a * q + k - (a * gam n i + 1) * g) <= 1 * ((2 * 2 ^ i - 1) * e))%R by (apply Rmult_le_compat; auto using Rabs_pos).
        assert (dt * (Rabs b * Rabs (a * q + k - (a * gam n i + 1) * g)) <= dt * (1 * ((2 * 2 ^ i - 1) * e)))%R by (apply Rmult_le_compat_l; assumption).
        assert (0 <= dt * e)%R by (apply Rmult_le_pos; assumption). nra.
      + replace (u + dt * b * (a * q + k) - val y p)%R with ((u - val y p) + dt * (b * (a * q + k)))%R by ring.
        eapply Rle_trans; [apply Rabs_triang|]. rewrite (Rabs_mult dt), (Rabs_pos_eq dt) by exact Hdt. rewrite Rabs_mult.
        assert (Rabs b * Rabs (a * q + k) <= 1 * ((2 * 2 ^ i - 1) * M))%R by (apply Rmult_le_compat; auto using Rabs_pos).
        assert (dt * (Rabs b * Rabs (a * q + k)) <= dt * (1 * ((2 * 2 ^ i - 1) * M)))%R by (apply Rmult_le_compat_l; assumption).
        assert (0 <= M * dt)%R by (apply Rmult_le_pos; assumption). nra. }
  intros p Hp. destruct (G (Z.to_nat n) ltac:(lia) p Hp) as (B1 & _). rewrite Z2Nat.id in B1 by lia. cbn [weight]. eapply Rle_trans; [exact B1|].
  apply Rmult_le_compat_l; [exact Hdt|]. apply Rmult_le_compat_r; [exact E0|].
  assert (L : (Z.to_nat n <= 5)%nat) by lia. pose proof (Rle_pow 2 (Z.to_nat n) 5 ltac:(lra) L) as HP. set (w := (2 ^ Z.to_nat n)%R) in *. clearbody w. simpl in HP. lra.
Qed.
End One.
End Step.
