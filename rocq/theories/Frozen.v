(** Tracers in a flow that does not change: when thickness and velocity have no tendency, and the tendency of a tracer
    is a linear operator, one step of any of the steppers is a polynomial of that operator. *)
From Coq Require Import ZArith Reals List Bool Lia Lra.
From Verif Require Import Arith Arrays Prog Conc Launch Mesh AuxVars Tend Model Hex HexComb RSum Spec MeshProof MeshMem MeshFacts MeshR MeshCalc Over Formulas KernBase Terms KernAux KernTend TendFn StepFn Ready Rel RelRun Relate TendVal StepVal StepRun Tableau StepThms RealTend SumParts Diag FieldInv ConsBase ConsThms SteadyThms SuperThms Diffuse.
Import ListNotations.
Open Scope Z_scope.

(** Powers of an operator [L], polynomials in [dt] times it, and products of them. *)
Fixpoint zpow (L : (Z -> R) -> Z -> R) (n : nat) (phi : Z -> R) : Z -> R := match n with O => phi | S n => L (zpow L n phi) end.
Definition zpol (L : (Z -> R) -> Z -> R) (g : Z -> R) (dt : R) (phi : Z -> R) (c : Z) : R :=
  (g 0%Z * phi c + g 1%Z * dt * zpow L 1 phi c + g 2%Z * dt ^ 2 * zpow L 2 phi c + g 3%Z * dt ^ 3 * zpow L 3 phi c
   + g 4%Z * dt ^ 4 * zpow L 4 phi c + g 5%Z * dt ^ 5 * zpow L 5 phi c)%R.
Definition zprun (L : (Z -> R) -> Z -> R) (g : Z -> R) (steps : list (R * R)) (phi : Z -> R) : Z -> R :=
  fold_left (fun f p => zpol L g (snd p) f) steps phi.

Section Frozen.
Context (S : setup RA) (Hok : setup_ok S) (Hf : hook S = None).
Local Notation P := (par_of S).
Local Notation NC := (nx (mesh_of_setup S) * ny (mesh_of_setup S)).
Local Notation NL := (d_nlayers (sdims S)).
Context (lop : Z -> (Z -> R) -> Z -> R).
Context (lop_ext : forall j f g c, 0 <= j < NL -> (forall c, 0 <= c < NC -> f c = g c) -> 0 <= c < NC -> lop j f c = lop j g c).
Context (lop_lin : forall j a b f g c, 0 <= j < NL -> 0 <= c < NC -> lop j (fun c => a * f c + b * g c)%R c = (a * lop j f c + b * lop j g c)%R).
Context (HH VV : Z -> Z -> R).
(** The state [y] has the given flow; [k] is the tendency of [y]. *)
Definition z_rest (y : fields RA) : Prop := forall j, 0 <= j < NL ->
  (forall c, 0 <= c < NC -> fh y c j = HH c j) /\ (forall e, 0 <= e < 3 * NC -> fv y e j = VV e j).
Definition z_rtend (y k : fields RA) : Prop := forall j, 0 <= j < NL ->
  (forall c, 0 <= c < NC -> fh k c j = 0%R) /\ (forall e, 0 <= e < 3 * NC -> fv k e j = 0%R) /\
  (forall l c, 0 <= l < ntracers P -> 0 <= c < NC -> slice k l j c = lop j (slice y l j) c).
Context (z_rest_tend : forall (time : R) y k, z_rest y -> tendency_of S time y k -> z_rtend y k).

Lemma z_lop_comb5 j phi (a0 a1 a2 a3 a4 : R) f c : 0 <= j < NL -> 0 <= c < NC ->
  (forall c, 0 <= c < NC -> f c = (a0 * phi c + a1 * zpow (lop j) 1 phi c + a2 * zpow (lop j) 2 phi c + a3 * zpow (lop j) 3 phi c + a4 * zpow (lop j) 4 phi c)%R) ->
  lop j f c = (a0 * zpow (lop j) 1 phi c + a1 * zpow (lop j) 2 phi c + a2 * zpow (lop j) 3 phi c + a3 * zpow (lop j) 4 phi c + a4 * zpow (lop j) 5 phi c)%R.
Proof.
  intros Hj Hc E.
  rewrite (lop_ext j f (fun c => 1 * (fun c => 1 * (fun c => 1 * (fun c => a0 * phi c + a1 * zpow (lop j) 1 phi c) c + a2 * zpow (lop j) 2 phi c) c + a3 * zpow (lop j) 3 phi c) c + a4 * zpow (lop j) 4 phi c)%R);
    [|exact Hj|intros c' Hc'; rewrite E by exact Hc'; ring|exact Hc].
  rewrite !(lop_lin j _ _ _ _ c Hj Hc). change (lop j phi c) with (zpow (lop j) 1 phi c). change (lop j (zpow (lop j) 1 phi) c) with (zpow (lop j) 2 phi c).
  change (lop j (zpow (lop j) 2 phi) c) with (zpow (lop j) 3 phi c). change (lop j (zpow (lop j) 3 phi) c) with (zpow (lop j) 4 phi c). change (lop j (zpow (lop j) 4 phi) c) with (zpow (lop j) 5 phi c). ring.
Qed.

(** One step with the polynomial [g]. *)
Definition z_stepped (g : Z -> R) (dt : R) (y y' : fields RA) : Prop :=
  z_rest y' /\ forall l j c, 0 <= l < ntracers P -> 0 <= j < NL -> 0 <= c < NC -> slice y' l j c = zpol (lop j) g dt (slice y l j) c.
Lemma z_rest_add b y k x : z_rest y -> z_rtend x k -> z_rest (fmap2 (A:=RA) (fun u w => (u + b * w)%R) y k).
Proof.
  intros Hy Hk j Hj. destruct (Hy j Hj) as [A B]. destruct (Hk j Hj) as (A' & B' & _).
  split; intros; cbn [fmap2 fh fv]; rewrite ?A, ?B, ?A', ?B' by assumption; rring.
Qed.

Lemma z_rk4_pol (t dt : R) M y : ready S M -> disabled_zero S Tend M -> holds S St M y -> z_rest y ->
  exists y', let M' := rk4_fn S t dt M in holds S St M' y' /\ disabled_zero S Tend M' /\ ready S M' /\ z_stepped g_rk4 dt y y'.
Proof.
  intros RM Hz Hy Ry.
  destruct (tendency_ex S Hok t y) as [k1 T1].
  destruct (tendency_ex S Hok (t + rk4_c (A:=RA) 0 * dt)%R (add (A:=RA) dt (rk4_a 0) y k1)) as [k2 T2].
  destruct (tendency_ex S Hok (t + rk4_c (A:=RA) 1 * dt)%R (add (A:=RA) dt (rk4_a 1) y k2)) as [k3 T3].
  destruct (tendency_ex S Hok (t + rk4_c (A:=RA) 2 * dt)%R (add (A:=RA) dt (rk4_a 2) y k3)) as [k4 T4].
  destruct (rk4_holds S Hok t dt M y k1 k2 k3 k4) as (A & B & C); auto; [intros _; exact Hf|].
  exists (add (A:=RA) dt (rk4_b 3) (add (A:=RA) dt (rk4_b 2) (add (A:=RA) dt (rk4_b 1) (add (A:=RA) dt (rk4_b 0) y k1) k2) k3) k4).
  cbv zeta. split; [exact A|]. split; [exact B|]. split; [exact C|].
  assert (Ad : forall x z k b, z_rest z -> z_rtend x k -> z_rest (add (A:=RA) dt b z k)).
  { intros x z k b Hz' Hk. exact (z_rest_add (dt * b)%R z k x Hz' Hk). }
  pose proof (z_rest_tend t y k1 Ry T1) as K1. pose proof (Ad _ y k1 (rk4_a (A:=RA) 0) Ry K1) as R1.
  pose proof (z_rest_tend _ _ k2 R1 T2) as K2. pose proof (Ad _ y k2 (rk4_a (A:=RA) 1) Ry K2) as R2.
  pose proof (z_rest_tend _ _ k3 R2 T3) as K3. pose proof (Ad _ y k3 (rk4_a (A:=RA) 2) Ry K3) as R3.
  pose proof (z_rest_tend _ _ k4 R3 T4) as K4.
  split.
  - eapply Ad; [|exact K4]. eapply Ad; [|exact K3]. eapply Ad; [|exact K2]. eapply Ad; [|exact K1]. exact Ry.
  - intros l j c Hl Hj Hc. set (phi := slice y l j).
    assert (E1 : forall c, 0 <= c < NC -> slice k1 l j c = zpow (lop j) 1 phi c) by (intros c' Hc'; now apply (K1 j Hj)).
    assert (E2 : forall c, 0 <= c < NC -> slice k2 l j c = (1 * zpow (lop j) 1 phi c + dt / 2 * zpow (lop j) 2 phi c + 0 * zpow (lop j) 3 phi c + 0 * zpow (lop j) 4 phi c + 0 * zpow (lop j) 5 phi c)%R).
    { intros c' Hc'. destruct (K2 j Hj) as (_ & _ & E). rewrite E by assumption. apply z_lop_comb5; [exact Hj|exact Hc'|]. intros c0 Hc0.
      change (slice (add (A:=RA) dt (rk4_a 0) y k1) l j c0) with (phi c0 + dt * rk4_a (A:=RA) 0 * slice k1 l j c0)%R. rewrite E1 by exact Hc0.
      change (rk4_a (A:=RA) 0) with (IZR 1 / IZR 2)%R. cbn [F RA]. field. }
    assert (E3 : forall c, 0 <= c < NC -> slice k3 l j c = (1 * zpow (lop j) 1 phi c + dt / 2 * zpow (lop j) 2 phi c + dt ^ 2 / 4 * zpow (lop j) 3 phi c + 0 * zpow (lop j) 4 phi c + 0 * zpow (lop j) 5 phi c)%R).
    { intros c' Hc'. destruct (K3 j Hj) as (_ & _ & E). rewrite E by assumption. apply z_lop_comb5; [exact Hj|exact Hc'|]. intros c0 Hc0.
      change (slice (add (A:=RA) dt (rk4_a 1) y k2) l j c0) with (phi c0 + dt * rk4_a (A:=RA) 1 * slice k2 l j c0)%R. rewrite E2 by exact Hc0.
      change (rk4_a (A:=RA) 1) with (IZR 1 / IZR 2)%R. cbn [F RA]. field. }
    assert (E4 : forall c, 0 <= c < NC -> slice k4 l j c = (1 * zpow (lop j) 1 phi c + dt * zpow (lop j) 2 phi c + dt ^ 2 / 2 * zpow (lop j) 3 phi c + dt ^ 3 / 4 * zpow (lop j) 4 phi c + 0 * zpow (lop j) 5 phi c)%R).
    { intros c' Hc'. destruct (K4 j Hj) as (_ & _ & E). rewrite E by assumption. apply z_lop_comb5; [exact Hj|exact Hc'|]. intros c0 Hc0.
      change (slice (add (A:=RA) dt (rk4_a 2) y k3) l j c0) with (phi c0 + dt * rk4_a (A:=RA) 2 * slice k3 l j c0)%R. rewrite E3 by exact Hc0.
      change (rk4_a (A:=RA) 2) with (IZR 1)%R. cbn [F RA]. field. }
    change (slice _ l j c) with (phi c + dt * rk4_b (A:=RA) 0 * slice k1 l j c + dt * rk4_b (A:=RA) 1 * slice k2 l j c + dt * rk4_b (A:=RA) 2 * slice k3 l j c + dt * rk4_b (A:=RA) 3 * slice k4 l j c)%R.
    rewrite E1, E2, E3, E4 by exact Hc.
    change (rk4_b (A:=RA) 0) with (IZR 1 / IZR 6)%R. change (rk4_b (A:=RA) 1) with (IZR 1 / IZR 3)%R. change (rk4_b (A:=RA) 2) with (IZR 1 / IZR 3)%R. change (rk4_b (A:=RA) 3) with (IZR 1 / IZR 6)%R.
    unfold zpol, g_rk4. cbn [F RA]. field.
Qed.

Lemma z_rtend_tr y k l j : z_rtend y k -> 0 <= l < ntracers P -> 0 <= j < NL -> forall c, 0 <= c < NC -> slice k l j c = lop j (slice y l j) c.
Proof. intros Hk Hl Hj c Hc. destruct (Hk j Hj) as (_ & _ & E). auto. Qed.
(** [k] has no thickness and velocity components. *)
Definition z_zhv (k : fields RA) : Prop := forall j, 0 <= j < NL ->
  (forall c, 0 <= c < NC -> fh k c j = 0%R) /\ (forall e, 0 <= e < 3 * NC -> fv k e j = 0%R).
Lemma z_rtend_zhv y k : z_rtend y k -> z_zhv k.
Proof. intros Hk j Hj. destruct (Hk j Hj) as (A & B & _). auto. Qed.
Lemma z_zhv_add a q k : z_zhv q \/ a = 0%R -> z_zhv k -> z_zhv (fmap2 (A:=RA) (fun u w => (a * u + w)%R) q k).
Proof.
  intros [Hq | ->] Hk j Hj; destruct (Hk j Hj) as [A B]; [destruct (Hq j Hj) as [A' B']|];
  split; intros; cbn [fmap2 fh fv]; rewrite ?A, ?B, ?A', ?B' by assumption; rring.
Qed.
Lemma z_rest_zhv b y k : z_rest y -> z_zhv k -> z_rest (fmap2 (A:=RA) (fun u w => (u + b * w)%R) y k).
Proof.
  intros Hy Hk j Hj. destruct (Hy j Hj) as [A B]. destruct (Hk j Hj) as (A' & B').
  split; intros; cbn [fmap2 fh fv]; rewrite ?A, ?B, ?A', ?B' by assumption; rring.
Qed.
(** Stage [i + 1] of the low storage scheme. *)
Lemma z_lsrk_next n (t dt : R) i (Y Q K : Z -> fields RA) : 
  tendency_of S (t + lsrk_c (A:=RA) n i * dt)%R (Y i) (K i) ->
  Q (i + 1) = fmap2 (A:=RA) (fun u w => lsrk_a (A:=RA) n i * u + w)%R (Q i) (K i) ->
  Y (i + 1) = fmap2 (A:=RA) (fun u w => u + dt * lsrk_b (A:=RA) n i * w)%R (Y i) (Q (i + 1)) ->
  z_rest (Y i) -> z_zhv (Q i) \/ lsrk_a (A:=RA) n i = 0%R ->
  z_rest (Y (i + 1)) /\ z_zhv (Q (i + 1)) /\ forall l j c, 0 <= l < ntracers P -> 0 <= j < NL -> 0 <= c < NC ->
    slice (Q (i + 1)) l j c = (lsrk_a (A:=RA) n i * slice (Q i) l j c + lop j (slice (Y i) l j) c)%R /\
    slice (Y (i + 1)) l j c = (slice (Y i) l j c + dt * lsrk_b (A:=RA) n i * slice (Q (i + 1)%Z) l j c)%R.
Proof.
  intros T EQ EY RY ZQ. pose proof (z_rest_tend _ _ _ RY T) as HK.
  assert (ZQ' : z_zhv (Q (i + 1))) by (rewrite EQ; apply z_zhv_add; [exact ZQ|exact (z_rtend_zhv _ _ HK)]).
  split; [rewrite EY; now apply z_rest_zhv|]. split; [exact ZQ'|]. intros l j c Hl Hj Hc. split.
  - rewrite EQ. rewrite <- (z_rtend_tr _ _ l j HK Hl Hj c Hc). reflexivity.
  - rewrite EY at 1. reflexivity.
Qed.

Lemma z_euler_pol (t dt : R) M y : ready S M -> holds S St M y -> z_rest y ->
  exists y', let M' := lsrk_fn S 1 t dt M in holds S St M' y' /\ ready S M' /\ z_stepped g_euler dt y y'.
Proof.
  intros RM Hy Ry.
  destruct (stages_ex S Hok 1 t dt y (fld Tend M) ltac:(lia)) as (Y & Q & K & EY & EQ & G).
  destruct (lsrk_holds S Hok 1 t dt M Y Q K ltac:(lia) RM) as (A & B & _).
  { rewrite EY. exact Hy. } { rewrite EQ. apply holds_fld. } { exact G. }
  destruct (G 0 ltac:(lia)) as (T0 & Q0 & Y0). rewrite <- EY in Ry.
  destruct (z_lsrk_next 1 t dt 0 Y Q K T0 Q0 Y0 Ry (or_intror (lsrk_a0 1))) as (R1 & _ & E1).
  exists (Y 1). cbv zeta. split; [exact B|]. split; [exact A|]. split; [exact R1|].
  intros l j c Hl Hj Hc. destruct (E1 l j c Hl Hj Hc) as [F1 F2]. change (0 + 1) with 1 in *. rewrite F2, F1, lsrk_a0, EY.
  change (lsrk_b (A:=RA) 1 0) with (IZR 1). unfold zpol, g_euler. change (zpow (lop j) 1 (slice y l j) c) with (lop j (slice y l j) c). cbn [F RA]. ring.
Qed.

Lemma z_lsrk5_pol (t dt : R) M y : ready S M -> holds S St M y -> z_rest y ->
  exists y', let M' := lsrk_fn S 5 t dt M in holds S St M' y' /\ ready S M' /\ z_stepped g_lsrk5 dt y y'.
Proof.
  intros RM Hy Ry.
  destruct (stages_ex S Hok 5 t dt y (fld Tend M) ltac:(lia)) as (Y & Q & K & EY & EQ & G).
  destruct (lsrk_holds S Hok 5 t dt M Y Q K ltac:(lia) RM) as (A & B & _).
  { rewrite EY. exact Hy. } { rewrite EQ. apply holds_fld. } { exact G. }
  rewrite <- EY in Ry.
  destruct (G 0 ltac:(lia)) as (T0 & Q0 & Y0).
  destruct (z_lsrk_next 5 t dt 0 Y Q K T0 Q0 Y0 Ry (or_intror (lsrk_a0 5))) as (R1 & Z1 & E1). change (0 + 1) with 1 in *.
  destruct (G 1 ltac:(lia)) as (T1 & Q1 & Y1).
  destruct (z_lsrk_next 5 t dt 1 Y Q K T1 Q1 Y1 R1 (or_introl Z1)) as (R2 & Z2 & E2). change (1 + 1) with 2 in *.
  destruct (G 2 ltac:(lia)) as (T2 & Q2 & Y2).
  destruct (z_lsrk_next 5 t dt 2 Y Q K T2 Q2 Y2 R2 (or_introl Z2)) as (R3 & Z3 & E3). change (2 + 1) with 3 in *.
  destruct (G 3 ltac:(lia)) as (T3 & Q3 & Y3).
  destruct (z_lsrk_next 5 t dt 3 Y Q K T3 Q3 Y3 R3 (or_introl Z3)) as (R4 & Z4 & E4). change (3 + 1) with 4 in *.
  destruct (G 4 ltac:(lia)) as (T4 & Q4 & Y4).
  destruct (z_lsrk_next 5 t dt 4 Y Q K T4 Q4 Y4 R4 (or_introl Z4)) as (R5 & Z5 & E5). change (4 + 1) with 5 in *.
  exists (Y 5). cbv zeta. split; [exact B|]. split; [exact A|]. split; [exact R5|].
  intros l j c Hl Hj Hc. set (phi := slice y l j).
  assert (EY0 : forall c, slice (Y 0) l j c = phi c) by (intros c'; now rewrite EY).
  clear - E1 E2 E3 E4 E5 Hok lop_ext lop_lin Hl Hj Hc EY0.
  change (lsrk_b (A:=RA) 5 0) with (tab_b 0) in E1.
  change (lsrk_a (A:=RA) 5 1) with (tab_a 1) in E2.
  change (lsrk_b (A:=RA) 5 1) with (tab_b 1) in E2.
  change (lsrk_a (A:=RA) 5 2) with (tab_a 2) in E3.
  change (lsrk_b (A:=RA) 5 2) with (tab_b 2) in E3.
  change (lsrk_a (A:=RA) 5 3) with (tab_a 3) in E4.
  change (lsrk_b (A:=RA) 5 3) with (tab_b 3) in E4.
  change (lsrk_a (A:=RA) 5 4) with (tab_a 4) in E5.
  change (lsrk_b (A:=RA) 5 4) with (tab_b 4) in E5.
  unfold g_lsrk5, zpol, tb. revert E1 E2 E3 E4 E5. generalize tab_a tab_b. intros a b E1 E2 E3 E4 E5.
  pose (q11 := (1)%R).
  pose (y11 := (b 0%Z * q11)%R).
  assert (FQ1 : forall c, 0 <= c < NC -> slice (Q 1) l j c = (q11 * dt ^ 0 * zpow (lop j) 1 phi c)%R).
  { intros c' Hc'. rewrite (proj1 (E1 l j c' Hl Hj Hc')). rewrite (z_lop_comb5 j phi 1 0%R 0%R 0%R 0%R (slice (Y 0) l j) c' Hj Hc').
    - rewrite lsrk_a0. unfold q11. rring.
    - intros c0 Hc0. rewrite EY0. ring. }
  assert (FY1 : forall c, 0 <= c < NC -> slice (Y 1) l j c = (phi c + y11 * dt ^ 1 * zpow (lop j) 1 phi c)%R).
  { intros c' Hc'. rewrite (proj2 (E1 l j c' Hl Hj Hc')), FQ1 by exact Hc'. rewrite EY0. unfold y11. rring. }
  pose (q21 := (a 1%Z * q11 + 1)%R).
  pose (q22 := (y11)%R).
  pose (y21 := (y11 + b 1%Z * q21)%R).
  pose (y22 := (b 1%Z * q22)%R).
  assert (FQ2 : forall c, 0 <= c < NC -> slice (Q 2) l j c = (q21 * dt ^ 0 * zpow (lop j) 1 phi c + q22 * dt ^ 1 * zpow (lop j) 2 phi c)%R).
  { intros c' Hc'. rewrite (proj1 (E2 l j c' Hl Hj Hc')). rewrite (z_lop_comb5 j phi 1 (y11 * dt ^ 1)%R 0%R 0%R 0%R (slice (Y 1) l j) c' Hj Hc').
    - rewrite FQ1 by exact Hc'. unfold q21, q22. rring.
    - intros c0 Hc0. rewrite FY1 by exact Hc0. ring. }
  assert (FY2 : forall c, 0 <= c < NC -> slice (Y 2) l j c = (phi c + y21 * dt ^ 1 * zpow (lop j) 1 phi c + y22 * dt ^ 2 * zpow (lop j) 2 phi c)%R).
  { intros c' Hc'. rewrite (proj2 (E2 l j c' Hl Hj Hc')), FQ2 by exact Hc'. rewrite FY1 by exact Hc'. unfold y21, y22. rring. }
  pose (q31 := (a 2%Z * q21 + 1)%R).
  pose (q32 := (a 2%Z * q22 + y21)%R).
  pose (q33 := (y22)%R).
  pose (y31 := (y21 + b 2%Z * q31)%R).
  pose (y32 := (y22 + b 2%Z * q32)%R).
  pose (y33 := (b 2%Z * q33)%R).
  assert (FQ3 : forall c, 0 <= c < NC -> slice (Q 3) l j c = (q31 * dt ^ 0 * zpow (lop j) 1 phi c + q32 * dt ^ 1 * zpow (lop j) 2 phi c + q33 * dt ^ 2 * zpow (lop j) 3 phi c)%R).
  { intros c' Hc'. rewrite (proj1 (E3 l j c' Hl Hj Hc')). rewrite (z_lop_comb5 j phi 1 (y21 * dt ^ 1)%R (y22 * dt ^ 2)%R 0%R 0%R (slice (Y 2) l j) c' Hj Hc').
    - rewrite FQ2 by exact Hc'. unfold q31, q32, q33. rring.
    - intros c0 Hc0. rewrite FY2 by exact Hc0. ring. }
  assert (FY3 : forall c, 0 <= c < NC -> slice (Y 3) l j c = (phi c + y31 * dt ^ 1 * zpow (lop j) 1 phi c + y32 * dt ^ 2 * zpow (lop j) 2 phi c + y33 * dt ^ 3 * zpow (lop j) 3 phi c)%R).
  { intros c' Hc'. rewrite (proj2 (E3 l j c' Hl Hj Hc')), FQ3 by exact Hc'. rewrite FY2 by exact Hc'. unfold y31, y32, y33. rring. }
  pose (q41 := (a 3%Z * q31 + 1)%R).
  pose (q42 := (a 3%Z * q32 + y31)%R).
  pose (q43 := (a 3%Z * q33 + y32)%R).
  pose (q44 := (y33)%R).
  pose (y41 := (y31 + b 3%Z * q41)%R).
  pose (y42 := (y32 + b 3%Z * q42)%R).
  pose (y43 := (y33 + b 3%Z * q43)%R).
  pose (y44 := (b 3%Z * q44)%R).
  assert (FQ4 : forall c, 0 <= c < NC -> slice (Q 4) l j c = (q41 * dt ^ 0 * zpow (lop j) 1 phi c + q42 * dt ^ 1 * zpow (lop j) 2 phi c + q43 * dt ^ 2 * zpow (lop j) 3 phi c + q44 * dt ^ 3 * zpow (lop j) 4 phi c)%R).
  { intros c' Hc'. rewrite (proj1 (E4 l j c' Hl Hj Hc')). rewrite (z_lop_comb5 j phi 1 (y31 * dt ^ 1)%R (y32 * dt ^ 2)%R (y33 * dt ^ 3)%R 0%R (slice (Y 3) l j) c' Hj Hc').
    - rewrite FQ3 by exact Hc'. unfold q41, q42, q43, q44. rring.
    - intros c0 Hc0. rewrite FY3 by exact Hc0. ring. }
  assert (FY4 : forall c, 0 <= c < NC -> slice (Y 4) l j c = (phi c + y41 * dt ^ 1 * zpow (lop j) 1 phi c + y42 * dt ^ 2 * zpow (lop j) 2 phi c + y43 * dt ^ 3 * zpow (lop j) 3 phi c + y44 * dt ^ 4 * zpow (lop j) 4 phi c)%R).
  { intros c' Hc'. rewrite (proj2 (E4 l j c' Hl Hj Hc')), FQ4 by exact Hc'. rewrite FY3 by exact Hc'. unfold y41, y42, y43, y44. rring. }
  pose (q51 := (a 4%Z * q41 + 1)%R).
  pose (q52 := (a 4%Z * q42 + y41)%R).
  pose (q53 := (a 4%Z * q43 + y42)%R).
  pose (q54 := (a 4%Z * q44 + y43)%R).
  pose (q55 := (y44)%R).
  pose (y51 := (y41 + b 4%Z * q51)%R).
  pose (y52 := (y42 + b 4%Z * q52)%R).
  pose (y53 := (y43 + b 4%Z * q53)%R).
  pose (y54 := (y44 + b 4%Z * q54)%R).
  pose (y55 := (b 4%Z * q55)%R).
  assert (FQ5 : forall c, 0 <= c < NC -> slice (Q 5) l j c = (q51 * dt ^ 0 * zpow (lop j) 1 phi c + q52 * dt ^ 1 * zpow (lop j) 2 phi c + q53 * dt ^ 2 * zpow (lop j) 3 phi c + q54 * dt ^ 3 * zpow (lop j) 4 phi c + q55 * dt ^ 4 * zpow (lop j) 5 phi c)%R).
  { intros c' Hc'. rewrite (proj1 (E5 l j c' Hl Hj Hc')). rewrite (z_lop_comb5 j phi 1 (y41 * dt ^ 1)%R (y42 * dt ^ 2)%R (y43 * dt ^ 3)%R (y44 * dt ^ 4)%R (slice (Y 4) l j) c' Hj Hc').
    - rewrite FQ4 by exact Hc'. unfold q51, q52, q53, q54, q55. rring.
    - intros c0 Hc0. rewrite FY4 by exact Hc0. ring. }
  assert (FY5 : forall c, 0 <= c < NC -> slice (Y 5) l j c = (phi c + y51 * dt ^ 1 * zpow (lop j) 1 phi c + y52 * dt ^ 2 * zpow (lop j) 2 phi c + y53 * dt ^ 3 * zpow (lop j) 3 phi c + y54 * dt ^ 4 * zpow (lop j) 4 phi c + y55 * dt ^ 5 * zpow (lop j) 5 phi c)%R).
  { intros c' Hc'. rewrite (proj2 (E5 l j c' Hl Hj Hc')), FQ5 by exact Hc'. rewrite FY4 by exact Hc'. unfold y51, y52, y53, y54, y55. rring. }
  rewrite FY5 by exact Hc. clear.
  assert (C1 : y51 = (s5 (tabA a b 5%Z))%R) by (cbv [q11  q21  q22  q31  q32  q33  q41  q42  q43  q44  q51  q52  q53  q54  q55  y11  y21  y22  y31  y32  y33  y41  y42  y43  y44  y51  y52  y53  y54  y55   s5 tabA Z.leb Z.compare Pos.compare Pos.compare_cont]; ring).
  assert (C2 : y52 = (s5 (fun i => tabA a b 5%Z i * s5 (tabA a b i)))%R) by (cbv [q11  q21  q22  q31  q32  q33  q41  q42  q43  q44  q51  q52  q53  q54  q55  y11  y21  y22  y31  y32  y33  y41  y42  y43  y44  y51  y52  y53  y54  y55   s5 tabA Z.leb Z.compare Pos.compare Pos.compare_cont]; ring).
  assert (C3 : y53 = (s5 (fun i => tabA a b 5%Z i * s5 (fun j => tabA a b i j * s5 (tabA a b j))))%R) by (cbv [q11  q21  q22  q31  q32  q33  q41  q42  q43  q44  q51  q52  q53  q54  q55  y11  y21  y22  y31  y32  y33  y41  y42  y43  y44  y51  y52  y53  y54  y55   s5 tabA Z.leb Z.compare Pos.compare Pos.compare_cont]; ring).
  assert (C4 : y54 = (s5 (fun i => tabA a b 5%Z i * s5 (fun j => tabA a b i j * s5 (fun l => tabA a b j l * s5 (tabA a b l)))))%R) by (cbv [q11  q21  q22  q31  q32  q33  q41  q42  q43  q44  q51  q52  q53  q54  q55  y11  y21  y22  y31  y32  y33  y41  y42  y43  y44  y51  y52  y53  y54  y55   s5 tabA Z.leb Z.compare Pos.compare Pos.compare_cont]; ring).
  assert (C5 : y55 = (b 0%Z * b 1%Z * b 2%Z * b 3%Z * b 4%Z)%R) by (cbv [q11  q21  q22  q31  q32  q33  q41  q42  q43  q44  q51  q52  q53  q54  q55  y11  y21  y22  y31  y32  y33  y41  y42  y43  y44  y51  y52  y53  y54  y55   s5 tabA Z.leb Z.compare Pos.compare Pos.compare_cont]; ring).
  rewrite C1, C2, C3, C4, C5. rring.
Qed.

Lemma zpow_ext j n f g c : 0 <= j < NL -> (forall c, 0 <= c < NC -> f c = g c) -> 0 <= c < NC -> zpow (lop j) n f c = zpow (lop j) n g c.
Proof. intros Hj E. revert c. induction n as [|n IH]; intros c Hc; [auto|]. cbn [zpow]. apply lop_ext; auto. Qed.
Lemma zpol_ext j g dt f f' c : 0 <= j < NL -> (forall c, 0 <= c < NC -> f c = f' c) -> 0 <= c < NC -> zpol (lop j) g dt f c = zpol (lop j) g dt f' c.
Proof. intros Hj E Hc. unfold zpol. rewrite !(zpow_ext j _ f f') by assumption. now rewrite E. Qed.
(** A run. *)
Lemma zprun_ext j g steps f f' : 0 <= j < NL -> (forall c, 0 <= c < NC -> f c = f' c) -> forall c, 0 <= c < NC -> zprun (lop j) g steps f c = zprun (lop j) g steps f' c.
Proof.
  intros Hj. revert f f'. induction steps as [|[t dt] l IH]; intros f f' E c Hc; [now apply E|]. cbn [zprun fold_left snd]. apply IH; [|exact Hc].
  intros. now apply zpol_ext.
Qed.
Definition z_ran (g : Z -> R) (steps : list (R * R)) (y y' : fields RA) : Prop :=
  z_rest y' /\ forall l j c, 0 <= l < ntracers P -> 0 <= j < NL -> 0 <= c < NC -> slice y' l j c = zprun (lop j) g steps (slice y l j) c.
Lemma z_ran_cons g t dt l y y1 y2 : z_stepped g dt y y1 -> z_ran g l y1 y2 -> z_ran g ((t, dt) :: l) y y2.
Proof.
  intros [_ E1] [R2 E2]. split; [exact R2|]. intros l' j c Hl Hj Hc. rewrite E2 by assumption.
  cbn [zprun fold_left snd]. apply zprun_ext; [exact Hj| |exact Hc]. intros. now apply E1.
Qed.
Lemma z_rk4_ran steps M y : ready S M -> disabled_zero S Tend M -> holds S St M y -> z_rest y ->
  exists y', holds S St (rk4_run_fn S steps M) y' /\ z_ran g_rk4 steps y y'.
Proof.
  revert M y. induction steps as [|[t dt] l IH]; intros M y RM Hz Hy Ry; [exists y; split; [exact Hy|split; [exact Ry|reflexivity]]|].
  destruct (z_rk4_pol t dt M y RM Hz Hy Ry) as (y1 & A1 & A2 & A3 & A4).
  destruct (IH _ y1 A3 A2 A1 (proj1 A4)) as (y2 & B1 & B2). exists y2. split; [exact B1|]. eapply z_ran_cons; eassumption.
Qed.
Lemma z_lsrk_ran n steps M y : n = 1 \/ n = 5 -> ready S M -> holds S St M y -> z_rest y ->
  exists y', holds S St (lsrk_run_fn S n steps M) y' /\ z_ran (g_lsrk n) steps y y'.
Proof.
  intros Hn. revert M y. induction steps as [|[t dt] l IH]; intros M y RM Hy Ry; [exists y; split; [exact Hy|split; [exact Ry|reflexivity]]|].
  assert (G : exists y', let M' := lsrk_fn S n t dt M in holds S St M' y' /\ ready S M' /\ z_stepped (g_lsrk n) dt y y').
  { destruct Hn as [-> | ->]; [now apply z_euler_pol|now apply z_lsrk5_pol]. }
  destruct G as (y1 & A1 & A3 & A4).
  destruct (IH _ y1 A3 A1 (proj1 A4)) as (y2 & B1 & B2). exists y2. split; [exact B1|]. eapply z_ran_cons; eassumption.
Qed.
End Frozen.
