(** Tracers in a layer at rest with uniform thickness: the tendency is a constant coefficient linear operator, and a
    step of any of the steppers is a polynomial of it. *)
From Coq Require Import ZArith Reals List Bool Lia Lra.
From Verif Require Import Arith Arrays Prog Conc Launch Mesh AuxVars Tend Model Hex HexComb RSum Spec MeshProof MeshMem MeshFacts MeshR MeshCalc Over Formulas KernBase Terms KernAux KernTend TendFn StepFn Ready Rel RelRun Relate TendVal StepVal StepRun Tableau StepThms RealTend SumParts Diag FieldInv ConsBase ConsThms SteadyThms SuperThms.
Import ListNotations.
Open Scope Z_scope.

(** The six neighbours of a cell, and the mean over them. *)
Definition nbr (X Y c j : Z) : Z := if j <? 3 then inb_ X Y c (3 + j) else nb X Y c j.
Definition avg6 (X Y : Z) (phi : Z -> R) (c : Z) : R := (rsum 6 (fun j => phi (nbr X Y c j)) / 6)%R.

Section Avg.
Context (X Y : Z) (Hx : 1 <= X) (Hy : 1 <= Y).
Local Notation NC := (X * Y).
Local Notation avg := (avg6 X Y).
Lemma nbr_range c j : 0 <= c < NC -> 0 <= nbr X Y c j < NC.
Proof. intros Hc. unfold nbr. destruct (j <? 3); [apply inb_range|apply nb_range]; assumption. Qed.
Lemma avg_ext f g c : (forall c, 0 <= c < NC -> f c = g c) -> 0 <= c < NC -> avg f c = avg g c.
Proof. intros E Hc. unfold avg6. f_equal. apply rsum_ext. intros j Hj. apply E. now apply nbr_range. Qed.
Lemma avg_lin a b f g c : avg (fun c => a * f c + b * g c)%R c = (a * avg f c + b * avg g c)%R.
Proof. unfold avg6. rewrite rsum_plus, !rsum_scal. unfold Rdiv. ring. Qed.
Lemma avg_bounds lo hi f c : (forall c, 0 <= c < NC -> (lo <= f c <= hi)%R) -> 0 <= c < NC -> (lo <= avg f c <= hi)%R.
Proof.
  intros B Hc. unfold avg6. rewrite rsum_small6.
  pose proof (fun j => B _ (nbr_range c j Hc)) as Q.
  pose proof (Q 0). pose proof (Q 1). pose proof (Q 2). pose proof (Q 3). pose proof (Q 4). pose proof (Q 5). lra.
Qed.
End Avg.

Section Rest.
Context (S : setup RA) (Hok : setup_ok S) (Hdc : (0 < (dc (mesh_of_setup S) : R))%R) (m : mem RA) (Hr : ready S m).
Context (HX : 2 <= nx (mesh_of_setup S)) (HY : 2 <= ny (mesh_of_setup S)).
Local Notation P := (par_of S).
Local Notation NC := (nx (mesh_of_setup S) * ny (mesh_of_setup S)).
Local Notation NL := (d_nlayers (sdims S)).
Local Notation d := (dc (mesh_of_setup S) : R).
Let Hw : wfm (sdims S) m := ready_wfm S Hok m Hr.
Local Notation X := (nx (mesh_of_setup S)).
Local Notation Y := (ny (mesh_of_setup S)).

(** The discrete Laplacian. *)
Definition lap (phi : Z -> R) (c : Z) : R := outflow m (grad m phi) c.
Lemma lap_avg phi c : 0 <= c < NC -> lap phi c = (4 / (d * d) * (avg6 X Y phi c - phi c))%R.
Proof.
  intros Hc. pose proof (ready_hex S Hok m Hr) as Hm. pose proof (proj1 Hok) as Hmo.
  assert (Hx : 1 <= X) by lia. assert (Hy : 1 <= Y) by lia.
  unfold lap. rewrite (outflow_eq _ _ _ Hmo m Hm) by exact Hc.
  assert (E : forall j, 0 <= j < 6 -> (cs (mesh_of_setup S) c j * grad m phi (hE X Y c j) = (phi (nbr X Y c j) - phi c) / d)%R).
  { intros j Hj. rewrite (cs_closed _ _ Hmo) by assumption. unfold grad, nbr.
    pose proof (hE_range X Y Hx Hy c j Hc Hj) as He. rewrite !(hm_coe _ _ _ Hm), (hm_dce _ _ _ Hm) by lia.
    destruct (Z.ltb_spec j 3).
    - rewrite coe0_hE_low by lia. assert (E1 : hcoe X Y (hE X Y c j) 1 = c).
      { unfold hcoe. cbn [Z.eqb]. rewrite hE_div_ by lia. destruct (Z.ltb_spec j 3); [reflexivity|lia]. }
      rewrite E1. unfold Rdiv. ring.
    - assert (E0 : hcoe X Y (hE X Y c j) 0 = c).
      { apply Z.eqb_eq. rewrite coe0_hE by lia. apply Z.leb_le. lia. }
      assert (E1 : hcoe X Y (hE X Y c j) 1 = nb X Y c j).
      { unfold hcoe. cbn [Z.eqb]. rewrite hE_div_ by lia. destruct (Z.ltb_spec j 3); [lia|reflexivity]. }
      rewrite E0, E1. unfold Rdiv. ring. }
  rewrite (rsum_ext _ _ _ E). unfold avg6. rewrite !rsum_small6. rewrite hdve_R, hareac_R.
  assert (0 < sqrt 3)%R by (apply sqrt_lt_R0; lra). cbn [F RA] in *. field. lra.
Qed.
Lemma lap_ext f g c : (forall c, 0 <= c < NC -> f c = g c) -> 0 <= c < NC -> lap f c = lap g c.
Proof. intros E Hc. rewrite !lap_avg by exact Hc. rewrite E by exact Hc. f_equal. f_equal. apply avg_ext; auto; lia. Qed.
Lemma lap_lin a b f g c : 0 <= c < NC -> lap (fun c => a * f c + b * g c)%R c = (a * lap f c + b * lap g c)%R.
Proof. intros Hc. rewrite !lap_avg by exact Hc. rewrite avg_lin. ring. Qed.

(** What happens to a tracer at rest. *)
Definition lop (phi : Z -> R) (c : Z) : R :=
  ((if tracer_diff_enabled P then (eddy_diff2 P : R) * lap phi c else 0)
   - (if tracer_hyperdiff_enabled P then (eddy_diff4 P : R) * lap (lap phi) c else 0))%R.
Lemma lop_ext f g c : (forall c, 0 <= c < NC -> f c = g c) -> 0 <= c < NC -> lop f c = lop g c.
Proof.
  intros E Hc. unfold lop. rewrite (lap_ext f g) by assumption. rewrite (lap_ext (lap f) (lap g)); [reflexivity| |exact Hc].
  intros c' Hc'. now apply lap_ext.
Qed.
Lemma lop_lin a b f g c : 0 <= c < NC -> lop (fun c => a * f c + b * g c)%R c = (a * lop f c + b * lop g c)%R.
Proof.
  intros Hc. unfold lop. rewrite lap_lin by exact Hc.
  rewrite (lap_ext (lap (fun c => a * f c + b * g c)%R) (fun c => a * lap f c + b * lap g c)%R); [|intros; now apply lap_lin|exact Hc].
  rewrite lap_lin by exact Hc. destruct (tracer_diff_enabled P), (tracer_hyperdiff_enabled P); ring.
Qed.

Context (Hf : hook S = None) (H : Z -> R) (H0 : forall k, 0 <= k < NL -> H k <> 0%R).
Definition rest (y : fields RA) : Prop := forall j, 0 <= j < NL ->
  (forall c, 0 <= c < NC -> fh y c j = H j) /\ (forall e, 0 <= e < 3 * NC -> fv y e j = 0%R).
Definition slice (y : fields RA) (l j : Z) : Z -> R := fun c => ft y l c j.
(** [k] is the tendency of [y]. *)
Definition rtend (y k : fields RA) : Prop := forall j, 0 <= j < NL ->
  (forall c, 0 <= c < NC -> fh k c j = 0%R) /\ (forall e, 0 <= e < 3 * NC -> fv k e j = 0%R) /\
  (forall l c, 0 <= l < ntracers P -> 0 <= c < NC -> slice k l j c = lop (slice y l j) c).
Lemma rest_tend (time : R) y k : rest y -> tendency_of S time y k -> rtend y k.
Proof.
  intros Hy T j Hj. destruct (tend_of S Hok Hdc m Hr time y k T j Hj) as (A1 & A2 & A3).
  pose proof (ymem_ready S m Hr y) as Ry.
  assert (Vz : forall i e, 0 <= i < NL -> 0 <= e < 3 * NC -> fv y e i = 0%R) by (intros i e Hi He; now apply Hy).
  assert (Hc0 : forall c, 0 <= c < NC -> fh y c j = H j) by (intros; now apply Hy).
  repeat split.
  - intros c Hc. rewrite A1 by assumption. unfold hk_h. rewrite Hf. destruct (disable_h P); [reflexivity|].
    rewrite (outflow_zero S Hok m Hr); [lra|assumption|]. intros e He. rewrite Vz by assumption. ring.
  - intros e He. rewrite A2 by assumption. unfold hk_v. rewrite Hf. destruct (disable_vn P); [reflexivity|].
    apply (vtend_still S Hok (ymem m y) Ry); [assumption| | | | |].
    + unfold pvflux. apply rsum_zero. intros i Hi. cbv zeta.
      change (mr (ymem m y) (VnEdge St) [mi (ymem m y) EdgesOnEdge [e; i]; j]) with (fv y (mi (ymem m y) EdgesOnEdge [e; i]) j).
      rewrite Vz; [ring|assumption|]. apply (wf_eoe _ _ (ready_wfm S Hok _ Ry)); assumption.
    + assert (Kz : forall c, 0 <= c < NC -> kin (ymem m y) (fun e => mr (ymem m y) (VnEdge St) [e; j]) c = 0%R).
      { intros c Hc. unfold kin. rewrite rsum_zero; [unfold Rdiv; ring|]. intros i Hi. cbv zeta.
        change (mr (ymem m y) (VnEdge St) [mi (ymem m y) EdgesOnCell [c; i]; j]) with (fv y (mi (ymem m y) EdgesOnCell [c; i]) j).
        rewrite Vz; [ring|assumption|]. rewrite (hm_noc _ _ _ (ready_hex S Hok _ Ry)) in Hi by assumption. now apply (wf_eoc _ _ (ready_wfm S Hok _ Ry)). }
      intros. now rewrite !Kz.
    + intros c c' Hc Hc'. change (fh y c j = fh y c' j). now rewrite !Hc0.
    + apply zero_still; [exact Hok|exact Ry|]. intros e' He'. now apply Vz.
    + apply zero_still; [exact Hok|exact Ry|]. intros e' He'. apply Vz; [|assumption]. now apply (rv_range S (ok_wfd S Hok)).
  - intros l c Hl Hc. unfold slice at 1. rewrite A3 by assumption. unfold ttend. cbv zeta.
    rewrite (outflow_zero S Hok (ymem m y) Ry); [|assumption|].
    2:{ intros e He. change (mr (ymem m y) (VnEdge St) [e; j]) with (fv y e j). rewrite Vz by assumption. ring. }
    set (r := fun c => (mr (ymem m y) (TrCell St) [l; c; j] / mr (ymem m y) (HCell St) [c; j])%R).
    set (g := fun e => (emean (ymem m y) (fun c => mr (ymem m y) (HCell St) [c; j]) e * grad (ymem m y) r e)%R).
    assert (G : forall c, 0 <= c < NC -> outflow (ymem m y) g c = lap (slice y l j) c).
    { intros c' Hc'. change (outflow m g c' = outflow m (grad m (slice y l j)) c'). apply (outflow_ext S Hok m Hr); [|exact Hc'].
      intros e He. unfold g, emean, grad, r.
      change (mr (ymem m y) (HCell St) [?c; j]) with (fh y c j). cbn [ymem mi mr].
      rewrite !Hc0 by (apply (wf_coe _ _ Hw); [exact He|lia]). unfold slice. pose proof (H0 j Hj).
      unfold Rdiv. replace ((H j + H j) * / 2)%R with (H j) by field.
      transitivity ((H j * / H j) * ((ft y l (mi m CellsOnEdge [e; 1%Z]) j - ft y l (mi m CellsOnEdge [e; 0%Z]) j) * / mr m DcEdge [e]))%R; [ring|].
      rewrite Rinv_r by assumption. ring. }
    rewrite G by exact Hc. unfold lop.
    assert (G2 : outflow (ymem m y) (grad (ymem m y) (outflow (ymem m y) g)) c = lap (lap (slice y l j)) c).
    { change (lap (outflow (ymem m y) g) c = lap (lap (slice y l j)) c). now apply lap_ext. }
    rewrite G2. cbn [F RA]. destruct (tracer_diff_enabled P), (tracer_hyperdiff_enabled P); ring.
Qed.

(** Powers of the operator, and polynomials in [dt] times it. *)
Fixpoint lpow (n : nat) (phi : Z -> R) : Z -> R := match n with O => phi | Datatypes.S n => lop (lpow n phi) end.
Definition pol (g : Z -> R) (dt : R) (phi : Z -> R) (c : Z) : R :=
  (g 0%Z * phi c + g 1%Z * dt * lpow 1 phi c + g 2%Z * dt ^ 2 * lpow 2 phi c + g 3%Z * dt ^ 3 * lpow 3 phi c
   + g 4%Z * dt ^ 4 * lpow 4 phi c + g 5%Z * dt ^ 5 * lpow 5 phi c)%R.
Lemma lop_comb5 phi (a0 a1 a2 a3 a4 : R) f c : 0 <= c < NC ->
  (forall c, 0 <= c < NC -> f c = (a0 * phi c + a1 * lpow 1 phi c + a2 * lpow 2 phi c + a3 * lpow 3 phi c + a4 * lpow 4 phi c)%R) ->
  lop f c = (a0 * lpow 1 phi c + a1 * lpow 2 phi c + a2 * lpow 3 phi c + a3 * lpow 4 phi c + a4 * lpow 5 phi c)%R.
Proof.
  intros Hc E.
  rewrite (lop_ext f (fun c => 1 * (fun c => 1 * (fun c => 1 * (fun c => a0 * phi c + a1 * lpow 1 phi c) c + a2 * lpow 2 phi c) c + a3 * lpow 3 phi c) c + a4 * lpow 4 phi c)%R);
    [|intros c' Hc'; rewrite E by exact Hc'; ring|exact Hc].
  rewrite !(lop_lin _ _ _ _ c Hc). change (lop phi c) with (lpow 1 phi c). change (lop (lpow 1 phi) c) with (lpow 2 phi c).
  change (lop (lpow 2 phi) c) with (lpow 3 phi c). change (lop (lpow 3 phi) c) with (lpow 4 phi c). change (lop (lpow 4 phi) c) with (lpow 5 phi c). ring.
Qed.

Definition g_rk4 (i : Z) : R := match i with 0%Z => 1 | 1%Z => 1 | 2%Z => / 2 | 3%Z => / 6 | 4%Z => / 24 | _ => 0 end%R.
Definition g_euler (i : Z) : R := match i with 0%Z => 1 | 1%Z => 1 | _ => 0 end%R.
Definition tb := tabA tab_a tab_b.
Definition g_lsrk5 (i : Z) : R := match i with
  | 0%Z => 1 | 1%Z => s5 (tb 5) | 2%Z => s5 (fun i => tb 5 i * s5 (tb i))
  | 3%Z => s5 (fun i => tb 5 i * s5 (fun j => tb i j * s5 (tb j)))
  | 4%Z => s5 (fun i => tb 5 i * s5 (fun j => tb i j * s5 (fun l => tb j l * s5 (tb l))))
  | 5%Z => tab_b 0 * tab_b 1 * tab_b 2 * tab_b 3 * tab_b 4
  | _ => 0 end%R.

(** One step with the polynomial [g]. *)
Definition stepped (g : Z -> R) (dt : R) (y y' : fields RA) : Prop :=
  rest y' /\ forall l j c, 0 <= l < ntracers P -> 0 <= j < NL -> 0 <= c < NC -> slice y' l j c = pol g dt (slice y l j) c.
Lemma rest_add b y k x : rest y -> rtend x k -> rest (fmap2 (A:=RA) (fun u w => (u + b * w)%R) y k).
Proof.
  intros Hy Hk j Hj. destruct (Hy j Hj) as [A B]. destruct (Hk j Hj) as (A' & B' & _).
  split; intros; cbn [fmap2 fh fv]; rewrite ?A, ?B, ?A', ?B' by assumption; rring.
Qed.

Lemma rk4_pol (t dt : R) M y : ready S M -> disabled_zero S Tend M -> holds S St M y -> rest y ->
  exists y', let M' := rk4_fn S t dt M in holds S St M' y' /\ disabled_zero S Tend M' /\ ready S M' /\ stepped g_rk4 dt y y'.
Proof.
  intros RM Hz Hy Ry.
  destruct (tendency_ex S Hok t y) as [k1 T1].
  destruct (tendency_ex S Hok (t + rk4_c (A:=RA) 0 * dt)%R (add (A:=RA) dt (rk4_a 0) y k1)) as [k2 T2].
  destruct (tendency_ex S Hok (t + rk4_c (A:=RA) 1 * dt)%R (add (A:=RA) dt (rk4_a 1) y k2)) as [k3 T3].
  destruct (tendency_ex S Hok (t + rk4_c (A:=RA) 2 * dt)%R (add (A:=RA) dt (rk4_a 2) y k3)) as [k4 T4].
  destruct (rk4_holds S Hok t dt M y k1 k2 k3 k4) as (A & B & C); auto; [intros _; exact Hf|].
  exists (add (A:=RA) dt (rk4_b 3) (add (A:=RA) dt (rk4_b 2) (add (A:=RA) dt (rk4_b 1) (add (A:=RA) dt (rk4_b 0) y k1) k2) k3) k4).
  cbv zeta. split; [exact A|]. split; [exact B|]. split; [exact C|].
  assert (Ad : forall x z k b, rest z -> rtend x k -> rest (add (A:=RA) dt b z k)).
  { intros x z k b Hz' Hk. exact (rest_add (dt * b)%R z k x Hz' Hk). }
  pose proof (rest_tend t y k1 Ry T1) as K1. pose proof (Ad _ y k1 (rk4_a (A:=RA) 0) Ry K1) as R1.
  pose proof (rest_tend _ _ k2 R1 T2) as K2. pose proof (Ad _ y k2 (rk4_a (A:=RA) 1) Ry K2) as R2.
  pose proof (rest_tend _ _ k3 R2 T3) as K3. pose proof (Ad _ y k3 (rk4_a (A:=RA) 2) Ry K3) as R3.
  pose proof (rest_tend _ _ k4 R3 T4) as K4.
  split.
  - eapply Ad; [|exact K4]. eapply Ad; [|exact K3]. eapply Ad; [|exact K2]. eapply Ad; [|exact K1]. exact Ry.
  - intros l j c Hl Hj Hc. set (phi := slice y l j).
    assert (E1 : forall c, 0 <= c < NC -> slice k1 l j c = lpow 1 phi c) by (intros c' Hc'; now apply (K1 j Hj)).
    assert (E2 : forall c, 0 <= c < NC -> slice k2 l j c = (1 * lpow 1 phi c + dt / 2 * lpow 2 phi c + 0 * lpow 3 phi c + 0 * lpow 4 phi c + 0 * lpow 5 phi c)%R).
    { intros c' Hc'. destruct (K2 j Hj) as (_ & _ & E). rewrite E by assumption. apply lop_comb5; [exact Hc'|]. intros c0 Hc0.
      change (slice (add (A:=RA) dt (rk4_a 0) y k1) l j c0) with (phi c0 + dt * rk4_a (A:=RA) 0 * slice k1 l j c0)%R. rewrite E1 by exact Hc0.
      change (rk4_a (A:=RA) 0) with (IZR 1 / IZR 2)%R. cbn [F RA]. field. }
    assert (E3 : forall c, 0 <= c < NC -> slice k3 l j c = (1 * lpow 1 phi c + dt / 2 * lpow 2 phi c + dt ^ 2 / 4 * lpow 3 phi c + 0 * lpow 4 phi c + 0 * lpow 5 phi c)%R).
    { intros c' Hc'. destruct (K3 j Hj) as (_ & _ & E). rewrite E by assumption. apply lop_comb5; [exact Hc'|]. intros c0 Hc0.
      change (slice (add (A:=RA) dt (rk4_a 1) y k2) l j c0) with (phi c0 + dt * rk4_a (A:=RA) 1 * slice k2 l j c0)%R. rewrite E2 by exact Hc0.
      change (rk4_a (A:=RA) 1) with (IZR 1 / IZR 2)%R. cbn [F RA]. field. }
    assert (E4 : forall c, 0 <= c < NC -> slice k4 l j c = (1 * lpow 1 phi c + dt * lpow 2 phi c + dt ^ 2 / 2 * lpow 3 phi c + dt ^ 3 / 4 * lpow 4 phi c + 0 * lpow 5 phi c)%R).
    { intros c' Hc'. destruct (K4 j Hj) as (_ & _ & E). rewrite E by assumption. apply lop_comb5; [exact Hc'|]. intros c0 Hc0.
      change (slice (add (A:=RA) dt (rk4_a 2) y k3) l j c0) with (phi c0 + dt * rk4_a (A:=RA) 2 * slice k3 l j c0)%R. rewrite E3 by exact Hc0.
      change (rk4_a (A:=RA) 2) with (IZR 1)%R. cbn [F RA]. field. }
    change (slice _ l j c) with (phi c + dt * rk4_b (A:=RA) 0 * slice k1 l j c + dt * rk4_b (A:=RA) 1 * slice k2 l j c + dt * rk4_b (A:=RA) 2 * slice k3 l j c + dt * rk4_b (A:=RA) 3 * slice k4 l j c)%R.
    rewrite E1, E2, E3, E4 by exact Hc.
    change (rk4_b (A:=RA) 0) with (IZR 1 / IZR 6)%R. change (rk4_b (A:=RA) 1) with (IZR 1 / IZR 3)%R. change (rk4_b (A:=RA) 2) with (IZR 1 / IZR 3)%R. change (rk4_b (A:=RA) 3) with (IZR 1 / IZR 6)%R.
    unfold pol, g_rk4. cbn [F RA]. field.
Qed.

Lemma rtend_tr y k l j : rtend y k -> 0 <= l < ntracers P -> 0 <= j < NL -> forall c, 0 <= c < NC -> slice k l j c = lop (slice y l j) c.
Proof. intros Hk Hl Hj c Hc. destruct (Hk j Hj) as (_ & _ & E). auto. Qed.
(** [k] has no thickness and velocity components. *)
Definition zhv (k : fields RA) : Prop := forall j, 0 <= j < NL ->
  (forall c, 0 <= c < NC -> fh k c j = 0%R) /\ (forall e, 0 <= e < 3 * NC -> fv k e j = 0%R).
Lemma rtend_zhv y k : rtend y k -> zhv k.
Proof. intros Hk j Hj. destruct (Hk j Hj) as (A & B & _). auto. Qed.
Lemma zhv_add a q k : zhv q \/ a = 0%R -> zhv k -> zhv (fmap2 (A:=RA) (fun u w => (a * u + w)%R) q k).
Proof.
  intros [Hq | ->] Hk j Hj; destruct (Hk j Hj) as [A B]; [destruct (Hq j Hj) as [A' B']|];
  split; intros; cbn [fmap2 fh fv]; rewrite ?A, ?B, ?A', ?B' by assumption; rring.
Qed.
Lemma rest_zhv b y k : rest y -> zhv k -> rest (fmap2 (A:=RA) (fun u w => (u + b * w)%R) y k).
Proof.
  intros Hy Hk j Hj. destruct (Hy j Hj) as [A B]. destruct (Hk j Hj) as (A' & B').
  split; intros; cbn [fmap2 fh fv]; rewrite ?A, ?B, ?A', ?B' by assumption; rring.
Qed.
(** Stage [i + 1] of the low storage scheme. *)
Lemma lsrk_next n (t dt : R) i (Y Q K : Z -> fields RA) : 
  tendency_of S (t + lsrk_c (A:=RA) n i * dt)%R (Y i) (K i) ->
  Q (i + 1) = fmap2 (A:=RA) (fun u w => lsrk_a (A:=RA) n i * u + w)%R (Q i) (K i) ->
  Y (i + 1) = fmap2 (A:=RA) (fun u w => u + dt * lsrk_b (A:=RA) n i * w)%R (Y i) (Q (i + 1)) ->
  rest (Y i) -> zhv (Q i) \/ lsrk_a (A:=RA) n i = 0%R ->
  rest (Y (i + 1)) /\ zhv (Q (i + 1)) /\ forall l j c, 0 <= l < ntracers P -> 0 <= j < NL -> 0 <= c < NC ->
    slice (Q (i + 1)) l j c = (lsrk_a (A:=RA) n i * slice (Q i) l j c + lop (slice (Y i) l j) c)%R /\
    slice (Y (i + 1)) l j c = (slice (Y i) l j c + dt * lsrk_b (A:=RA) n i * slice (Q (i + 1)%Z) l j c)%R.
Proof.
  intros T EQ EY RY ZQ. pose proof (rest_tend _ _ _ RY T) as HK.
  assert (ZQ' : zhv (Q (i + 1))) by (rewrite EQ; apply zhv_add; [exact ZQ|exact (rtend_zhv _ _ HK)]).
  split; [rewrite EY; now apply rest_zhv|]. split; [exact ZQ'|]. intros l j c Hl Hj Hc. split.
  - rewrite EQ. rewrite <- (rtend_tr _ _ l j HK Hl Hj c Hc). reflexivity.
  - rewrite EY at 1. reflexivity.
Qed.

Lemma euler_pol (t dt : R) M y : ready S M -> holds S St M y -> rest y ->
  exists y', let M' := lsrk_fn S 1 t dt M in holds S St M' y' /\ ready S M' /\ stepped g_euler dt y y'.
Proof.
  intros RM Hy Ry.
  destruct (stages_ex S Hok 1 t dt y (fld Tend M) ltac:(lia)) as (Y & Q & K & EY & EQ & G).
  destruct (lsrk_holds S Hok 1 t dt M Y Q K ltac:(lia) RM) as (A & B & _).
  { rewrite EY. exact Hy. } { rewrite EQ. apply holds_fld. } { exact G. }
  destruct (G 0 ltac:(lia)) as (T0 & Q0 & Y0). rewrite <- EY in Ry.
  destruct (lsrk_next 1 t dt 0 Y Q K T0 Q0 Y0 Ry (or_intror (lsrk_a0 1))) as (R1 & _ & E1).
  exists (Y 1). cbv zeta. split; [exact B|]. split; [exact A|]. split; [exact R1|].
  intros l j c Hl Hj Hc. destruct (E1 l j c Hl Hj Hc) as [F1 F2]. change (0 + 1) with 1 in *. rewrite F2, F1, lsrk_a0, EY.
  change (lsrk_b (A:=RA) 1 0) with (IZR 1). unfold pol, g_euler. change (lpow 1 (slice y l j) c) with (lop (slice y l j) c). cbn [F RA]. ring.
Qed.

Lemma lsrk5_pol (t dt : R) M y : ready S M -> holds S St M y -> rest y ->
  exists y', let M' := lsrk_fn S 5 t dt M in holds S St M' y' /\ ready S M' /\ stepped g_lsrk5 dt y y'.
Proof.
  intros RM Hy Ry.
  destruct (stages_ex S Hok 5 t dt y (fld Tend M) ltac:(lia)) as (Y & Q & K & EY & EQ & G).
  destruct (lsrk_holds S Hok 5 t dt M Y Q K ltac:(lia) RM) as (A & B & _).
  { rewrite EY. exact Hy. } { rewrite EQ. apply holds_fld. } { exact G. }
  rewrite <- EY in Ry.
  destruct (G 0 ltac:(lia)) as (T0 & Q0 & Y0).
  destruct (lsrk_next 5 t dt 0 Y Q K T0 Q0 Y0 Ry (or_intror (lsrk_a0 5))) as (R1 & Z1 & E1). change (0 + 1) with 1 in *.
  destruct (G 1 ltac:(lia)) as (T1 & Q1 & Y1).
  destruct (lsrk_next 5 t dt 1 Y Q K T1 Q1 Y1 R1 (or_introl Z1)) as (R2 & Z2 & E2). change (1 + 1) with 2 in *.
  destruct (G 2 ltac:(lia)) as (T2 & Q2 & Y2).
  destruct (lsrk_next 5 t dt 2 Y Q K T2 Q2 Y2 R2 (or_introl Z2)) as (R3 & Z3 & E3). change (2 + 1) with 3 in *.
  destruct (G 3 ltac:(lia)) as (T3 & Q3 & Y3).
  destruct (lsrk_next 5 t dt 3 Y Q K T3 Q3 Y3 R3 (or_introl Z3)) as (R4 & Z4 & E4). change (3 + 1) with 4 in *.
  destruct (G 4 ltac:(lia)) as (T4 & Q4 & Y4).
  destruct (lsrk_next 5 t dt 4 Y Q K T4 Q4 Y4 R4 (or_introl Z4)) as (R5 & Z5 & E5). change (4 + 1) with 5 in *.
  exists (Y 5). cbv zeta. split; [exact B|]. split; [exact A|]. split; [exact R5|].
  intros l j c Hl Hj Hc. set (phi := slice y l j).
  assert (EY0 : forall c, slice (Y 0) l j c = phi c) by (intros c'; now rewrite EY).
  clear - E1 E2 E3 E4 E5 Hok Hdc Hr HX HY Hl Hj Hc EY0.
  change (lsrk_b (A:=RA) 5 0) with (tab_b 0) in E1.
  change (lsrk_a (A:=RA) 5 1) with (tab_a 1) in E2.
  change (lsrk_b (A:=RA) 5 1) with (tab_b 1) in E2.
  change (lsrk_a (A:=RA) 5 2) with (tab_a 2) in E3.
  change (lsrk_b (A:=RA) 5 2) with (tab_b 2) in E3.
  change (lsrk_a (A:=RA) 5 3) with (tab_a 3) in E4.
  change (lsrk_b (A:=RA) 5 3) with (tab_b 3) in E4.
  change (lsrk_a (A:=RA) 5 4) with (tab_a 4) in E5.
  change (lsrk_b (A:=RA) 5 4) with (tab_b 4) in E5.
  unfold g_lsrk5, pol, tb. revert E1 E2 E3 E4 E5. generalize tab_a tab_b. intros a b E1 E2 E3 E4 E5.
  pose (q11 := (1)%R).
  pose (y11 := (b 0%Z * q11)%R).
  assert (FQ1 : forall c, 0 <= c < NC -> slice (Q 1) l j c = (q11 * dt ^ 0 * lpow 1 phi c)%R).
  { intros c' Hc'. rewrite (proj1 (E1 l j c' Hl Hj Hc')). rewrite (lop_comb5 phi 1 0%R 0%R 0%R 0%R (slice (Y 0) l j) c' Hc').
    - rewrite lsrk_a0. unfold q11. rring.
    - intros c0 Hc0. rewrite EY0. ring. }
  assert (FY1 : forall c, 0 <= c < NC -> slice (Y 1) l j c = (phi c + y11 * dt ^ 1 * lpow 1 phi c)%R).
  { intros c' Hc'. rewrite (proj2 (E1 l j c' Hl Hj Hc')), FQ1 by exact Hc'. rewrite EY0. unfold y11. rring. }
  pose (q21 := (a 1%Z * q11 + 1)%R).
  pose (q22 := (y11)%R).
  pose (y21 := (y11 + b 1%Z * q21)%R).
  pose (y22 := (b 1%Z * q22)%R).
  assert (FQ2 : forall c, 0 <= c < NC -> slice (Q 2) l j c = (q21 * dt ^ 0 * lpow 1 phi c + q22 * dt ^ 1 * lpow 2 phi c)%R).
  { intros c' Hc'. rewrite (proj1 (E2 l j c' Hl Hj Hc')). rewrite (lop_comb5 phi 1 (y11 * dt ^ 1)%R 0%R 0%R 0%R (slice (Y 1) l j) c' Hc').
    - rewrite FQ1 by exact Hc'. unfold q21, q22. rring.
    - intros c0 Hc0. rewrite FY1 by exact Hc0. ring. }
  assert (FY2 : forall c, 0 <= c < NC -> slice (Y 2) l j c = (phi c + y21 * dt ^ 1 * lpow 1 phi c + y22 * dt ^ 2 * lpow 2 phi c)%R).
  { intros c' Hc'. rewrite (proj2 (E2 l j c' Hl Hj Hc')), FQ2 by exact Hc'. rewrite FY1 by exact Hc'. unfold y21, y22. rring. }
  pose (q31 := (a 2%Z * q21 + 1)%R).
  pose (q32 := (a 2%Z * q22 + y21)%R).
  pose (q33 := (y22)%R).
  pose (y31 := (y21 + b 2%Z * q31)%R).
  pose (y32 := (y22 + b 2%Z * q32)%R).
  pose (y33 := (b 2%Z * q33)%R).
  assert (FQ3 : forall c, 0 <= c < NC -> slice (Q 3) l j c = (q31 * dt ^ 0 * lpow 1 phi c + q32 * dt ^ 1 * lpow 2 phi c + q33 * dt ^ 2 * lpow 3 phi c)%R).
  { intros c' Hc'. rewrite (proj1 (E3 l j c' Hl Hj Hc')). rewrite (lop_comb5 phi 1 (y21 * dt ^ 1)%R (y22 * dt ^ 2)%R 0%R 0%R (slice (Y 2) l j) c' Hc').
    - rewrite FQ2 by exact Hc'. unfold q31, q32, q33. rring.
    - intros c0 Hc0. rewrite FY2 by exact Hc0. ring. }
  assert (FY3 : forall c, 0 <= c < NC -> slice (Y 3) l j c = (phi c + y31 * dt ^ 1 * lpow 1 phi c + y32 * dt ^ 2 * lpow 2 phi c + y33 * dt ^ 3 * lpow 3 phi c)%R).
  { intros c' Hc'. rewrite (proj2 (E3 l j c' Hl Hj Hc')), FQ3 by exact Hc'. rewrite FY2 by exact Hc'. unfold y31, y32, y33. rring. }
  pose (q41 := (a 3%Z * q31 + 1)%R).
  pose (q42 := (a 3%Z * q32 + y31)%R).
  pose (q43 := (a 3%Z * q33 + y32)%R).
  pose (q44 := (y33)%R).
  pose (y41 := (y31 + b 3%Z * q41)%R).
  pose (y42 := (y32 + b 3%Z * q42)%R).
  pose (y43 := (y33 + b 3%Z * q43)%R).
  pose (y44 := (b 3%Z * q44)%R).
  assert (FQ4 : forall c, 0 <= c < NC -> slice (Q 4) l j c = (q41 * dt ^ 0 * lpow 1 phi c + q42 * dt ^ 1 * lpow 2 phi c + q43 * dt ^ 2 * lpow 3 phi c + q44 * dt ^ 3 * lpow 4 phi c)%R).
  { intros c' Hc'. rewrite (proj1 (E4 l j c' Hl Hj Hc')). rewrite (lop_comb5 phi 1 (y31 * dt ^ 1)%R (y32 * dt ^ 2)%R (y33 * dt ^ 3)%R 0%R (slice (Y 3) l j) c' Hc').
    - rewrite FQ3 by exact Hc'. unfold q41, q42, q43, q44. rring.
    - intros c0 Hc0. rewrite FY3 by exact Hc0. ring. }
  assert (FY4 : forall c, 0 <= c < NC -> slice (Y 4) l j c = (phi c + y41 * dt ^ 1 * lpow 1 phi c + y42 * dt ^ 2 * lpow 2 phi c + y43 * dt ^ 3 * lpow 3 phi c + y44 * dt ^ 4 * lpow 4 phi c)%R).
  { intros c' Hc'. rewrite (proj2 (E4 l j c' Hl Hj Hc')), FQ4 by exact Hc'. rewrite FY3 by exact Hc'. unfold y41, y42, y43, y44. rring. }
  pose (q51 := (a 4%Z * q41 + 1)%R).
  pose (q52 := (a 4%Z * q42 + y41)%R).
  pose (q53 := (a 4%Z * q43 + y42)%R).
  pose (q54 := (a 4%Z * q44 + y43)%R).
  pose (q55 := (y44)%R).
  pose (y51 := (y41 + b 4%Z * q51)%R).
  pose (y52 := (y42 + b 4%Z * q52)%R).
  pose (y53 := (y43 + b 4%Z * q53)%R).
  pose (y54 := (y44 + b 4%Z * q54)%R).
  pose (y55 := (b 4%Z * q55)%R).
  assert (FQ5 : forall c, 0 <= c < NC -> slice (Q 5) l j c = (q51 * dt ^ 0 * lpow 1 phi c + q52 * dt ^ 1 * lpow 2 phi c + q53 * dt ^ 2 * lpow 3 phi c + q54 * dt ^ 3 * lpow 4 phi c + q55 * dt ^ 4 * lpow 5 phi c)%R).
  { intros c' Hc'. rewrite (proj1 (E5 l j c' Hl Hj Hc')). rewrite (lop_comb5 phi 1 (y41 * dt ^ 1)%R (y42 * dt ^ 2)%R (y43 * dt ^ 3)%R (y44 * dt ^ 4)%R (slice (Y 4) l j) c' Hc').
    - rewrite FQ4 by exact Hc'. unfold q51, q52, q53, q54, q55. rring.
    - intros c0 Hc0. rewrite FY4 by exact Hc0. ring. }
  assert (FY5 : forall c, 0 <= c < NC -> slice (Y 5) l j c = (phi c + y51 * dt ^ 1 * lpow 1 phi c + y52 * dt ^ 2 * lpow 2 phi c + y53 * dt ^ 3 * lpow 3 phi c + y54 * dt ^ 4 * lpow 4 phi c + y55 * dt ^ 5 * lpow 5 phi c)%R).
  { intros c' Hc'. rewrite (proj2 (E5 l j c' Hl Hj Hc')), FQ5 by exact Hc'. rewrite FY4 by exact Hc'. unfold y51, y52, y53, y54, y55. rring. }
  rewrite FY5 by exact Hc. clear.
  assert (C1 : y51 = (s5 (tabA a b 5%Z))%R) by (cbv [q11  q21  q22  q31  q32  q33  q41  q42  q43  q44  q51  q52  q53  q54  q55  y11  y21  y22  y31  y32  y33  y41  y42  y43  y44  y51  y52  y53  y54  y55   s5 tabA Z.leb Z.compare Pos.compare Pos.compare_cont]; ring).
  assert (C2 : y52 = (s5 (fun i => tabA a b 5%Z i * s5 (tabA a b i)))%R) by (cbv [q11  q21  q22  q31  q32  q33  q41  q42  q43  q44  q51  q52  q53  q54  q55  y11  y21  y22  y31  y32  y33  y41  y42  y43  y44  y51  y52  y53  y54  y55   s5 tabA Z.leb Z.compare Pos.compare Pos.compare_cont]; ring).
  assert (C3 : y53 = (s5 (fun i => tabA a b 5%Z i * s5 (fun j => tabA a b i j * s5 (tabA a b j))))%R) by (cbv [q11  q21  q22  q31  q32  q33  q41  q42  q43  q44  q51  q52  q53  q54  q55  y11  y21  y22  y31  y32  y33  y41  y42  y43  y44  y51  y52  y53  y54  y55   s5 tabA Z.leb Z.compare Pos.compare Pos.compare_cont]; ring).
  assert (C4 : y54 = (s5 (fun i => tabA a b 5%Z i * s5 (fun j => tabA a b i j * s5 (fun l => tabA a b j l * s5 (tabA a b l)))))%R) by (cbv [q11  q21  q22  q31  q32  q33  q41  q42  q43  q44  q51  q52  q53  q54  q55  y11  y21  y22  y31  y32  y33  y41  y42  y43  y44  y51  y52  y53  y54  y55   s5 tabA Z.leb Z.compare Pos.compare Pos.compare_cont]; ring).
  assert (C5 : y55 = (b 0%Z * b 1%Z * b 2%Z * b 3%Z * b 4%Z)%R) by (cbv [q11  q21  q22  q31  q32  q33  q41  q42  q43  q44  q51  q52  q53  q54  q55  y11  y21  y22  y31  y32  y33  y41  y42  y43  y44  y51  y52  y53  y54  y55   s5 tabA Z.leb Z.compare Pos.compare Pos.compare_cont]; ring).
  rewrite C1, C2, C3, C4, C5. rring.
Qed.

Lemma lpow_ext n f g c : (forall c, 0 <= c < NC -> f c = g c) -> 0 <= c < NC -> lpow n f c = lpow n g c.
Proof. intros E. revert c. induction n as [|n IH]; intros c Hc; [auto|]. cbn [lpow]. apply lop_ext; auto. Qed.
Lemma pol_ext g dt f f' c : (forall c, 0 <= c < NC -> f c = f' c) -> 0 <= c < NC -> pol g dt f c = pol g dt f' c.
Proof. intros E Hc. unfold pol. rewrite !(lpow_ext _ f f') by assumption. now rewrite E. Qed.
(** A run. *)
Definition prun (g : Z -> R) (steps : list (R * R)) (phi : Z -> R) : Z -> R := fold_left (fun f p => pol g (snd p) f) steps phi.
Lemma prun_ext g steps f f' : (forall c, 0 <= c < NC -> f c = f' c) -> forall c, 0 <= c < NC -> prun g steps f c = prun g steps f' c.
Proof.
  revert f f'. induction steps as [|[t dt] l IH]; intros f f' E c Hc; [now apply E|]. cbn [prun fold_left snd]. apply IH; [|exact Hc].
  intros. now apply pol_ext.
Qed.
Definition ran (g : Z -> R) (steps : list (R * R)) (y y' : fields RA) : Prop :=
  rest y' /\ forall l j c, 0 <= l < ntracers P -> 0 <= j < NL -> 0 <= c < NC -> slice y' l j c = prun g steps (slice y l j) c.
Lemma ran_cons g t dt l y y1 y2 : stepped g dt y y1 -> ran g l y1 y2 -> ran g ((t, dt) :: l) y y2.
Proof.
  intros [_ E1] [R2 E2]. split; [exact R2|]. intros l' j c Hl Hj Hc. rewrite E2 by assumption.
  cbn [prun fold_left snd]. apply prun_ext; [|exact Hc]. intros. now apply E1.
Qed.
Lemma rk4_ran steps M y : ready S M -> disabled_zero S Tend M -> holds S St M y -> rest y ->
  exists y', holds S St (rk4_run_fn S steps M) y' /\ ran g_rk4 steps y y'.
Proof.
  revert M y. induction steps as [|[t dt] l IH]; intros M y RM Hz Hy Ry; [exists y; split; [exact Hy|split; [exact Ry|reflexivity]]|].
  destruct (rk4_pol t dt M y RM Hz Hy Ry) as (y1 & A1 & A2 & A3 & A4).
  destruct (IH _ y1 A3 A2 A1 (proj1 A4)) as (y2 & B1 & B2). exists y2. split; [exact B1|]. eapply ran_cons; eassumption.
Qed.
Definition g_lsrk (n : Z) : Z -> R := if n =? 5 then g_lsrk5 else g_euler.
Lemma lsrk_ran n steps M y : n = 1 \/ n = 5 -> ready S M -> holds S St M y -> rest y ->
  exists y', holds S St (lsrk_run_fn S n steps M) y' /\ ran (g_lsrk n) steps y y'.
Proof.
  intros Hn. revert M y. induction steps as [|[t dt] l IH]; intros M y RM Hy Ry; [exists y; split; [exact Hy|split; [exact Ry|reflexivity]]|].
  assert (G : exists y', let M' := lsrk_fn S n t dt M in holds S St M' y' /\ ready S M' /\ stepped (g_lsrk n) dt y y').
  { destruct Hn as [-> | ->]; [now apply euler_pol|now apply lsrk5_pol]. }
  destruct G as (y1 & A1 & A3 & A4).
  destruct (IH _ y1 A3 A1 (proj1 A4)) as (y2 & B1 & B2). exists y2. split; [exact B1|]. eapply ran_cons; eassumption.
Qed.
End Rest.

(** The coefficients of the five-stage scheme. *)
Lemma g5_order : (g_lsrk5 0 = 1 /\ Rabs (g_lsrk5 1 - 1) <= 1 / 10 ^ 25 /\ Rabs (g_lsrk5 2 - 1 / 2) <= 1 / 10 ^ 25 /\
  Rabs (g_lsrk5 3 - 1 / 6) <= 1 / 10 ^ 25 /\ Rabs (g_lsrk5 4 - 1 / 24) <= 1 / 10 ^ 25 /\ 49 / 10000 < g_lsrk5 5 < 51 / 10000)%R.
Proof.
  pose proof tab_order as T. cbv zeta in T. fold tb in T. destruct T as (T1 & T2 & _ & T3 & _ & _ & _ & T4).
  split; [reflexivity|]. split; [exact T1|]. split; [exact T2|]. split; [exact T3|]. split; [exact T4|]. unfold g_lsrk5, tab_b. lra.
Qed.
