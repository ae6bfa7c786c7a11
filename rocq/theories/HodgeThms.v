(** The flows that viscosity leaves alone (C105). *)
From Coq Require Import ZArith Reals List Bool Lia Lra Psatz.
From Verif Require Import Arith Arrays Prog Conc Launch Mesh AuxVars Tend Model Hex HexComb RSum Spec MeshProof MeshMem MeshR MeshCalc Over Formulas KernBase Terms KernAux KernTend TendFn StepFn Ready Rel RelRun Relate TendVal StepVal StepRun StepThms RealTend SumParts Diag FieldInv ConsBase ConsThms SteadyThms Diffuse HypThms EnergyBudget Hodge.
Import ListNotations.
Open Scope Z_scope.

Section OnMesh.
Context (S : setup RA) (Hok : setup_ok S) (Hdc : (0 < (dc (mesh_of_setup S) : R))%R) (H1 : 2 <= nx (mesh_of_setup S)) (H2 : 2 <= ny (mesh_of_setup S)) (Hev : Z.even (ny (mesh_of_setup S)) = true).
Context (m : mem RA) (Hr : ready S m).
Local Notation X := (nx (mesh_of_setup S)).
Local Notation Y := (ny (mesh_of_setup S)).
Local Notation NC := (X * Y).
Local Notation d := (dc (mesh_of_setup S) : R).
Let Hm := ready_hex S Hok m Hr.
Let Hx : 1 <= X. Proof. lia. Qed.
Let Hy : 1 <= Y. Proof. lia. Qed.

Lemma ang_vals c j : 0 <= j < 3 -> 0 <= c < NC -> (cos (mr m AngleEdge [(3 * c + j)%Z]) = (if j =? 0 then 1 else if j =? 1 then / 2 else - / 2) /\ sin (mr m AngleEdge [(3 * c + j)%Z]) = (if j =? 0 then 0 else sqrt 3 / 2))%R.
Proof.
  intros Hj Hc. rewrite (hm_ang _ _ _ Hm) by lia. unfold hang. replace ((3 * c + j) mod 3) with j by (rewrite Z.add_comm, Z.mul_comm, Z_mod_plus_full, Z.mod_small; lia).
  assert (j = 0 \/ j = 1 \/ j = 2) as [-> | [-> | ->]] by lia; cbn [Z.eqb Pos.eqb fofZ RA fpi fdiv fmul].
  - now rewrite cos_0, sin_0.
  - rewrite cos_PI3, sin_PI3. split; [lra|reflexivity].
  - rewrite cos_2PI3, sin_2PI3. split; [lra|reflexivity].
Qed.

Lemma outflow_a u c : 0 <= c < NC -> outflow m u c =
  (2 / (3 * d) * (u (3 * nb X Y c 3)%Z - u (3 * c)%Z + (u (3 * nb X Y c 4 + 1)%Z - u (3 * c + 1)%Z) + (u (3 * nb X Y c 5 + 2)%Z - u (3 * c + 2)%Z)))%R.
Proof.
  intros Hc. pose proof (outflow_eq (cfg_of S) (mesh_of_setup S) (ntracers (par_of S)) (proj1 Hok) m Hm u c Hc) as E. rewrite E.
  rewrite rsum_small6. rewrite !(cs_closed (cfg_of S) (mesh_of_setup S) (proj1 Hok)) by lia. cbn [Z.ltb Z.compare Pos.compare Pos.compare_cont].
  unfold hE. cbn [Z.ltb Z.compare Pos.compare Pos.compare_cont]. change (3 - 3) with 0. change (4 - 3) with 1. change (5 - 3) with 2.
  rewrite !Z.add_0_r. rewrite hdve_R, hareac_R. assert (0 < sqrt 3)%R by (apply sqrt_lt_R0; lra). cbn [F RA] in *. field. repeat split; first [lra|apply Rgt_not_eq; lra].
Qed.
Lemma circ_a u c : 0 <= c < NC -> circ m u (2 * c) = (d * (u (3 * c)%Z + u (3 * nb X Y c 5 + 2)%Z - u (3 * nb X Y c 5 + 1)%Z))%R /\
  circ m u (2 * c + 1) = (- (d * (u (3 * c)%Z + u (3 * nb X Y c 0 + 2)%Z - u (3 * c + 1)%Z)))%R.
Proof.
  intros Hc. rewrite !(circ_eq (cfg_of S) (mesh_of_setup S) (ntracers (par_of S)) (proj1 Hok) m Hm u) by lia. rewrite !rsum_small3.
  rewrite !(vs_e (cfg_of S) (mesh_of_setup S) (proj1 Hok)), !(vs_o (cfg_of S) (mesh_of_setup S) (proj1 Hok)) by lia. rewrite !heov_e, !heov_o. cbn [Z.eqb Pos.eqb].
  rewrite (inb_is_nb X Y Hx Hy Hev c 2), (inb_is_nb X Y Hx Hy Hev c 3) by lia. change ((2 + 3) mod 6) with 5. change ((3 + 3) mod 6) with 0. cbn [F RA]. split; ring.
Qed.

Lemma hodge u : (forall c, 0 <= c < NC -> outflow m u c = 0%R) -> (forall v, 0 <= v < 2 * NC -> circ m u v = 0%R) ->
  exists U V : R, forall e, 0 <= e < 3 * NC -> u e = (U * cos (mr m AngleEdge [e]) + V * sin (mr m AngleEdge [e]))%R.
Proof.
  intros Zd Zc. set (a0 := fun c => u (3 * c)). set (a1 := fun c => u (3 * c + 1)). set (a2 := fun c => u (3 * c + 2)).
  assert (Hd : forall c, 0 <= c < NC -> (a0 (nb X Y c 3) - a0 c + (a1 (nb X Y c 4) - a1 c) + (a2 (nb X Y c 5) - a2 c) = 0)%R).
  { intros c Hc. pose proof (Zd c Hc) as E. rewrite (outflow_a u c Hc) in E. apply Rmult_integral in E. destruct E as [E|E]; [|exact E].
    exfalso. assert (0 < 2 / (3 * d))%R by (apply Rdiv_lt_0_compat; lra). lra. }
  assert (Hc0 : forall c, 0 <= c < NC -> (a0 c + a2 (nb X Y c 5) - a1 (nb X Y c 5) = 0)%R).
  { intros c Hc. pose proof (Zc (2 * c) ltac:(lia)) as E. rewrite (proj1 (circ_a u c Hc)) in E. apply Rmult_integral in E. destruct E as [E|E]; [lra|exact E]. }
  assert (Hc1 : forall c, 0 <= c < NC -> (a0 c + a2 (nb X Y c 0) - a1 c = 0)%R).
  { intros c Hc. pose proof (Zc (2 * c + 1) ltac:(lia)) as E. rewrite (proj2 (circ_a u c Hc)) in E. apply Ropp_eq_0_compat in E. rewrite Ropp_involutive in E. apply Rmult_integral in E. destruct E as [E|E]; [lra|exact E]. }
  assert (L0 : forall c, 0 <= c < NC -> lap m a0 c = 0%R).
  { intros c Hc. rewrite (lap_avg S Hok Hdc m Hr H1 H2) by exact Hc. unfold avg6. rewrite rsum_small6. unfold nbr. cbn [Z.ltb Z.compare Pos.compare Pos.compare_cont].
    rewrite !(inb_is_nb X Y Hx Hy Hev c) by lia. change ((3 + 0 + 3) mod 6) with 0. change ((3 + 1 + 3) mod 6) with 1. change ((3 + 2 + 3) mod 6) with 2.
    rewrite (a0_harmonic X Y Hx Hy Hev a0 a1 a2 Hd Hc0 Hc1 c Hc). field. cbn [F RA] in *. lra. }
  assert (LZ := lap_zero S Hok Hdc H1 H2 m Hr a0 ltac:(apply rsum_zero; intros c Hc; rewrite L0 by exact Hc; cbn [F RA]; ring)).
  assert (C0 : forall c, 0 <= c < NC -> a0 c = a0 0).
  { apply (const_cells X Y Hx Hy a0); intros c Hc.
    - pose proof (LZ (3 * c + 0) ltac:(lia)) as E. rewrite !(hm_coe _ _ _ Hm) in E by lia. rewrite !hcoe_q in E by lia. cbn [Z.eqb] in E. rewrite (inb_is_nb X Y Hx Hy Hev c) in E by lia. exact E.
    - pose proof (LZ (3 * c + 1) ltac:(lia)) as E. rewrite !(hm_coe _ _ _ Hm) in E by lia. rewrite !hcoe_q in E by lia. cbn [Z.eqb] in E. rewrite (inb_is_nb X Y Hx Hy Hev c) in E by lia. exact E. }
  pose proof (a2_const X Y Hx Hy Hev a0 a1 a2 Hd Hc0 Hc1 C0) as C2. pose proof (a1_a2 X Y Hx Hy Hev a0 a1 a2 Hc0 Hc1 C0) as C1.
  assert (P3 : (0 < sqrt 3)%R) by (apply sqrt_lt_R0; lra).
  exists (a0 0), ((2 * a2 0%Z + a0 0%Z) / sqrt 3)%R. intros e He. pose proof (Z.div_mod e 3 ltac:(lia)) as De. pose proof (Z.mod_pos_bound e 3 ltac:(lia)) as Mj.
  set (c := e / 3) in *. set (j := e mod 3) in *. assert (Hc : 0 <= c < NC) by lia. rewrite De. destruct (ang_vals c j Mj Hc) as [-> ->].
  assert (j = 0 \/ j = 1 \/ j = 2) as [-> | [-> | ->]] by lia; cbn [Z.eqb Pos.eqb].
  - rewrite Z.add_0_r. change (u (3 * c)) with (a0 c). rewrite (C0 c Hc). ring.
  - change (u (3 * c + 1)) with (a1 c). rewrite (C1 c Hc), (C2 c Hc). field. lra.
  - change (u (3 * c + 2)) with (a2 c). rewrite (C2 c Hc). field. lra.
Qed.
Lemma hodge_conv u U V : (forall e, 0 <= e < 3 * NC -> u e = (U * cos (mr m AngleEdge [e]) + V * sin (mr m AngleEdge [e]))%R) ->
  (forall c, 0 <= c < NC -> outflow m u c = 0%R) /\ (forall v, 0 <= v < 2 * NC -> circ m u v = 0%R).
Proof.
  intros E. assert (A : forall c, 0 <= c < NC -> (u (3 * c)%Z = U /\ u (3 * c + 1)%Z = U / 2 + V * (sqrt 3 / 2) /\ u (3 * c + 2)%Z = - U / 2 + V * (sqrt 3 / 2))%R).
  { intros c Hc. rewrite <- (Z.add_0_r (3 * c)) at 1. rewrite !E by lia. destruct (ang_vals c 0 ltac:(lia) Hc) as [-> ->]. destruct (ang_vals c 1 ltac:(lia) Hc) as [-> ->]. destruct (ang_vals c 2 ltac:(lia) Hc) as [-> ->].
    cbn [Z.eqb Pos.eqb]. repeat split; field. }
  assert (Rn : forall c j, 0 <= c < NC -> 0 <= nb X Y c j < NC) by (intros; now apply nb_range).
  split.
  - intros c Hc. rewrite (outflow_a u c Hc). rewrite (proj1 (A c Hc)), (proj1 (proj2 (A c Hc))), (proj2 (proj2 (A c Hc))), (proj1 (A _ (Rn c 3 Hc))), (proj1 (proj2 (A _ (Rn c 4 Hc)))), (proj2 (proj2 (A _ (Rn c 5 Hc)))). ring.
  - intros v Hv. pose proof (Z.div_mod v 2 ltac:(lia)) as Dv. pose proof (Z.mod_pos_bound v 2 ltac:(lia)) as Mj. set (c := v / 2) in *. clearbody c. assert (Hc : 0 <= c < NC) by lia.
    destruct (circ_a u c Hc) as [E0 E1]. assert (Cv : v = 2 * c \/ v = 2 * c + 1) by lia. clear Dv Mj Hv. destruct Cv as [-> | ->].
    + rewrite E0, (proj1 (A c Hc)), (proj1 (proj2 (A _ (Rn c 5 Hc)))), (proj2 (proj2 (A _ (Rn c 5 Hc)))). cbn [F RA]. field.
    + rewrite E1, (proj1 (A c Hc)), (proj1 (proj2 (A c Hc))), (proj2 (proj2 (A _ (Rn c 0 Hc)))). cbn [F RA]. field.
Qed.
End OnMesh.

Lemma C105_irrotational_flow_is_uniform_proof :
  forall (S : setup RA), setup_ok S -> (0 < (dc (mesh_of_setup S) : R))%R ->
  2 <= nx (mesh_of_setup S) -> Z.even (ny (mesh_of_setup S)) = true ->
  forall (t s : sid) (time : R) (md : add_mode) (m m1 : mem RA), s <> t -> ready S m ->
  exec (sdims S) (compute_tendency S t s time md) m (OK m1) ->
  forall k, 0 <= k < d_nlayers (sdims S) ->
  ((forall c, 0 <= c < d_ncells (sdims S) -> mr m1 VelDivCell [c; k] = 0%R) /\ (forall v, 0 <= v < d_nvertices (sdims S) -> mr m1 RvortVertex [v; k] = 0%R) <->
   exists U V : R, forall e, 0 <= e < d_nedges (sdims S) -> mr m (VnEdge s) [e; k] = (U * cos (mr m AngleEdge [e]) + V * sin (mr m AngleEdge [e]))%R).
Proof.
  intros S Hok Hdc H1 Hev t s time md m m1 Hs Hr X1 k Hk.
  assert (H2 : 2 <= ny (mesh_of_setup S)) by (destruct Hok as [(_ & Hy & _) _]; destruct (Z.eq_dec (ny (mesh_of_setup S)) 1) as [E|E]; [rewrite E in Hev; discriminate Hev|lia]).
  apply (tendency_exec S Hok) in X1; auto. destruct X1 as [_ X1].
  set (u := fun e => mr m (VnEdge s) [e; k] : R).
  assert (Ed : forall c, 0 <= c < nx (mesh_of_setup S) * ny (mesh_of_setup S) -> mr m1 VelDivCell [c; k] = outflow m u c).
  { intros c Hc. rewrite X1, tend_aux by reflexivity. now apply (a_div S Hok m). }
  assert (Er : forall v, 0 <= v < 2 * (nx (mesh_of_setup S) * ny (mesh_of_setup S)) -> mr m1 RvortVertex [v; k] = vort m u v).
  { intros v Hv. rewrite X1, tend_aux by reflexivity. now apply (a_rvort S Hok m). }
  split.
  - intros [Zd Zr]. apply (hodge S Hok Hdc H1 H2 Hev m Hr u).
    + intros c Hc. rewrite <- Ed by exact Hc. now apply Zd.
    + intros v Hv. pose proof (Zr v Hv) as Z0. rewrite Er in Z0 by exact Hv. unfold vort in Z0. pose proof (cb_atri S Hok Hdc m Hr v Hv) as Pa.
      apply (Rmult_eq_compat_r (mr m AreaTriangle [v])) in Z0. unfold Rdiv in Z0. rewrite Rmult_assoc, Rinv_l in Z0 by lra. cbn [F RA] in *. lra.
  - intros (U & V & E). destruct (hodge_conv S Hok Hdc H1 H2 Hev m Hr u U V E) as [Zd Zc]. split.
    + intros c Hc. rewrite Ed by exact Hc. now apply Zd.
    + intros v Hv. rewrite Er by exact Hv. unfold vort. rewrite Zc by exact Hv. unfold Rdiv. apply Rmult_0_l.
Qed.

(** The viscous work vanishes for uniform flow only. *)
Lemma vlap_work_zero (S : setup RA) (Hok : setup_ok S) : (0 < (dc (mesh_of_setup S) : R))%R ->
  2 <= nx (mesh_of_setup S) -> 2 <= ny (mesh_of_setup S) -> Z.even (ny (mesh_of_setup S)) = true -> forall m (Hr : ready S m) u,
  rsum (3 * (nx (mesh_of_setup S) * ny (mesh_of_setup S))) (fun e => mr m DcEdge [e] * mr m DvEdge [e] * u e * vlap m u e)%R = 0%R ->
  exists U V : R, forall e, 0 <= e < 3 * (nx (mesh_of_setup S) * ny (mesh_of_setup S)) -> u e = (U * cos (mr m AngleEdge [e]) + V * sin (mr m AngleEdge [e]))%R.
Proof.
  intros Hdc H1 H2 Hev m Hr u Z0. pose proof (vlap'_work S Hok Hdc m Hr u u u H1 H2) as G. unfold vlap' in G. unfold vlap in Z0. rewrite G in Z0. clear G.
  set (A := rsum (nx (mesh_of_setup S) * ny (mesh_of_setup S)) _) in Z0. set (B := rsum (2 * (nx (mesh_of_setup S) * ny (mesh_of_setup S))) _) in Z0.
  assert (PA : forall c, 0 <= c < nx (mesh_of_setup S) * ny (mesh_of_setup S) -> (0 <= mr m AreaCell [c] * outflow m u c * outflow m u c)%R).
  { intros c Hc. pose proof (cb_area S Hok Hdc m Hr c Hc). rewrite Rmult_assoc. apply Rmult_le_pos; [lra|apply Rle_0_sqr]. }
  assert (PB : forall v, 0 <= v < 2 * (nx (mesh_of_setup S) * ny (mesh_of_setup S)) -> (0 <= mr m AreaTriangle [v] * vort m u v * vort m u v)%R).
  { intros v Hv. pose proof (cb_atri S Hok Hdc m Hr v Hv). rewrite Rmult_assoc. apply Rmult_le_pos; [lra|apply Rle_0_sqr]. }
  assert (A0 : (0 <= A)%R) by (apply rsum_nonneg; exact PA). assert (B0 : (0 <= B)%R) by (apply rsum_nonneg; exact PB).
  assert (ZA := rsum_zero_each _ _ PA ltac:(fold A; lra)). assert (ZB := rsum_zero_each _ _ PB ltac:(fold B; lra)). cbv beta in ZA, ZB.
  apply (hodge S Hok Hdc H1 H2 Hev m Hr u).
  - intros c Hc. pose proof (cb_area S Hok Hdc m Hr c Hc). specialize (ZA c Hc). apply Rmult_integral in ZA. destruct ZA as [ZA|ZA]; [|exact ZA]. apply Rmult_integral in ZA. destruct ZA; [lra|assumption].
  - intros v Hv. pose proof (cb_atri S Hok Hdc m Hr v Hv) as Pa. specialize (ZB v Hv). assert (V0 : vort m u v = 0%R) by (apply Rmult_integral in ZB; destruct ZB as [ZB|ZB]; [|exact ZB]; apply Rmult_integral in ZB; destruct ZB; [lra|assumption]).
    unfold vort in V0. apply (Rmult_eq_compat_r (mr m AreaTriangle [v])) in V0. unfold Rdiv in V0. rewrite Rmult_assoc, Rinv_l in V0 by lra. cbn [F RA] in *. lra.
Qed.

Lemma C105_viscosity_damps_all_other_flow_proof :
  forall (S : setup RA), setup_ok S -> (0 < (dc (mesh_of_setup S) : R))%R ->
  2 <= nx (mesh_of_setup S) -> Z.even (ny (mesh_of_setup S)) = true ->
  disable_h (par_of S) = false -> disable_vn (par_of S) = false -> hook S = None ->
  ksimd (cfg_of S) = false \/ vector_length (cfg_of S) = 1 \/ ((visc_del4 (par_of S) : R) <= 0)%R ->
  (0 < (visc_del2 (par_of S) : R) \/ 0 < (visc_del4 (par_of S) : R))%R ->
  forall (t s : sid) (time : R) (m m1 : mem RA) (E : R -> R) (H : Z -> R), s <> t -> ready S m ->
  (forall c k, 0 <= c < d_ncells (sdims S) -> 0 <= k < d_nlayers (sdims S) -> (0 < H k)%R /\ mr m (HCell s) [c; k] = H k) ->
  exec (sdims S) (compute_tendency S t s time Replace) m (OK m1) ->
  (forall eps, exists n, ready S n /\ energy_integral S s n (Some (E eps)) /\
     holds S s n (fmap2 (A:=RA) (fun u w => u + eps * w)%R (fld s m) (fld t m1))) ->
  exists W : R, derivable_pt_lim E 0%R W /\ (W <= 0)%R /\
  (W = 0%R <-> forall k, 0 <= k < d_nlayers (sdims S) -> exists U V : R, forall e, 0 <= e < d_nedges (sdims S) -> mr m (VnEdge s) [e; k] = (U * cos (mr m AngleEdge [e]) + V * sin (mr m AngleEdge [e]))%R).
Proof.
  intros S Hok Hdc H1 Hev Hh Hv Hf Hl Hnu t s time m m1 E H Hs Hr Hq X1 HE.
  assert (H2 : 2 <= ny (mesh_of_setup S)) by (destruct Hok as [(_ & Hy & _) _]; destruct (Z.eq_dec (ny (mesh_of_setup S)) 1) as [E0|E0]; [rewrite E0 in Hev; discriminate Hev|lia]).
  destruct (tendency_runs (inviscid S) Hok t s time Replace m Hs Hr) as [m0 X0].
  assert (Hn : 0 <= 0 < d_ncells (sdims S)) by (cbn; nia).
  eexists. split; [exact (C104_energy_budget_proof S Hok Hdc H1 H2 Hh Hv Hf t s time m m1 m0 E Hs Hr X1 X0 HE)|].
  set (W := fun k => work_of S s t m m1 m0 k). change (rsum (d_nlayers (sdims S)) W <= 0 /\ (rsum (d_nlayers (sdims S)) W = 0 <-> (forall k, 0 <= k < d_nlayers (sdims S) -> exists U V : R, forall e, 0 <= e < d_nedges (sdims S) -> mr m (VnEdge s) [e; k] = (U * cos (mr m AngleEdge [e]) + V * sin (mr m AngleEdge [e]))%R)%Z))%R. unfold W. clear W.
  assert (Wle : forall k, 0 <= k < d_nlayers (sdims S) -> (work_of S s t m m1 m0 k <= 0)%R).
  { intros k Hk. apply (work_uniform S Hok Hdc H1 H2 Hv Hl t s time Replace m m1 m0 Hs Hr X1 X0 k (H k) Hk); [apply Rlt_le; exact (proj1 (Hq 0 k Hn Hk))|]. intros c Hc. exact (proj2 (Hq c k Hc Hk)). }
  assert (Weq := fun k Hk => work_uniform_eq S Hok Hdc H1 H2 Hv Hl t s time Replace m m1 m0 Hs Hr X1 X0 k (H k) Hk (fun c Hc => proj2 (Hq c k Hc Hk))). cbv zeta in Weq.
  set (NE := 3 * (nx (mesh_of_setup S) * ny (mesh_of_setup S))) in *.
  split; [|split].
  - replace 0%R with (rsum (d_nlayers (sdims S)) (fun _ => 0%R)) by (apply rsum_zero; reflexivity). apply rsum_le. exact Wle.
  - intros Z0 k Hk.
    assert (Zk : work_of S s t m m1 m0 k = 0%R).
    { assert (Q := rsum_zero_each (d_nlayers (sdims S)) (fun k => - work_of S s t m m1 m0 k)%R ltac:(intros i Hi; specialize (Wle i Hi); lra) ltac:(rewrite rsum_opp; rewrite <- Ropp_0; apply f_equal; exact Z0) k Hk). cbv beta in Q. lra. }
    rewrite (Weq k Hk) in Zk. set (u := fun e => mr m (VnEdge s) [e; k] : R) in *.
    apply Rmult_integral in Zk. destruct Zk as [Zk|Zk]; [pose proof (proj1 (Hq 0 k Hn Hk)); lra|].
    set (W2 := rsum NE (fun e => mr m DcEdge [e] * mr m DvEdge [e] * u e * vlap m u e)%R) in *. set (W4 := rsum NE (fun e => mr m DcEdge [e] * mr m DvEdge [e] * (vlap m u e * vlap m u e))%R) in *.
    assert (Zk' : (Rmax 0 (visc_del2 (par_of S)) * W2 - Rmax 0 (visc_del4 (par_of S)) * W4 = 0)%R) by exact Zk. clear Zk. rename Zk' into Zk.
    assert (Q2 : (W2 <= 0)%R) by exact (vlap_work S Hok Hdc m Hr u H1 H2).
    assert (P4 : forall e, 0 <= e < NE -> (0 <= mr m DcEdge [e] * mr m DvEdge [e] * (vlap m u e * vlap m u e))%R) by (intros e He; apply Rmult_le_pos; [apply Rlt_le; now apply (cb_dcdv S Hok Hdc m Hr)|apply Rle_0_sqr]).
    assert (Q4 : (0 <= W4)%R) by (apply rsum_nonneg; exact P4).
    apply (vlap_work_zero S Hok Hdc H1 H2 Hev m Hr u). fold NE. fold W2.
    destruct Hnu as [P2|P2].
    + rewrite (Rmax_right 0 (visc_del2 (par_of S))) in Zk by (apply Rlt_le, P2). pose proof (Rmult_le_pos _ _ (Rmax_l 0 (visc_del4 (par_of S))) Q4) as M4.
      assert (M2 : (0 <= visc_del2 (par_of S) * - W2)%R) by (apply Rmult_le_pos; lra). assert (Z2 : (visc_del2 (par_of S) * W2 = 0)%R) by (cbn [F RA] in *; lra).
      apply Rmult_integral in Z2. destruct Z2 as [Z2|Z2]; [lra|exact Z2].
    + rewrite (Rmax_right 0 (visc_del4 (par_of S))) in Zk by (apply Rlt_le, P2).
      assert (M2 : (0 <= Rmax 0 (visc_del2 (par_of S)) * - W2)%R) by (apply Rmult_le_pos; [apply Rmax_l|lra]). pose proof (Rmult_le_pos _ _ (Rlt_le _ _ P2) Q4) as M4.
      assert (Z4 : (visc_del4 (par_of S) * W4 = 0)%R) by (cbn [F RA] in *; lra). apply Rmult_integral in Z4. destruct Z4 as [Z4|Z4]; [lra|].
      apply rsum_zero. intros e He. pose proof (rsum_zero_each _ _ P4 Z4 e He) as Ze. cbv beta in Ze. pose proof (cb_dcdv S Hok Hdc m Hr e He) as D0.
      apply Rmult_integral in Ze. destruct Ze as [Ze|Ze]; [lra|]. assert (V0 : vlap m u e = 0%R) by (apply Rmult_integral in Ze; destruct Ze; assumption). rewrite V0. ring.
  - intros HU. apply rsum_zero. intros k Hk. destruct (HU k Hk) as (U & V & Eu). set (u := fun e => mr m (VnEdge s) [e; k] : R).
    rewrite (Weq k Hk). fold u. destruct (hodge_conv S Hok Hdc H1 H2 Hev m Hr u U V Eu) as [Zd Zc].
    assert (V0 : forall e, 0 <= e < NE -> vlap m u e = 0%R).
    { intros e He. unfold vlap, grad, rgrad. destruct (wf_coe _ _ (ready_wfm S Hok m Hr) e 0 ltac:(assumption) ltac:(lia)) as [A0 A1]. destruct (wf_coe _ _ (ready_wfm S Hok m Hr) e 1 ltac:(assumption) ltac:(lia)) as [B0 B1].
      rewrite !Zd by (split; assumption). unfold vort. rewrite !(hm_voe _ _ _ (ready_hex S Hok m Hr)) by (assumption || lia).
      rewrite !Zc by (apply hvoe_range; try assumption; lia). unfold Rdiv. ring. }
    rewrite (rsum_zero NE _ (fun e He => eq_trans (f_equal (Rmult _) (V0 e He)) (Rmult_0_r _))).
    rewrite (rsum_zero NE (fun e => mr m DcEdge [e] * mr m DvEdge [e] * (vlap m u e * vlap m u e))%R) by (intros e He; rewrite V0 by exact He; cbn [F RA]; ring). ring.
Qed.
