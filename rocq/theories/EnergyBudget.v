(** Proofs about the energy budget of the viscous model (C104). *)
From Coq Require Import ZArith Reals List Bool Lia Lra Psatz.
From Verif Require Import Arith Arrays Prog Conc Launch Mesh AuxVars Tend Model Hex HexComb RSum Spec MeshProof MeshMem MeshR MeshCalc Over Formulas KernBase Terms KernAux KernTend TendFn StepFn Ready Rel RelRun Relate TendVal StepVal StepRun StepThms RealTend SumParts Diag FieldInv ConsBase ConsThms SteadyThms HypThms.
Import ListNotations.
Open Scope Z_scope.

(** The same setup without viscosity. *)
Definition inviscid (S : setup RA) : setup RA := set_visc_del4 (set_visc_del2 S (IZR 0)) (IZR 0).

Lemma rsum_at n e0 (x : R) : 0 <= e0 < n -> rsum n (fun e => if e =? e0 then x else 0%R) = x.
Proof.
  intros H. assert (G : forall i, 0 <= i -> rsum i (fun e => if e =? e0 then x else 0%R) = if e0 <? i then x else 0%R).
  { intros i Hi. pattern i. apply natlike_ind; [|intros j Hj IH|exact Hi].
    - rewrite rsum_0. destruct (Z.ltb_spec e0 0); [lia|reflexivity].
    - unfold Z.succ. rewrite rsum_succ, IH by lia. destruct (Z.ltb_spec e0 j), (Z.eqb_spec j e0), (Z.ltb_spec e0 (j + 1)); try lia; lra. }
  rewrite G by lia. destruct (Z.ltb_spec e0 n); [reflexivity|lia].
Qed.

Lemma poly_deriv1 (E : R -> R) (a w b c : R) : (forall x, E x = a + x * w + x * x * (b + x * c))%R -> derivable_pt_lim E 0%R w.
Proof.
  intros HE. assert (D : derivable_pt_lim (fun x => E x - x * w)%R 0%R 0%R) by (apply (poly_deriv _ a b c); intros x; rewrite HE; ring).
  intros eps He. destruct (D eps He) as [del Hd]. exists del. intros x Hx Hl. specialize (Hd x Hx Hl). cbv beta in Hd.
  replace ((E (0 + x) - E 0) / x - w)%R with ((E (0 + x) - (0 + x) * w - (E 0 - 0 * w)) / x - 0)%R by (field; exact Hx). exact Hd.
Qed.

Section Budget.
Context (S : setup RA) (Hok : setup_ok S) (Hdc : (0 < (dc (mesh_of_setup S) : R))%R) (H1 : 2 <= nx (mesh_of_setup S)) (H2 : 2 <= ny (mesh_of_setup S)).
Local Notation X := (nx (mesh_of_setup S)).
Local Notation Y := (ny (mesh_of_setup S)).
Local Notation NC := (X * Y).
Local Notation NL := (d_nlayers (sdims S)).
Local Notation nu2 := (Rmax 0 (visc_del2 (par_of S))).
Local Notation nu4 := (Rmax 0 (visc_del4 (par_of S))).

(** The contribution of viscosity to the velocity tendency. *)
Lemma visc_diff (t s : sid) (time : R) md m m1 m0 (Hst : s <> t) (Hr : ready S m) : disable_vn (par_of S) = false ->
  exec (sdims S) (compute_tendency S t s time md) m (OK m1) -> exec (sdims S) (compute_tendency (inviscid S) t s time md) m (OK m0) ->
  forall e k, 0 <= e < 3 * NC -> 0 <= k < NL ->
  let u e := mr m (VnEdge s) [e; k] : R in let u' e := mr m (VnEdge s) [e; rv_layer (cfg_of S) k] : R in
  (mr m1 (VnEdge t) [e; k] - mr m0 (VnEdge t) [e; k] = nu2 * vlap m u e - nu4 * vlap' m (vlap m u) (vlap m u') e)%R.
Proof.
  intros Hv X1 X0 e k He Hk u u'. apply (tendency_exec S Hok) in X1; auto. apply (tendency_exec (inviscid S) Hok) in X0; auto.
  destruct X1 as [_ X1], X0 as [_ X0]. rewrite X1, X0. rewrite (T_v S Hok Hdc m Hr), (T_v (inviscid S) Hok Hdc m Hr) by assumption.
  unfold hk_v, hook_v, vtend. unfold inviscid. cbn [set_visc_del4 set_visc_del2 par_of hook cfg_of disable_vn f0 grav]. rewrite Hv.
  unfold vel_diff_enabled, vel_hyperdiff_enabled. cbn [visc_del2 visc_del4 flt RA fofZ]. fold u. fold u'.
  destruct (Rlt_dec 0 0) as [B|_]; [lra|].
  destruct (Rlt_dec 0 (visc_del2 (par_of S))) as [P2|P2]; [rewrite (Rmax_right 0 (visc_del2 (par_of S))) by (apply Rlt_le, P2)|rewrite (Rmax_left 0 (visc_del2 (par_of S))) by (apply Rnot_lt_le, P2)];
  (destruct (Rlt_dec 0 (visc_del4 (par_of S))) as [P4|P4]; [rewrite (Rmax_right 0 (visc_del4 (par_of S))) by (apply Rlt_le, P4)|rewrite (Rmax_left 0 (visc_del4 (par_of S))) by (apply Rnot_lt_le, P4)]);
  destruct (hook S); rring.
Qed.

(** The kinetic energy that a change [z] of the velocity tendency brings. *)
Lemma work_z m (Hr : ready S m) q u kv z :
  rsum NC (fun c => mr m AreaCell [c] * (2 * (q c * kinb m u (fun e => kv e + z e)%R c)))%R =
  (rsum NC (fun c => mr m AreaCell [c] * (2 * (q c * kinb m u kv c))) + rsum (3 * NC) (fun e => mr m DcEdge [e] * mr m DvEdge [e] * (emean m q e * u e) * z e))%R.
Proof.
  transitivity (rsum NC (fun c => mr m AreaCell [c] * (2 * (q c * kinb m u kv c)) + / 2 * (q c * rsum (mi m NedgesOnCell [c]) (fun j => let e := mi m EdgesOnCell [c; j] in mr m DvEdge [e] * mr m DcEdge [e] * (u e * z e))))%R).
  - apply rsum_ext. intros c Hc.
    assert (K : kinb m u (fun e => kv e + z e)%R c = (kinb m u kv c + kinb m u z c)%R).
    { unfold kinb. rewrite <- !Rdiv_plus_distr, <- rsum_plus. do 2 f_equal. apply rsum_ext. intros. cbv zeta. cbn [F RA]. ring. }
    rewrite K. unfold kinb at 2. pose proof (cb_area S Hok Hdc m Hr c Hc). cbn [F RA] in *. field. lra.
  - rewrite rsum_plus, rsum_scal. f_equal.
    pose proof (cell_mean _ _ (ntracers (par_of S)) (proj1 Hok) m (ready_hex S Hok m Hr) q (fun e => u e * z e)%R) as G. cbv beta in G. 
    rewrite G, <- rsum_scal. apply rsum_ext. intros e He. unfold emean. cbn [F RA]. field.
Qed.
End Budget.

(** The work of viscosity in layer [k], weighted by the mean thickness of the two cells of each edge. *)
Definition work_of (S : setup RA) (s t : sid) (m m1 m0 : mem RA) (k : Z) : R :=
  rsum (d_nedges (sdims S)) (fun e => mr m DcEdge [e] * mr m DvEdge [e] *
    ((mr m (HCell s) [mi m CellsOnEdge [e; 0%Z]; k] + mr m (HCell s) [mi m CellsOnEdge [e; 1%Z]; k]) / 2 * mr m (VnEdge s) [e; k]) *
    (mr m1 (VnEdge t) [e; k] - mr m0 (VnEdge t) [e; k]))%R.

Lemma C104_energy_budget_proof :
  forall (S : setup RA), setup_ok S -> (0 < (dc (mesh_of_setup S) : R))%R ->
  2 <= nx (mesh_of_setup S) -> 2 <= ny (mesh_of_setup S) ->
  disable_h (par_of S) = false -> disable_vn (par_of S) = false -> hook S = None ->
  forall (t s : sid) (time : R) (m m1 m0 : mem RA) (E : R -> R), s <> t -> ready S m ->
  exec (sdims S) (compute_tendency S t s time Replace) m (OK m1) ->
  exec (sdims S) (compute_tendency (inviscid S) t s time Replace) m (OK m0) ->
  (forall eps, exists n, ready S n /\ energy_integral S s n (Some (E eps)) /\
     holds S s n (fmap2 (A:=RA) (fun u w => u + eps * w)%R (fld s m) (fld t m1))) ->
  derivable_pt_lim E 0%R (rsum (d_nlayers (sdims S)) (fun k => rsum (d_nedges (sdims S)) (fun e => mr m DcEdge [e] * mr m DvEdge [e] *
    ((mr m (HCell s) [mi m CellsOnEdge [e; 0%Z]; k] + mr m (HCell s) [mi m CellsOnEdge [e; 1%Z]; k]) / 2 * mr m (VnEdge s) [e; k]) *
    (mr m1 (VnEdge t) [e; k] - mr m0 (VnEdge t) [e; k]))))%R.
Proof.
  intros S Hok Hdc H1 H2 Hh Hv Hf t s time m m1 m0 E Hs Hr X1 X0 HE.
  change (derivable_pt_lim E 0%R (rsum (d_nlayers (sdims S)) (fun k => work_of S s t m m1 m0 k))).
  apply (tendency_exec S Hok) in X1; auto. destruct X1 as [_ X1]. apply (tendency_exec (inviscid S) Hok) in X0; auto. destruct X0 as [_ X0].
  set (h := mesh_of_setup S) in *. set (NL := d_nlayers (sdims S)). set (g := grav (par_of S) : R).
  set (q := fun k c => mr m (HCell s) [c; k] : R). set (u := fun k e => mr m (VnEdge s) [e; k] : R).
  set (kh := fun k c => mr m1 (HCell t) [c; k] : R). set (kv := fun k e => mr m1 (VnEdge t) [e; k] : R). set (kw := fun k e => mr m0 (VnEdge t) [e; k] : R).
  set (A := fun c => mr m AreaCell [c] : R).
  assert (Eh : forall k c, 0 <= k < NL -> 0 <= c < nx h * ny h -> kh k c = (- outflow m (fun e => emean m (q k) e * u k e) c)%R).
  { intros k c Hk Hc. unfold kh. rewrite X1, (T_h S Hok m Hr) by assumption. unfold hk_h. rewrite Hh, Hf. unfold zr. cbn [is_replace fofZ RA].
    rewrite Rminus_0_l. reflexivity. }
  assert (Ev : forall k e, 0 <= k < NL -> 0 <= e < 3 * (nx h * ny h) ->
    kw k e = (pvflux m (f0 (par_of S)) (q k) (u k) e - grad m (kin m (u k)) e - g * grad m (q k) e)%R).
  { intros k e Hk He. unfold kw. rewrite X0, (T_v (inviscid S) Hok Hdc m Hr) by assumption. unfold hk_v. unfold inviscid.
    cbn [set_visc_del4 set_visc_del2 par_of hook cfg_of disable_vn]. rewrite Hv, Hf. unfold zr, vtend. cbn [is_replace fofZ RA].
    unfold vel_diff_enabled, vel_hyperdiff_enabled. rewrite !disabled_le by apply Rle_refl. cbn [set_visc_del4 set_visc_del2 par_of f0 grav]. fold g. cbn [F RA].
    fold (q k). fold (u k). ring. }
  apply (poly_deriv1 E
    (rsum (nx h * ny h) (fun c => rsum NL (fun k => A c * (g * q k c * q k c / 2 + q k c * kin m (u k) c))))
    (rsum NL (fun k => work_of S s t m m1 m0 k))
    (rsum (nx h * ny h) (fun c => rsum NL (fun k => A c * (g * kh k c * kh k c / 2 + q k c * kin m (kv k) c + 2 * (kh k c * kinb m (u k) (kv k) c)))))
    (rsum (nx h * ny h) (fun c => rsum NL (fun k => A c * (kh k c * kin m (kv k) c)))))%R.
  intros eps. destruct (HE eps) as (n & Rn & Qn & Hn). apply (energy_sum S Hok n Rn) in Qn. injection Qn as ->.
  rewrite (Rmult_plus_distr_l (eps * eps)), <- Rplus_assoc.
  assert (Z0 : rsum (nx h * ny h) (fun c => rsum NL (fun k => A c * (g * q k c * kh k c + kh k c * kin m (u k) c + 2 * (q k c * kinb m (u k) (kv k) c))))%R = rsum NL (fun k => work_of S s t m m1 m0 k)).
  { rewrite rsum_swap. apply rsum_ext. intros k Hk.
    pose proof (energy_rate S Hok Hdc m Hr (f0 (par_of S)) g (q k) (u k) (kh k) (kw k) H1 H2 (fun c Hc => Eh k c Hk Hc) (fun e He => Ev k e Hk He)) as G.
    pose proof (work_z S Hok Hdc m Hr (q k) (u k) (kw k) (fun e => kv k e - kw k e)%R) as W.
    change (rsum (3 * (nx h * ny h)) (fun e => mr m DcEdge [e] * mr m DvEdge [e] * (emean m (q k) e * u k e) * (kv k e - kw k e))%R) with (work_of S s t m m1 m0 k) in W.
    assert (Kx : forall c, kinb m (u k) (fun e => kw k e + (kv k e - kw k e))%R c = kinb m (u k) (kv k) c).
    { intros c. unfold kinb. do 2 f_equal. apply rsum_ext. intros. cbv zeta. cbn [F RA]. ring. }
    rewrite (rsum_ext (nx h * ny h) _ (fun c => mr m AreaCell [c] * (2 * (q k c * kinb m (u k) (kv k) c)))%R) in W by (intros c Hc; now rewrite Kx).
    fold h in G, W. 
    rewrite (rsum_ext _ _ (fun c => mr m AreaCell [c] * (g * q k c * kh k c + kh k c * kin m (u k) c) + mr m AreaCell [c] * (2 * (q k c * kinb m (u k) (kw k) c)))%R) in G by (intros; cbn [F RA]; ring).
    rewrite rsum_plus in G.
    rewrite (rsum_ext _ _ (fun c => mr m AreaCell [c] * (g * q k c * kh k c + kh k c * kin m (u k) c) + mr m AreaCell [c] * (2 * (q k c * kinb m (u k) (kv k) c)))%R) by (intros; unfold A; cbn [F RA]; ring).
    rewrite rsum_plus, W, <- Rplus_assoc. etransitivity; [exact (f_equal (fun x => x + _)%R G)|apply Rplus_0_l]. }
  rewrite <- Z0.
  rewrite <- (Rmult_assoc (eps * eps) eps). rewrite <- !rsum_scal, <- !rsum_plus. apply rsum_ext. intros c Hc.
  rewrite <- !rsum_scal, <- !rsum_plus. apply rsum_ext. intros k Hk.
  assert (EA : mr n AreaCell [c] = A c).
  { unfold A. now rewrite (hm_area _ _ _ (ready_hex S Hok n Rn)), (hm_area _ _ _ (ready_hex S Hok m Hr)) by assumption. }
  assert (Eq : forall c, 0 <= c < nx h * ny h -> mr n (HCell s) [c; k] = (q k c + eps * kh k c)%R) by (intros; now apply (Hn k Hk)).
  assert (Eu : forall e, 0 <= e < 3 * (nx h * ny h) -> mr n (VnEdge s) [e; k] = (u k e + eps * kv k e)%R) by (intros; now apply (Hn k Hk)).
  unfold Diag.ecell. fold g. rewrite EA, Eq by assumption.
  rewrite (kin_ext S Hok n Rn (fun e => mr n (VnEdge s) [e; k]) (fun e => u k e + eps * kv k e)%R) by assumption.
  assert (Ek : forall w, kin n w c = kin m w c).
  { intros w. unfold kin. rewrite EA. fold (A c). rewrite (hm_noc _ _ _ (ready_hex S Hok n Rn)), (hm_noc _ _ _ (ready_hex S Hok m Hr)) by assumption.
    do 2 f_equal. apply rsum_ext. intros j Hj. cbv zeta.
    rewrite (hm_eoc _ _ _ (ready_hex S Hok n Rn)), (hm_eoc _ _ _ (ready_hex S Hok m Hr)) by assumption.
    pose proof (hE_range (nx h) (ny h) ltac:(apply Hok) ltac:(apply Hok) c j Hc Hj) as He.
    now rewrite (hm_dve _ _ _ (ready_hex S Hok n Rn)), (hm_dve _ _ _ (ready_hex S Hok m Hr)), (hm_dce _ _ _ (ready_hex S Hok n Rn)), (hm_dce _ _ _ (ready_hex S Hok m Hr)) by assumption. }
  rewrite Ek, kin_pert. field.
Qed.

(** In layers of uniform thickness. *)
Lemma work_uniform_eq (S : setup RA) (Hok : setup_ok S) : (0 < (dc (mesh_of_setup S) : R))%R ->
  2 <= nx (mesh_of_setup S) -> 2 <= ny (mesh_of_setup S) -> disable_vn (par_of S) = false ->
  ksimd (cfg_of S) = false \/ vector_length (cfg_of S) = 1 \/ ((visc_del4 (par_of S) : R) <= 0)%R ->
  forall (t s : sid) (time : R) md (m m1 m0 : mem RA), s <> t -> ready S m ->
  exec (sdims S) (compute_tendency S t s time md) m (OK m1) ->
  exec (sdims S) (compute_tendency (inviscid S) t s time md) m (OK m0) ->
  forall k H, 0 <= k < d_nlayers (sdims S) -> (forall c, 0 <= c < d_ncells (sdims S) -> mr m (HCell s) [c; k] = H) ->
  let u e := mr m (VnEdge s) [e; k] : R in
  work_of S s t m m1 m0 k = (H * (Rmax 0 (visc_del2 (par_of S)) * rsum (3 * (nx (mesh_of_setup S) * ny (mesh_of_setup S))) (fun e => mr m DcEdge [e] * mr m DvEdge [e] * u e * vlap m u e) -
    Rmax 0 (visc_del4 (par_of S)) * rsum (3 * (nx (mesh_of_setup S) * ny (mesh_of_setup S))) (fun e => mr m DcEdge [e] * mr m DvEdge [e] * (vlap m u e * vlap m u e))))%R.
Proof.
  intros Hdc H1 H2 Hv Hl t s time md m m1 m0 Hs Hr X1 X0 k H Hk Hq u.
  set (a2 := Rmax 0 (visc_del2 (par_of S))). set (a4 := Rmax 0 (visc_del4 (par_of S))).
  unfold work_of. rewrite (rsum_ext _ _ (fun e => H * (a2 * (mr m DcEdge [e] * mr m DvEdge [e] * u e * vlap m u e) - a4 * (mr m DcEdge [e] * mr m DvEdge [e] * u e * vlap' m (vlap m u) (vlap m u) e)))%R).
    - rewrite rsum_scal, rsum_minus, !rsum_scal. pose proof (hyper_work S Hok Hdc m Hr u H1 H2) as G. do 2 f_equal. apply (f_equal (Rmult a4)). exact G.
    - intros e He. rewrite !Hq by (rewrite (hm_coe _ _ _ (ready_hex S Hok m Hr)) by (try assumption; lia); apply hcoe_range; try assumption; try (apply Hok); lia).
      pose proof (visc_diff S Hok Hdc t s time md m m1 m0 Hs Hr Hv X1 X0 e k He Hk) as D. cbv zeta in D. rewrite D.
      change (mr m (VnEdge s) [e; k]) with (u e). fold u. fold a2. fold a4.
      assert (V : (a4 * vlap' m (vlap m u) (vlap m (fun e => mr m (VnEdge s) [e; rv_layer (cfg_of S) k])) e = a4 * vlap' m (vlap m u) (vlap m u) e)%R).
      { destruct Hl as [Hl|[Hl|Hl]]; [rewrite (rv_self _ _ (or_introl Hl)); reflexivity|rewrite (rv_self _ _ (or_intror Hl)); reflexivity|].
        assert (Z4 : a4 = 0%R) by (apply Rmax_left; exact Hl). rewrite Z4. ring. }
      rewrite V. cbn [F RA]. field.
Qed.
Lemma work_uniform (S : setup RA) (Hok : setup_ok S) : (0 < (dc (mesh_of_setup S) : R))%R ->
  2 <= nx (mesh_of_setup S) -> 2 <= ny (mesh_of_setup S) -> disable_vn (par_of S) = false ->
  ksimd (cfg_of S) = false \/ vector_length (cfg_of S) = 1 \/ ((visc_del4 (par_of S) : R) <= 0)%R ->
  forall (t s : sid) (time : R) md (m m1 m0 : mem RA), s <> t -> ready S m ->
  exec (sdims S) (compute_tendency S t s time md) m (OK m1) ->
  exec (sdims S) (compute_tendency (inviscid S) t s time md) m (OK m0) ->
  forall k H, 0 <= k < d_nlayers (sdims S) -> (0 <= H)%R -> (forall c, 0 <= c < d_ncells (sdims S) -> mr m (HCell s) [c; k] = H) ->
  (work_of S s t m m1 m0 k <= 0)%R.
Proof.
  intros Hdc H1 H2 Hv Hl t s time md m m1 m0 Hs Hr X1 X0 k H Hk PH Hq.
  set (u := fun e => mr m (VnEdge s) [e; k] : R). set (a2 := Rmax 0 (visc_del2 (par_of S))). set (a4 := Rmax 0 (visc_del4 (par_of S))).
  assert (P2 : (0 <= a2)%R) by apply Rmax_l. assert (P4 : (0 <= a4)%R) by apply Rmax_l.
  set (NE := 3 * (nx (mesh_of_setup S) * ny (mesh_of_setup S))).
  set (W2 := rsum NE (fun e => mr m DcEdge [e] * mr m DvEdge [e] * u e * vlap m u e)%R).
  set (W4 := rsum NE (fun e => mr m DcEdge [e] * mr m DvEdge [e] * (vlap m u e * vlap m u e))%R).
  assert (Q2 : (W2 <= 0)%R) by exact (vlap_work S Hok Hdc m Hr u H1 H2).
  assert (Q4 : (0 <= W4)%R) by (apply rsum_nonneg; intros e He; apply Rmult_le_pos; [apply Rlt_le; now apply (cb_dcdv S Hok Hdc m Hr)|apply Rle_0_sqr]).
  assert (EW : work_of S s t m m1 m0 k = (H * (a2 * W2 - a4 * W4))%R) by exact (work_uniform_eq S Hok Hdc H1 H2 Hv Hl t s time md m m1 m0 Hs Hr X1 X0 k H Hk Hq).
  rewrite EW. assert ((0 <= a2 * - W2)%R) by (apply Rmult_le_pos; lra). assert (0 <= a4 * W4)%R by (apply Rmult_le_pos; lra).
  assert (0 <= H * (a2 * - W2 + a4 * W4))%R by (apply Rmult_le_pos; lra). lra.
Qed.

Lemma C104_viscosity_dissipates_energy_proof :
  forall (S : setup RA), setup_ok S -> (0 < (dc (mesh_of_setup S) : R))%R ->
  2 <= nx (mesh_of_setup S) -> 2 <= ny (mesh_of_setup S) ->
  disable_h (par_of S) = false -> disable_vn (par_of S) = false -> hook S = None ->
  ksimd (cfg_of S) = false \/ vector_length (cfg_of S) = 1 \/ ((visc_del4 (par_of S) : R) <= 0)%R ->
  forall (t s : sid) (time : R) (m m1 : mem RA) (E : R -> R) (H : Z -> R), s <> t -> ready S m ->
  (forall c k, 0 <= c < d_ncells (sdims S) -> 0 <= k < d_nlayers (sdims S) -> (0 <= H k)%R /\ mr m (HCell s) [c; k] = H k) ->
  exec (sdims S) (compute_tendency S t s time Replace) m (OK m1) ->
  (forall eps, exists n, ready S n /\ energy_integral S s n (Some (E eps)) /\
     holds S s n (fmap2 (A:=RA) (fun u w => u + eps * w)%R (fld s m) (fld t m1))) ->
  exists W : R, derivable_pt_lim E 0%R W /\ (W <= 0)%R.
Proof.
  intros S Hok Hdc H1 H2 Hh Hv Hf Hl t s time m m1 E H Hs Hr Hq X1 HE.
  destruct (tendency_runs (inviscid S) Hok t s time Replace m Hs Hr) as [m0 X0].
  eexists. split; [exact (C104_energy_budget_proof S Hok Hdc H1 H2 Hh Hv Hf t s time m m1 m0 E Hs Hr X1 X0 HE)|].
  change (rsum (d_nlayers (sdims S)) (fun k => work_of S s t m m1 m0 k) <= 0)%R.
  replace 0%R with (rsum (d_nlayers (sdims S)) (fun _ => 0%R)) by (apply rsum_zero; reflexivity). apply rsum_le. intros k Hk.
  assert (Hn : 0 <= 0 < d_ncells (sdims S)) by (cbn; nia).
  apply (work_uniform S Hok Hdc H1 H2 Hv Hl t s time Replace m m1 m0 Hs Hr X1 X0 k (H k) Hk); [exact (proj1 (Hq 0 k Hn Hk))|].
  intros c Hc. exact (proj2 (Hq c k Hc Hk)).
Qed.

(** A velocity and a thickness for which viscosity raises the energy: three cells in a row. *)
Definition uw (e : Z) : R := if e =? 3 then (/ 20)%R else if e =? 6 then 1%R else 0%R.
Definition qw (c : Z) : R := if c =? 0 then 2001%R else 1%R.
Lemma uw_other c j : 0 < j < 3 -> uw (3 * c + j) = 0%R.
Proof. intros Hj. unfold uw. destruct (Z.eqb_spec (3 * c + j) 3); [lia|]. destruct (Z.eqb_spec (3 * c + j) 6); [lia|reflexivity]. Qed.

Section Wit.
Context (S : setup RA) (Hok : setup_ok S) (Hdc : (0 < (dc (mesh_of_setup S) : R))%R) (H1 : 4 <= nx (mesh_of_setup S)) (H2 : 2 <= ny (mesh_of_setup S)).
Context (m : mem RA) (Hr : ready S m).
Local Notation X := (nx (mesh_of_setup S)).
Local Notation Y := (ny (mesh_of_setup S)).
Local Notation NC := (X * Y).
Local Notation d := (dc (mesh_of_setup S) : R).
Let Hm := ready_hex S Hok m Hr.

Lemma out_uw c : 0 <= c < NC -> outflow m uw c = (2 / (3 * d) * (uw (3 * nb X Y c 3) - uw (3 * c)))%R.
Proof.
  intros Hc. pose proof (outflow_eq (cfg_of S) (mesh_of_setup S) (ntracers (par_of S)) (proj1 Hok) m Hm uw c Hc) as E. rewrite E.
  rewrite rsum_small6. rewrite !(cs_closed (cfg_of S) (mesh_of_setup S) (proj1 Hok)) by lia. cbn [Z.ltb Z.compare Pos.compare Pos.compare_cont].
  unfold hE. cbn [Z.ltb Z.compare Pos.compare Pos.compare_cont]. change (3 - 3) with 0. change (4 - 3) with 1. change (5 - 3) with 2.
  rewrite !Z.add_0_r. rewrite !uw_other by lia. rewrite hdve_R, hareac_R. assert (0 < sqrt 3)%R by (apply sqrt_lt_R0; lra). cbn [F RA] in *. field. repeat split; first [lra|apply Rgt_not_eq; lra].
Qed.
Lemma vort_e c : 0 <= c < NC -> vort m uw (2 * c) = (4 / (d * sqrt 3) * uw (3 * c))%R.
Proof.
  intros Hc. unfold vort. rewrite (circ_eq (cfg_of S) (mesh_of_setup S) (ntracers (par_of S)) (proj1 Hok) m Hm uw) by lia. rewrite (hm_atri _ _ _ Hm) by lia.
  rewrite rsum_small3. rewrite !(vs_e (cfg_of S) (mesh_of_setup S) (proj1 Hok)) by lia. rewrite !heov_e. cbn [Z.eqb Pos.eqb]. rewrite !uw_other by lia. rewrite hatri_R.
  assert (0 < sqrt 3)%R by (apply sqrt_lt_R0; lra). cbn [F RA] in *. field. repeat split; first [lra|apply Rgt_not_eq; lra].
Qed.
Lemma vort_o c : 0 <= c < NC -> vort m uw (2 * c + 1) = (- (4 / (d * sqrt 3) * uw (3 * c)))%R.
Proof.
  intros Hc. unfold vort. rewrite (circ_eq (cfg_of S) (mesh_of_setup S) (ntracers (par_of S)) (proj1 Hok) m Hm uw) by lia. rewrite (hm_atri _ _ _ Hm) by lia.
  rewrite rsum_small3. rewrite !(vs_o (cfg_of S) (mesh_of_setup S) (proj1 Hok)) by lia. rewrite !heov_o. cbn [Z.eqb Pos.eqb]. rewrite !uw_other by lia. rewrite hatri_R.
  assert (0 < sqrt 3)%R by (apply sqrt_lt_R0; lra). cbn [F RA] in *. field. repeat split; first [lra|apply Rgt_not_eq; lra].
Qed.
Lemma west c : 1 <= c < X -> hcoe X Y (3 * c) 0 = c - 1 /\ hcoe X Y (3 * c) 1 = c /\ hvoe X Y (3 * c) 0 = 2 * c + 1 /\ hvoe X Y (3 * c) 1 = 2 * c.
Proof.
  intros Hc. rewrite <- (Z.add_0_r (3 * c)). rewrite !hcoe_q, !hvoe_q by lia. cbn [Z.eqb]. split; [|repeat split; reflexivity].
  unfold inb_. destruct (row0 S c ltac:(lia)) as [-> ->]. cbn [Z.add Z.eqb Pos.eqb]. unfold cix, mxc. destruct (Z.eqb_spec c 0); lia.
Qed.
Lemma east c : 0 <= c < X - 1 -> nb X Y c 3 = c + 1.
Proof.
  intros Hc. unfold nb. destruct (row0 S c ltac:(lia)) as [-> ->]. unfold ncol, nrow, cix. cbn [Z.even Z.eqb Pos.eqb orb]. unfold pxc. destruct (Z.eqb_spec c (X - 1)); lia.
Qed.
Lemma vlap_uw c : 1 <= c <= 2 -> vlap m uw (3 * c) = ((2 / 3 * (uw (3 * (c + 1)) - 2 * uw (3 * c) + uw (3 * (c - 1))) - 8 * uw (3 * c)) / (d * d))%R.
Proof.
  intros Hc. assert (Hn : c < NC) by nia. assert (He : 0 <= 3 * c < 3 * NC) by lia. destruct (west c ltac:(lia)) as (W1 & W2 & W3 & W4).
  unfold vlap, grad, rgrad. rewrite !(hm_coe _ _ _ Hm), !(hm_voe _ _ _ Hm), (hm_dce _ _ _ Hm), (hm_dve _ _ _ Hm) by lia. rewrite W1, W2, W3, W4.
  rewrite !out_uw, vort_e, vort_o by lia. assert (E2 : nb X Y c 3 = c + 1) by (destruct (Z.eq_dec c 2) as [-> |]; apply east; lia). rewrite E2, (east (c - 1)) by lia. replace (c - 1 + 1) with c by lia.
  rewrite hdve_R. assert (Q : (sqrt 3 * sqrt 3 = 3)%R) by (apply sqrt_sqrt; lra). assert (P3 : (0 < sqrt 3)%R) by (apply sqrt_lt_R0; lra). cbn [F RA] in *.
  set (r := sqrt 3) in *. set (x := uw (3 * c)). set (y := uw (3 * (c + 1))). set (z := uw (3 * (c - 1))).
  transitivity ((2 / 3 * (y - 2 * x + z) - 24 / (r * r) * x) / (d * d))%R; [|rewrite Q; field; lra]. field. repeat split; lra.
Qed.
Lemma wit_work : (0 < rsum (3 * NC) (fun e => mr m DcEdge [e] * mr m DvEdge [e] * (emean m qw e * uw e) * vlap m uw e))%R.
Proof.
  assert (B : 6 < NC) by nia.
  set (w := (mr m DcEdge [3%Z] * mr m DvEdge [3%Z] / (d * d))%R).
  assert (Pw : (0 < w)%R) by (apply Rdiv_lt_0_compat; [apply (cb_dcdv S Hok Hdc m Hr); lia|apply Rmult_lt_0_compat; exact Hdc]).
  assert (Ew : forall e, 0 <= e < 3 * NC -> (mr m DcEdge [e] * mr m DvEdge [e] = w * (d * d))%R).
  { intros e He. unfold w. rewrite !(hm_dce _ _ _ Hm), !(hm_dve _ _ _ Hm) by lia. cbn [F RA] in *. field. lra. }
  rewrite (rsum_ext _ _ (fun e => (if e =? 3 then w * (1001 / 20 * / 5) else 0) + (if e =? 6 then w * - (93 / 10) else 0))%R).
  - rewrite rsum_plus, !rsum_at by lia. lra.
  - intros e He. rewrite Ew by assumption. unfold emean. rewrite !(hm_coe _ _ _ Hm) by lia.
    destruct (Z.eqb_spec e 3) as [-> |N3]; [|destruct (Z.eqb_spec e 6) as [-> |N6]].
    + destruct (west 1 ltac:(lia)) as (C0 & C1 & _). pose proof (vlap_uw 1 ltac:(lia)) as V. change (3 * 1) with 3 in C0, C1, V. rewrite C0, C1, V. cbn [F RA] in *. unfold uw, qw. cbn [Z.add Z.sub Z.mul Z.opp Z.pos_sub Z.eqb Pos.eqb Pos.mul Pos.add Pos.succ Z.succ_double Z.pred_double Pos.pred_double]. field. lra.
    + destruct (west 2 ltac:(lia)) as (C0 & C1 & _). pose proof (vlap_uw 2 ltac:(lia)) as V. change (3 * 2) with 6 in C0, C1, V. rewrite C0, C1, V. cbn [F RA] in *. unfold uw, qw. cbn [Z.add Z.sub Z.mul Z.opp Z.pos_sub Z.eqb Pos.eqb Pos.mul Pos.add Pos.succ Z.succ_double Z.pred_double Pos.pred_double]. field. lra.
    + assert (Z0 : uw e = 0%R) by (unfold uw; destruct (Z.eqb_spec e 3); [lia|]; destruct (Z.eqb_spec e 6); [lia|reflexivity]). rewrite Z0. cbn [F RA]. ring.
Qed.
End Wit.

Lemma C104_viscosity_dissipates_energy_refuted_proof :
  forall (S : setup RA), setup_ok S -> (0 < (dc (mesh_of_setup S) : R))%R ->
  4 <= nx (mesh_of_setup S) -> 2 <= ny (mesh_of_setup S) -> 0 < d_nlayers (sdims S) ->
  disable_h (par_of S) = false -> disable_vn (par_of S) = false -> hook S = None ->
  (0 < (visc_del2 (par_of S) : R))%R -> ((visc_del4 (par_of S) : R) <= 0)%R ->
  exists m : mem RA, ready S m /\ (forall s c k, (1 <= mr m (HCell s) [c; k])%R) /\ (forall s e k, (0 <= mr m (VnEdge s) [e; k] <= 1)%R) /\
  forall (t s : sid) (time : R) (m1 : mem RA) (E : R -> R), s <> t ->
  exec (sdims S) (compute_tendency S t s time Replace) m (OK m1) ->
  (forall eps, exists n, ready S n /\ energy_integral S s n (Some (E eps)) /\
     holds S s n (fmap2 (A:=RA) (fun u w => u + eps * w)%R (fld s m) (fld t m1))) ->
  exists W : R, derivable_pt_lim E 0%R W /\ (0 < W)%R.
Proof.
  intros S Hok Hdc H1 H2 HL Hh Hv Hf P2 P4. assert (H1' : 2 <= nx (mesh_of_setup S)) by lia.
  destruct (ready_any S Hok (fun _ _ => 0%R)) as (n & Rn & _).
  pose (m := Mem (A:=RA) (mi n) (fun a ix => match a, ix with HCell _, [c; k] => qw c | HCell _, _ => 1%R | VnEdge _, [e; k] => uw e | VnEdge _, _ => 0%R | a, ix => mr n a ix end)).
  assert (Hr : ready S m).
  { eapply ready_frame; [|exact Rn]. intros [a ix|a ix] Ha; [reflexivity|]. destruct a; try discriminate Ha; reflexivity. }
  exists m. split; [exact Hr|]. split; [intros s c k; cbn [m mr]; unfold qw; destruct (c =? 0); lra|].
  split; [intros s e k; cbn [m mr]; unfold uw; destruct (e =? 3); [lra|]; destruct (e =? 6); lra|].
  intros t s time m1 E Hs X1 HE.
  destruct (tendency_runs (inviscid S) Hok t s time Replace m Hs Hr) as [m0 X0].
  eexists. split; [exact (C104_energy_budget_proof S Hok Hdc H1' H2 Hh Hv Hf t s time m m1 m0 E Hs Hr X1 X0 HE)|].
  pose proof (wit_work S Hok Hdc H1 H2 m Hr) as PW.
  set (W := rsum (3 * (nx (mesh_of_setup S) * ny (mesh_of_setup S))) _) in PW.
  change (0 < rsum (d_nlayers (sdims S)) (fun k => work_of S s t m m1 m0 k))%R.
  rewrite (rsum_ext _ _ (fun _ => visc_del2 (par_of S) * W)%R).
  - rewrite rsum_const by lia. apply Rmult_lt_0_compat; [apply IZR_lt; exact HL|]. apply Rmult_lt_0_compat; assumption.
  - intros k Hk. unfold W. rewrite <- rsum_scal. unfold work_of. apply rsum_ext. intros e He.
    pose proof (visc_diff S Hok Hdc t s time Replace m m1 m0 Hs Hr Hv X1 X0 e k He Hk) as D. cbv zeta in D. rewrite D.
    rewrite (Rmax_right 0 (visc_del2 (par_of S))) by (apply Rlt_le, P2). rewrite (Rmax_left 0 (visc_del4 (par_of S))) by exact P4.
    change (fun e => mr m (VnEdge s) [e; k]) with uw. change (mr m (VnEdge s) [e; k]) with (uw e). unfold emean.
    change (mr m (HCell s) [?c; k]) with (qw c). cbn [F RA]. cbn [m mr]. field.
Qed.
