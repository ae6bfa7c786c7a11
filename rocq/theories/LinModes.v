(** Small disturbances of the fluid at rest: energy along runs, potential vorticity, geostrophic balance and gravity waves. *)
From Coq Require Import ZArith Reals List Bool Lia Lra FunctionalExtensionality.
From Verif Require Import Arith Arrays Prog Conc Launch Mesh AuxVars Tend Model Hex HexComb RSum Spec MeshProof MeshMem MeshFacts MeshR MeshCalc Ready RealTend SumParts Vort Driver Cplx Modes AdvThms LinStep LinSpec LinRun LinNorm LinEnergy.
Import ListNotations.
Open Scope Z_scope.

Lemma stab_head st g : stability_polynomial st g -> exists l, g = 1%R :: l.
Proof.
  destruct st as [|n]; cbn [stability_polynomial]; [intros ->; eauto|]. intros (A & B & C).
  destruct (Z.eq_dec n 1) as [E|N1]; [rewrite (A E); eauto|]. destruct (Z.eq_dec n 5) as [E|N5]; [|rewrite (B N1 N5); eauto].
  destruct (C E) as (? & ? & ? & ? & ? & _ & _ & _ & _ & _ & ->). eauto.
Qed.

(** ** Exchange of a sum over the cells of a vertex for one over the vertices of a cell *)
Section Comb.
Context (cf : config) (h : hexargs RA) (Hok : mesh_ok cf h).
Local Notation X := (nx h).
Local Notation Y := (ny h).
Local Notation NC := (nx h * ny h).
Let Hx := Hx cf h Hok.
Let Hy := Hy cf h Hok.
Lemma vertex_to_cell (F g : Z -> R) :
  rsum (2 * NC) (fun v => rsum 3 (fun s => F v * g (hcov X Y v s))%R) = rsum NC (fun c => rsum 6 (fun j => F (hV X Y c j)) * g c)%R.
Proof.
  assert (B : forall j (q : Z -> Z -> R), 2 <= j < 6 -> rsum NC (fun d => q d (inb_ X Y d j)) = rsum NC (fun c => q (nb X Y c j) c)).
  { intros j q Hj. rewrite <- (nb_bij cf h Hok j (fun d => q d (inb_ X Y d j)) Hj). apply rsum_ext. intros c Hc. now rewrite (inb_nb X Y Hx) by lia. }
  rewrite rsum_split2 by (pose proof Hx; pose proof Hy; nia).
  rewrite (rsum_ext NC _ (fun d => (fun d e => F (2 * d)%Z * g e) d d + (fun d e => F (2 * d)%Z * g e) d (inb_ X Y d 2) + (fun d e => F (2 * d)%Z * g e) d (inb_ X Y d 3)
    + (fun d e => F (2 * d + 1)%Z * g e) d (inb_ X Y d 3) + (fun d e => F (2 * d + 1)%Z * g e) d (inb_ X Y d 4) + (fun d e => F (2 * d + 1)%Z * g e) d d)%R).
  2:{ intros d Hd. rewrite !rsum_small3, !hcov_e, !hcov_o. cbn [Z.eqb Pos.eqb]. lra. }
  rewrite !rsum_plus. rewrite !(B _ (fun d e => F (2 * d)%Z * g e)%R), !(B _ (fun d e => F (2 * d + 1)%Z * g e)%R) by lia. rewrite <- !rsum_plus.
  apply rsum_ext. intros c Hc. rewrite rsum_small6. unfold hV. cbn [Z.eqb Pos.eqb]. ring.
Qed.
End Comb.

Lemma hot n (f : Z -> R) e : 0 <= e < n -> rsum n (fun i => f i * (if i =? e then 1 else 0))%R = f e.
Proof.
  intros He. rewrite (rsum_ext n _ (fun i => if i =? e then f e else 0)%R) by (intros i Hi; destruct (Z.eqb_spec i e) as [->|]; ring).
  assert (G : forall n, 0 <= n -> rsum n (fun i => if i =? e then f e else 0)%R = (if e <? n then f e else 0)%R).
  { intros k Hk. pattern k. apply natlike_ind; [rewrite rsum_0; destruct (Z.ltb_spec e 0); [lia|reflexivity]| |exact Hk].
    intros j Hj IH. replace (Z.succ j) with (j + 1) by lia. rewrite rsum_succ, IH by exact Hj.
    destruct (Z.eqb_spec j e), (Z.ltb_spec e j), (Z.ltb_spec e (j + 1)); try lia; ring. }
  rewrite G by lia. destruct (Z.ltb_spec e n); [reflexivity|lia].
Qed.
Section Modes.
Context (S : setup RA) (Hok : setup_ok S) (Hdc : (0 < (dc (mesh_of_setup S) : R))%R) (m : mem RA) (Hr : ready S m).
Local Notation P := (par_of S).
Local Notation h := (mesh_of_setup S).
Local Notation D := (sdims S).
Local Notation NC := (nx h * ny h).
Local Notation NL := (d_nlayers D).
Let Hm : hexmem h NL m := ready_hex S Hok m Hr.
Let HM : mesh_ok (cfg_of S) h := proj1 Hok.
Context (H : Z -> R).
Context (V2 : vel_diff_enabled P = false) (V4 : vel_hyperdiff_enabled P = false) (N1 : 2 <= nx h) (Ev : Z.even (ny h) = true).
Let N2 : 2 <= ny h := HY S Hok Ev.
Local Notation L := (linear_swe S m H).
Local Notation V := (valid_place S).
Local Notation run := (linear_run S m H).

(** ** Energy *)
Section Energy.
Context (Hpos : forall k, 0 <= k < NL -> (0 < H k)%R) (Gpos : (0 < grav P)%R) (Hm1 : R) (HHm : forall k, 0 <= k < NL -> (H k <= Hm1)%R) (Hm0 : (0 < Hm1)%R).
Local Notation E := (disturbance_energy S m H).
Local Notation cflb dt := (Rabs dt * (sqrt (6 * grav P * Hm1) / dc h + Rabs (f0 P)) <= sqrt 8)%R.
Let Kb := ((sqrt (6 * grav P * Hm1) / dc h + Rabs (f0 P)) ^ 2)%R.
Let dot := edot S m H.
Let dext := edot_ext S m H.
Let dsym := edot_sym S m H.
Let dlin := edot_lin S m H.
Let skew := edot_skew S Hok Hdc m Hr H V2 V4 N1 N2.
Let bnd : forall f, (dot (L f) (L f) <= Kb * dot f f)%R := L_bound S Hok Hdc m Hr H Hpos Gpos V2 V4 N1 Ev Hm1 HHm Hm0.
Let dpos := edot_pos S Hok Hdc m Hr H Hpos Gpos.
Let Lext := L_ext S Hok m Hr H.

Lemma energy_rk4 dt w : cflb dt -> (E (opolyx L [1; 1; 1 / 2; 1 / 6; 1 / 24] dt w) <= E w)%R.
Proof.
  intros C. apply (cfl S Hdc) in C. rewrite !energy_dot. pose proof (rk4_stable V L dot dext dsym dlin skew Kb bnd dpos w dt C) as Q. cbv zeta in Q. unfold dot in Q. lra.
Qed.
Lemma energy_lsrk5 g dt w : stability_polynomial (LSRK 5) g -> cflb dt -> (E (opolyx L g dt w) <= (1 + 1 / 10 ^ 22) * E w)%R.
Proof.
  intros (_ & _ & G) C. destruct (G eq_refl) as (g1 & g2 & g3 & g4 & g5 & G1 & G2 & G3 & G4 & G5 & ->). clear G.
  apply (cfl S Hdc) in C. rewrite !energy_dot. pose proof (lsrk5_stable V L dot dext dsym dlin skew Kb bnd dpos w g1 g2 g3 g4 g5 dt G1 G2 G3 G4 G5 C) as Q. cbv zeta in Q. unfold dot in Q. lra.
Qed.
Lemma energy_euler dt w : (E (opolyx L [1; 1] dt w) = E w + dt ^ 2 * E (L w))%R.
Proof. rewrite !energy_dot. pose proof (euler_energy V L dot dext dsym dlin skew w dt) as Q. cbv zeta in Q. unfold dot in Q. lra. Qed.
Lemma energy_run st g steps (growth : R) : stability_polynomial st g -> (st = RK4 /\ growth = 1 \/ st = LSRK 5 /\ growth = 1 + 1 / 10 ^ 22)%R ->
  forall w, (forall t dt, In (t, dt) steps -> cflb dt) -> (E (run g steps w) <= growth ^ length steps * E w)%R.
Proof.
  intros G Hst. assert (Gr : (0 <= growth)%R) by (destruct Hst as [[_ ->]|[_ ->]]; lra). unfold linear_run. induction steps as [|[t dt] l IH]; intros w C; [cbn; lra|].
  cbn [fold_left length pow snd]. eapply Rle_trans; [apply IH; intros t' dt' Hi; apply (C t'); now right|].
  rewrite (Rmult_comm growth), Rmult_assoc. apply Rmult_le_compat_l; [now apply pow_le|].
  assert (Cd : cflb dt) by (apply (C t); now left).
  destruct Hst as [[-> ->]|[-> ->]].
  - cbn [stability_polynomial] in G. rewrite G, Rmult_1_l. now apply energy_rk4.
  - now apply energy_lsrk5.
Qed.
(** The tendency neither makes nor destroys energy. *)
Lemma energy_tendency w : edot S m H (L w) w = 0%R.
Proof. pose proof (skew w w) as Q. pose proof (dsym (L w) w). unfold dot in *. lra. Qed.
End Energy.

(** ** Potential vorticity *)
Section PV.
Context (Hn : forall k, 0 <= k < NL -> H k <> 0%R).
Local Notation q := (linear_pv S m H).
Lemma pv_ext f g v k : 0 <= v < 2 * NC -> 0 <= k < NL -> (forall p, V p -> f p = g p) -> q f v k = q g v k.
Proof.
  intros Hv Hk E. unfold linear_pv. f_equal; [|f_equal].
  - apply (vort_ext S Hok m Hr); [|exact Hv]. intros e He. apply E. split; assumption.
  - apply (hvert_ext S Hok m Hr); [|exact Hv]. intros c Hc. apply E. split; assumption.
Qed.
Lemma pv_lin a b f g v k : q (fun p => a * f p + b * g p)%R v k = (a * q f v k + b * q g v k)%R.
Proof. unfold linear_pv. rewrite (vort_lin2 m a b), (hvert_lin m a b). ring. Qed.
Lemma pv_L w v k : 0 <= v < 2 * NC -> 0 <= k < NL -> q (L w) v k = 0%R.
Proof.
  intros Hv Hk. unfold linear_pv. set (u := fun e => w (AtEdge e k)). set (eta := fun c => w (AtCell c k)).
  rewrite (vort_ext S Hok m Hr _ (fun e => f0 P * recon m u e + - grav P * grad m eta e)%R) by (try exact Hv; intros e He; cbn [linear_swe]; rewrite visc2, visc4, V2, V4; fold u eta; ring).
  rewrite vort_lin2, (vort_recon S Hok Hdc m Hr N1 N2 Ev), (vort_grad S Hok Hdc m Hr N1 Ev) by exact Hv.
  rewrite (hvert_ext S Hok m Hr (fun c => L w (AtCell c k)) (fun c => H k * (- outflow m u c) + 0 * 0)%R) by (try exact Hv; intros c Hc; cbn [linear_swe]; fold u; ring).
  rewrite (hvert_lin m (H k) 0 (fun c => - outflow m u c)%R (fun _ => 0%R)). pose proof (Hn k Hk). field. assumption.
Qed.
Lemma pv_zero g dt v k : 0 <= v < 2 * NC -> 0 <= k < NL -> forall f, q f v k = 0%R -> q (opolyx L g dt f) v k = 0%R.
Proof.
  intros Hv Hk. induction g as [|a l IH]; intros f Hq.
  - cbn [opolyx]. rewrite (pv_ext _ (fun p => 0 * f p + 0 * f p)%R) by (auto; intros; ring). rewrite pv_lin. ring.
  - cbn [opolyx]. rewrite pv_lin, Hq, IH by now apply pv_L. ring.
Qed.
Lemma pv_run st g steps w v k : stability_polynomial st g -> 0 <= v < 2 * NC -> 0 <= k < NL -> q (run g steps w) v k = q w v k.
Proof.
  intros G Hv Hk. destruct (stab_head st g G) as (l & ->). unfold linear_run. revert w. induction steps as [|s ss IH]; intros w; [reflexivity|].
  cbn [fold_left]. rewrite IH. cbn [opolyx]. rewrite pv_lin, pv_zero by (auto; now apply pv_L). ring.
Qed.
End PV.

(** ** Geostrophic balance *)
Definition vmean (psi : Z -> R) (c : Z) : R := (rsum 6 (fun j => psi (mi m VerticesOnCell [c; j])) / 6)%R.
Lemma recon_rgrad psi e : 0 <= e < 3 * NC -> recon m (rgrad m psi) e = (- grad m (vmean psi) e)%R.
Proof.
  intros He. set (g := fun i => if i =? e then 1%R else 0%R).
  pose proof (dcdv_nn S Hok Hdc m Hr e He) as Dp.
  apply Rmult_eq_reg_l with (mr m DcEdge [e] * mr m DvEdge [e])%R; [|lra].
  rewrite <- (hot (3 * NC) (fun e => mr m DcEdge [e] * mr m DvEdge [e] * recon m (rgrad m psi) e)%R e He).
  rewrite <- (hot (3 * NC) (fun e => mr m DcEdge [e] * mr m DvEdge [e] * - grad m (vmean psi) e)%R e He). fold g.
  change (rsum (3 * NC) (fun i => mr m DcEdge [i] * mr m DvEdge [i] * recon m (rgrad m psi) i * g i)%R = rsum (3 * NC) (fun i => mr m DcEdge [i] * mr m DvEdge [i] * - grad m (vmean psi) i * g i)%R).
  clearbody g.
  (* no work *)
  set (u := rgrad m psi).
  assert (Z : (rsum (3 * NC) (fun e => mr m DcEdge [e] * mr m DvEdge [e] * (recon m u e * g e + recon m g e * u e)) = 0)%R).
  { pose proof (no_work _ _ _ HM m Hm (fun e e' => u e' * g e + g e' * u e)%R) as W. cbv beta in W. rewrite <- W by (intros; ring). apply rsum_ext. intros i Hi. f_equal.
    unfold recon. rewrite !(Rmult_comm (rsum _ _)), <- !rsum_scal, <- rsum_plus. apply rsum_ext. intros j _. ring. }
  assert (Z' : (rsum (3 * NC) (fun i => mr m DcEdge [i] * mr m DvEdge [i] * recon m u i * g i) = - rsum (3 * NC) (fun i => mr m DcEdge [i] * mr m DvEdge [i] * recon m g i * u i))%R).
  { rewrite <- rsum_opp. apply Rminus_diag_uniq. rewrite <- rsum_minus, <- Z. apply rsum_ext. intros i _. ring. }
  rewrite Z'. unfold u. rewrite <- (stokes _ _ _ HM Hdc m Hm psi (recon m g)).
  (* vorticity of the reconstruction *)
  pose proof (atri_pos h Hdc) as AT. 
  rewrite (rsum_ext (2 * NC) _ (fun v => rsum 3 (fun s => psi v * (- (hareac h / 6) * outflow m g (hcov (nx h) (ny h) v s)))%R)).
  2:{ intros v Hv. pose proof (vort_recon S Hok Hdc m Hr N1 N2 Ev g v Hv) as VR. unfold vort, hvert in VR.
      rewrite (hm_atri _ _ _ Hm) in VR by exact Hv. apply (f_equal (fun x => x * hatri h)%R) in VR.
      replace (circ m (recon m g) v) with (circ m (recon m g) v / hatri h * hatri h)%R by (field; lra). rewrite VR.
      replace (rsum 3 (fun j => mr m KiteareasOnVertex [v; j] * - outflow m g (mi m CellsOnVertex [v; j])) / hatri h * hatri h)%R with (rsum 3 (fun j => mr m KiteareasOnVertex [v; j] * - outflow m g (mi m CellsOnVertex [v; j])))%R by (field; lra).
      rewrite <- rsum_scal. apply rsum_ext. intros j Hj. rewrite (hm_kite _ _ _ Hm), (hm_cov _ _ _ Hm) by assumption.
      replace (hkite h) with (hareac h / 6)%R; [ring|]. rewrite hareac_R, hkite_R. field. }
  rewrite (vertex_to_cell (cfg_of S) h HM psi (fun c => - (hareac h / 6) * outflow m g c)%R).
  rewrite (rsum_ext NC _ (fun c => - (mr m AreaCell [c] * vmean psi c * outflow m g c))%R).
  2:{ intros c Hc. rewrite (hm_area _ _ _ Hm) by exact Hc. unfold vmean. rewrite (rsum_ext 6 (fun j => psi (mi m VerticesOnCell [c; j])) (fun j => psi (hV (nx h) (ny h) c j))) by (intros j Hj; now rewrite (hm_voc _ _ _ Hm)). field. }
  rewrite rsum_opp, Ropp_involutive, (gauss _ _ _ HM Hdc m Hm (vmean psi) g N1 N2), <- rsum_opp. apply rsum_ext. intros i Hi. ring.
Qed.
Lemma balanced_L (psi : Z -> Z -> R) w : grav P <> 0%R ->
  (forall c k, 0 <= c < NC -> 0 <= k < NL -> w (AtCell c k) = (- (f0 P / grav P) * vmean (psi k) c)%R) ->
  (forall e k, 0 <= e < 3 * NC -> 0 <= k < NL -> w (AtEdge e k) = rgrad m (psi k) e) ->
  forall p, V p -> L w p = 0%R.
Proof.
  intros G Wc We p Hp. rewrite (L_ext S Hok m Hr H w (fun p => match p with AtCell c k => - (f0 P / grav P) * vmean (psi k) c | AtEdge e k => rgrad m (psi k) e end)%R).
  2:{ intros [c k|e k] [A B]; [now apply Wc|now apply We]. } 2: exact Hp.
  destruct p as [c k|e k]; destruct Hp as [Hc Hk]; cbn [linear_swe].
  - change (fun e => rgrad m (psi k) e) with (rgrad m (psi k)). rewrite (m_div_rot_grad _ _ _ HM m Hm (psi k) c N1 N2 Ev Hc). ring.
  - rewrite visc2, visc4, V2, V4. change (fun e => rgrad m (psi k) e) with (rgrad m (psi k)). rewrite recon_rgrad by exact Hc. unfold grad. field. split; [exact G|].
    rewrite (hm_dce _ _ _ Hm) by exact Hc. apply Rgt_not_eq. exact Hdc.
Qed.
Lemma steady_run st g steps w : stability_polynomial st g -> (forall p, V p -> L w p = 0%R) -> forall p, V p -> run g steps w p = w p.
Proof.
  intros G Z. destruct (stab_head st g G) as (l & ->). clear G.
  assert (O : forall l dt f p, (forall p, V p -> f p = 0%R) -> V p -> opolyx L l dt f p = 0%R).
  { clear l. induction l as [|a l IH]; intros dt f p F Hp; [reflexivity|]. cbn [opolyx]. rewrite (F p Hp), IH; [ring| |exact Hp].
    intros p' Hp'. rewrite (L_ext S Hok m Hr H f (fun p => 0 * f p + 0 * f p)%R) by (try exact Hp'; intros; rewrite F by assumption; ring). rewrite (L_lin S Hok m Hr H) by exact Hp'. ring. }
  unfold linear_run. induction steps as [|s ss IH]; intros p Hp; [reflexivity|]. cbn [fold_left].
  rewrite (opolyx_run V L (L_ext S Hok m Hr H) (1%R :: l) ss _ w); [now apply IH| |exact Hp].
  intros x Hx. cbn [opolyx]. rewrite (O l (snd s) (L w) x Z Hx). ring.
Qed.
End Modes.
