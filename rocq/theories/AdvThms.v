(** Proofs of the properties of [PropsAdv.v]. *)
From Coq Require Import ZArith Reals List Bool Lia Lra.
From Verif Require Import Arith Arrays Prog Conc Launch Mesh AuxVars Tend Model Hex HexComb RSum Spec MeshProof MeshMem MeshFacts MeshR MeshCalc Over Formulas KernBase Terms KernAux KernTend TendFn StepFn Ready Rel RelRun Relate TendVal StepVal StepRun Tableau StepThms RealTend SumParts Diag FieldInv ConsBase ConsThms SteadyThms SuperThms Diffuse DiffuseThms Deriv Stencil Taylor Sample Waves Modes DecayNum Driver DriverFn DriverThms WaveRun WaveThms Frozen Transport Cplx AdvWaves AdvRun AdvNum.
Import ListNotations.
Open Scope Z_scope.


(** The coefficients as a list. *)
Definition glist (st : stepper) : list R :=
  match st with
  | RK4 => [1; 1; 1 / 2; 1 / 6; 1 / 24]%R
  | LSRK n => if n =? 5 then [1%R; g_lsrk5 1; g_lsrk5 2; g_lsrk5 3; g_lsrk5 4; g_lsrk5 5] else if n =? 1 then [1; 1]%R else [1%R]
  end.
Lemma glist_ok st : stability_polynomial st (glist st).
Proof.
  destruct st as [|n]; cbn [stability_polynomial glist]; [reflexivity|]. split; [intros ->; reflexivity|]. split.
  - intros H1 H5. destruct (Z.eqb_spec n 5); [lia|]. destruct (Z.eqb_spec n 1); [lia|]. reflexivity.
  - intros ->. cbn [Z.eqb Pos.eqb]. pose proof g5_order as (_ & G1 & G2 & G3 & G4 & G5). exists (g_lsrk5 1), (g_lsrk5 2), (g_lsrk5 3), (g_lsrk5 4), (g_lsrk5 5). repeat split; assumption || apply G5.
Qed.
Lemma glist_cpoly st z : campl (gst st) z = cpoly (glist st) z.
Proof.
  unfold campl. assert (Z0 : cmul z (cre 0) = cre 0) by cpx.
  assert (Z1 : forall a, cadd (cre a) (cre 0) = cre a) by (intros; cpx).
  destruct st as [|n]; cbn [gst glist].
  - unfold g_rk4. cbn [cpoly]. repeat (rewrite Z0 || rewrite Z1). replace (/ 2)%R with (1 / 2)%R by field. replace (/ 6)%R with (1 / 6)%R by field. replace (/ 24)%R with (1 / 24)%R by field. reflexivity.
  - destruct (Z.eqb_spec n 5) as [->|]; [cbn [cpoly]; rewrite (proj1 g5_order); reflexivity|]. destruct (Z.eqb_spec n 1) as [->|].
    + unfold g_euler. cbn [cpoly]. repeat (rewrite Z0 || rewrite Z1). reflexivity.
    + unfold g_none. cbn [cpoly]. repeat (rewrite Z0 || rewrite Z1). reflexivity.
Qed.
Lemma glist_opoly st L dt f c : zpol L (gst st) dt f c = opoly L (glist st) dt f c.
Proof.
  unfold zpol. cbn [zpow].
  destruct st as [|n]; cbn [gst glist]; [unfold g_rk4; cbn [opoly]; field|].
  destruct (Z.eqb_spec n 5) as [->|]; [cbn [opoly]; rewrite (proj1 g5_order); ring|].
  destruct (Z.eqb_spec n 1) as [->|]; [unfold g_euler|unfold g_none]; cbn [opoly]; ring.
Qed.
Lemma zprun_fold st L (Lx : forall f g c, (forall c, f c = g c) -> L f c = L g c) steps : forall f f', (forall c, f c = f' c) -> forall c,
  zprun L (gst st) steps f c = fold_left (fun f s => opoly L (glist st) (snd s) f) steps f' c.
Proof.
  induction steps as [|s l IH]; intros f f' E c; [apply E|]. cbn [zprun fold_left]. apply IH. intros c'. rewrite glist_opoly.
  revert f f' E c'. generalize (glist st). intros g. induction g as [|a g IHg]; intros f f' E c'; [reflexivity|]. cbn [opoly]. rewrite E. do 2 f_equal. apply IHg. intros. now apply Lx.
Qed.

(** Norms of runs. *)
Lemma cgain_norm g z steps v K : (1 <= K)%R -> (forall t dt, In (t, dt) steps -> cn (campl g (cscal dt z)) <= K)%R -> (cn (cgain g z steps v) <= K ^ length steps * cn v)%R.
Proof.
  intros HK H. induction steps as [|[t dt] l IH]; [cbn; lra|]. cbn [cgain fold_right length pow snd]. fold (cgain g z l v). rewrite cn_mul.
  rewrite Rmult_assoc. apply Rmult_le_compat; try apply cn_pos; [apply (H t); now left|]. apply IH. intros t' dt' Hi. apply (H t'). now right.
Qed.
Lemma cgain_err g z dt steps v K E : (1 <= K)%R -> (forall s, In s steps -> snd s = dt) -> fst z = 0%R ->
  (cn (campl g (cscal dt z)) <= K)%R -> (cn (cadd (campl g (cscal dt z)) (cscal (-1) (cis (dt * snd z)))) <= E)%R ->
  (cn (cadd (cgain g z steps v) (cscal (-1) (cmul (cis (INR (length steps) * (dt * snd z))) v))) <= INR (length steps) * K ^ length steps * E * cn v)%R.
Proof.
  intros HK Hs Hz HP HE. assert (E0 : (0 <= E)%R) by (eapply Rle_trans; [apply cn_pos|exact HE]).
  induction steps as [|s l IH].
  - cbn [cgain fold_right length INR pow]. rewrite Rmult_0_l. replace (cis 0) with (cre 1) by (unfold cis, cre; now rewrite cos_0, sin_0).
    replace (cadd v (cscal (-1) (cmul (cre 1) v))) with (cre 0) by cpx. unfold cn, cnorm2, cre. cbn [fst snd]. rewrite Rmult_0_l, Rplus_0_l, sqrt_0. lra.
  - cbn [cgain fold_right length]. fold (cgain g z l v). rewrite (Hs s) by now left. rewrite S_INR. set (n := length l) in *. set (y := (dt * snd z)%R) in *. set (Q := campl g (cscal dt z)) in *.
    replace ((INR n + 1) * y)%R with (y + INR n * y)%R by ring. rewrite cis_add.
    set (G := cgain g z l v) in *. set (C := cis (INR n * y)) in *.
    replace (cadd (cmul Q G) (cscal (-1) (cmul (cmul (cis y) C) v))) with (cadd (cmul Q (cadd G (cscal (-1) (cmul C v)))) (cmul (cadd Q (cscal (-1) (cis y))) (cmul C v))) by (generalize (cis y); clearbody G C Q; clear; intros; cpx).
    eapply Rle_trans; [apply cn_add|]. rewrite !cn_mul. unfold C at 2. rewrite cn_cis, Rmult_1_l.
    assert (IH' : (cn (cadd G (cscal (-1) (cmul C v))) <= INR n * K ^ n * E * cn v)%R) by (apply IH; intros; apply Hs; now right).
    assert (V0 := cn_pos v). assert (N0 := pos_INR n). assert (KN : (1 <= K ^ n)%R) by (clear - HK; induction n; cbn [pow]; [lra|rewrite <- (Rmult_1_r 1); apply Rmult_le_compat; lra]).
    cbn [pow]. set (X := cn (cadd G (cscal (-1) (cmul C v)))) in *. assert (X0 : (0 <= X)%R) by apply cn_pos.
    assert (A1 : (cn Q * X <= K * (INR n * K ^ n * E * cn v))%R) by (apply Rmult_le_compat; [apply cn_pos|exact X0|exact HP|exact IH']).
    assert (A2 : (cn (cadd Q (cscal (-1) (cis y))) * cn v <= E * cn v)%R) by (apply Rmult_le_compat_r; assumption).
    assert (A3 : (E * cn v <= K * K ^ n * (E * cn v))%R). { rewrite <- (Rmult_1_l (E * cn v)) at 1. apply Rmult_le_compat_r; [apply Rmult_le_pos; assumption|]. rewrite <- (Rmult_1_r 1). apply Rmult_le_compat; lra. }
    lra.
Qed.
Lemma loop_snd n (dt : R) : forall s, In s (loop_steps (A:=RA) n dt) -> snd s = dt.
Proof. intros s Hs. unfold loop_steps in Hs. apply in_map_iff in Hs. destruct Hs as (i & <- & _). reflexivity. Qed.
Lemma loop_len n (dt : R) : 0 <= n -> INR (length (loop_steps (A:=RA) n dt)) = IZR n.
Proof. intros Hn. unfold loop_steps. rewrite map_length. unfold zseq. rewrite map_length, seq_length, INR_IZR_INZ, Z2Nat.id by exact Hn. reflexivity. Qed.
Lemma sum_abs {T} (f g : T -> R) l : (forall x, In x l -> Rabs (f x) <= g x)%R -> (Rabs (fold_right Rplus 0 (map f l)) <= fold_right Rplus 0 (map g l))%R.
Proof.
  intros H. induction l as [|a l IH]; [cbn; rewrite Rabs_R0; lra|]. cbn [map fold_right]. eapply Rle_trans; [apply Rabs_triang|]. apply Rplus_le_compat; [apply H; now left|]. apply IH. intros. apply H. now right.
Qed.
Lemma sum_sub {T} (f g : T -> R) l : (fold_right Rplus 0 (map f l) - fold_right Rplus 0 (map g l))%R = fold_right Rplus 0%R (map (fun x => f x - g x)%R l).
Proof. induction l as [|a l IH]; [cbn; ring|]. cbn [map fold_right]. rewrite <- IH. ring. Qed.
Lemma cos_lip a b : (Rabs (cos a - cos b) <= Rabs (a - b))%R.
Proof.
  rewrite form2. destruct (sin_odd_bounds ((a - b) / 2)) as (_ & Q & _). rewrite !Rabs_mult. rewrite (Rabs_left (-2)) by lra.
  assert (H1 : (Rabs (sin ((a + b) / 2)) <= 1)%R) by (apply Rabs_le, SIN_bound).
  assert (E : (Rabs ((a - b) / 2) = Rabs (a - b) / 2)%R) by (unfold Rdiv; rewrite Rabs_mult, (Rabs_right (/ 2)) by lra; reflexivity). rewrite E in Q.
  pose proof (Rabs_pos (sin ((a + b) / 2))). pose proof (Rabs_pos (sin ((a - b) / 2))). nra.
Qed.
Lemma pow_slack x n : (0 <= x)%R -> (INR n * x < 1)%R -> ((1 + x) ^ n <= / (1 - INR n * x))%R.
Proof.
  intros Hx Hn. apply (Rmult_le_reg_r (1 - INR n * x)); [lra|]. rewrite Rinv_l by lra. clear Hn.
  induction n as [|n IH]; [cbn; lra|]. rewrite S_INR. cbn [pow].
  assert (P0 : (0 <= (1 + x) ^ n)%R) by (apply pow_le; lra). assert (N0 := pos_INR n).
  assert (Q : ((1 + x) * (1 - (INR n + 1) * x) <= 1 - INR n * x)%R) by (assert (0 <= (INR n + 1) * (x * x))%R by (apply Rmult_le_pos; [lra|apply Rle_0_sqr]); lra).
  apply (Rmult_le_compat_l ((1 + x) ^ n)) in Q; [|exact P0]. lra.
Qed.
Lemma slack_bound N : 0 <= N <= INT_MAX -> ((1 + 2 / 10 ^ 23) ^ Z.to_nat N <= 101 / 100)%R.
Proof.
  intros HN. assert (E : INR (Z.to_nat N) = IZR N) by (rewrite INR_IZR_INZ, Z2Nat.id by lia; reflexivity).
  assert (B : (0 <= IZR N <= 2147483647)%R) by (split; apply IZR_le; unfold INT_MAX in HN; lia).
  eapply Rle_trans; [apply pow_slack; [lra|rewrite E; lra]|]. rewrite E.
  replace (101 / 100)%R with (/ (100 / 101))%R by field. apply Rinv_le_contravar; lra.
Qed.

Lemma C72_frozen_flow_transport_proof :
  forall st : stepper, exists g : list R, stability_polynomial st g /\
  forall (S : setup RA), setup_ok S -> (0 < (dc (mesh_of_setup S) : R))%R -> hook S = None ->
  forall m : mem RA, ready S m -> disabled_zero S Tend m ->
  let NL := d_nlayers (sdims S) in let NC := d_ncells (sdims S) in let NE := d_nedges (sdims S) in
  (forall time : R, always (sdims S) (compute_tendency S Tend St time Replace) m (fun m' => forall k, 0 <= k < NL ->
    (forall c, 0 <= c < NC -> mr m' (HCell Tend) [c; k] = 0%R) /\ (forall e, 0 <= e < NE -> mr m' (VnEdge Tend) [e; k] = 0%R))) ->
  exists T : Z -> (Z -> R) -> Z -> R,
  (forall k a b f g c, 0 <= c < NC -> T k (fun c => a * f c + b * g c)%R c = (a * T k f c + b * T k g c)%R) /\
  (forall (time : R) (m1 : mem RA), ready S m1 -> disabled_zero S Tend m1 ->
    (forall k, 0 <= k < NL -> (forall c, 0 <= c < NC -> mr m1 (HCell St) [c; k] = mr m (HCell St) [c; k]) /\ (forall e, 0 <= e < NE -> mr m1 (VnEdge St) [e; k] = mr m (VnEdge St) [e; k])) ->
    always (sdims S) (compute_tendency S Tend St time Replace) m1 (fun m' => forall l k c, 0 <= l < ntracers (par_of S) -> 0 <= k < NL -> 0 <= c < NC ->
      mr m' (TrCell Tend) [l; c; k] = T k (fun c => mr m1 (TrCell St) [l; c; k]) c)) /\
  forall steps : list (R * R), always (sdims S) (stepper_run S st steps) m (fun m' => forall k, 0 <= k < NL ->
    (forall c, 0 <= c < NC -> mr m' (HCell St) [c; k] = mr m (HCell St) [c; k]) /\
    (forall e, 0 <= e < NE -> mr m' (VnEdge St) [e; k] = mr m (VnEdge St) [e; k]) /\
    forall l c, 0 <= l < ntracers (par_of S) -> 0 <= c < NC ->
      mr m' (TrCell St) [l; c; k] = fold_left (fun f s => opoly (T k) g (snd s) f) steps (fun c => mr m (TrCell St) [l; c; k]) c).
Proof.
  intros st. exists (glist st). split; [apply glist_ok|]. intros S Hok Hdc Hf m Hr Hz NL NC NE Hst.
  pose proof (steady_obs S Hok m Hr Hst) as Hs.
  (* the operator, restricted to the cells so that it depends on nothing else *)
  set (NCZ := nx (mesh_of_setup S) * ny (mesh_of_setup S)).
  pose (cut := fun (f : Z -> R) c => if (0 <=? c) && (c <? NCZ) then f c else 0%R).
  assert (Cut : forall f c, 0 <= c < NCZ -> cut f c = f c).
  { intros f c Hc. unfold cut. destruct (Z.leb_spec 0 c), (Z.ltb_spec c NCZ); try lia. reflexivity. }
  exists (fun k f => cut (top S m k f)).
  assert (Lx : forall k f g c, (forall c, 0 <= c < NCZ -> f c = g c) -> cut (top S m k f) c = cut (top S m k g) c).
  { intros k f g c E. unfold cut. destruct (Z.leb_spec 0 c), (Z.ltb_spec c NCZ); cbn [andb]; try reflexivity. apply (topl_ext S Hok m Hr); [exact E|split; assumption]. }
  split; [intros k a b f g c Hc; rewrite !Cut by exact Hc; now apply (topl_lin S Hok m Hr)|]. split.
  - intros time m1 Hr1 Hz1 E1. destruct (tendency_ex S Hok time (fld St m1)) as [k1 T1].
    destruct (T1 St m1 ltac:(discriminate) Hr1 (holds_fld S St m1) Hz1) as [C D]. split; [|exact D].
    intros o X. destruct (C o X) as (M & EM & Q). exists M. split; [exact EM|]. intros l k c Hl Hk Hc. destruct (Q k Hk) as (_ & _ & Q3). rewrite Q3 by assumption.
    rewrite Cut by exact Hc.
    destruct (frozen_tend S Hok Hdc m Hr Hf time (fld St m1) k1 Hz Hs E1 T1 k Hk) as (_ & _ & F3). exact (F3 l c Hl Hc).
  - intros steps. eapply always_weaken; [apply (frozen_run S Hok Hdc m Hr Hf st steps Hz Hs)|]. intros m' (_ & Q) k Hk. destruct (Q k Hk) as (Q1 & Q2 & Q3).
    repeat split; try assumption. intros l c Hl Hc. rewrite Q3 by assumption.
    rewrite <- (zprun_fold st (fun f => cut (top S m k f)) (fun f g c E => Lx k f g c (fun c _ => E c)) steps (fun c => mr m (TrCell St) [l; c; k]) _ (fun _ => eq_refl)).
    assert (G : forall g f f', (forall c, 0 <= c < NCZ -> f c = f' c) -> forall c, 0 <= c < NCZ -> zprun (top S m k) g steps f c = zprun (fun f => cut (top S m k f)) g steps f' c).
    { clear - Lx Cut Hok Hr. intros g. induction steps as [|s l IH]; intros f f' E c Hc; [now apply E|]. cbn [zprun fold_left]. apply IH; [|exact Hc]. intros c0 Hc0.
      assert (W : forall n c, 0 <= c < NCZ -> zpow (top S m k) n f c = zpow (fun f => cut (top S m k f)) n f' c).
      { induction n as [|n IHn]; [exact E|]. intros c1 Hc1. cbn [zpow]. rewrite Cut by exact Hc1. apply (topl_ext S Hok m Hr); assumption. }
      unfold zpol. rewrite !W by exact Hc0. rewrite E by exact Hc0. reflexivity. }
    apply G; [reflexivity|exact Hc].
Qed.

Lemma C73_waves_in_a_uniform_flow_proof :
  forall st : stepper, exists g : list R, stability_polynomial st g /\
  forall (S : setup RA), setup_ok S -> (0 < (dc (mesh_of_setup S) : R))%R -> 2 <= nx (mesh_of_setup S) -> Z.even (ny (mesh_of_setup S)) = true ->
  hook S = None -> f0 (par_of S) = 0%R \/ disable_vn (par_of S) = true ->
  forall (H U V : R) (ws : Z -> list (R * R * (Z * Z))) (steps : list (R * R)), H <> 0%R ->
  let d := (dc (mesh_of_setup S) : R) in
  let amp (w : R * R * (Z * Z)) := fst (fst w) in
  let k1 (w : R * R * (Z * Z)) := (2 * PI * IZR (fst (snd w)) / period_x (mesh_of_setup S))%R in
  let k2 (w : R * R * (Z * Z)) := (2 * PI * IZR (snd (snd w)) / period_y (mesh_of_setup S))%R in
  let u w x y := (k1 w * x + k2 w * y + snd (fst w))%R in
  let Lam w := (4 / (3 * (d * d)) * (cos (d * k1 w) + cos (d / 2 * k1 w + d * (sqrt 3 / 2) * k2 w) + cos (- (d / 2) * k1 w + d * (sqrt 3 / 2) * k2 w) - 3))%R in
  let rate w := (Rmax 0 (eddy_diff2 (par_of S)) * Lam w - Rmax 0 (eddy_diff4 (par_of S)) * (Lam w * Lam w))%R in
  let om w := (2 / (3 * d) * (U * sin (d * k1 w) + (U / 2 + V * (sqrt 3 / 2)) * sin (d / 2 * k1 w + d * (sqrt 3 / 2) * k2 w)
                  + (- (U / 2) + V * (sqrt 3 / 2)) * sin (- (d / 2) * k1 w + d * (sqrt 3 / 2) * k2 w)))%R in
  let tr l x y := fold_right Rplus 0%R (map (fun w => amp w * cos (u w x y))%R (ws l)) in
  always (sdims S) (program S st (mkInitial (A:=RA) (fun _ _ => H) (fun _ _ => U) (fun _ _ => V) tr) steps) (mzero RA) (fun m' => forall k, 0 <= k < d_nlayers (sdims S) ->
    (forall c, 0 <= c < d_ncells (sdims S) -> mr m' (HCell St) [c; k] = H) /\
    (forall e, 0 <= e < d_nedges (sdims S) -> mr m' (VnEdge St) [e; k] = (U * cos (mr m' AngleEdge [e]) + V * sin (mr m' AngleEdge [e]))%R) /\
    forall l c, 0 <= l < ntracers (par_of S) -> 0 <= c < d_ncells (sdims S) -> let x := mr m' XCell [c] in let y := mr m' YCell [c] in
    mr m' (TrCell St) [l; c; k] = fold_right Rplus 0%R (map (fun w => fst (fold_right (fun s z => cmul (cpoly g (cscal (snd s) (rate w, (- om w)%R))) z)
      (amp w * cos (u w x y), amp w * sin (u w x y))%R steps)) (ws l))).
Proof.
  intros st. exists (glist st). split; [apply glist_ok|]. intros S Hok Hdc HX Hev Hf Hfv H U V ws steps H0 d amp k1 k2 u Lam rt om tr.
  eapply always_weaken; [apply (program_uni S Hok Hdc Hf HX Hev st H U V tr steps H0 Hfv)|]. cbv beta. intros m' (Hr & Q) k Hk. destruct (Q k Hk) as (Q1 & Q2 & Q3).
  split; [exact Q1|]. split; [exact Q2|]. intros l c Hl Hc x y. rewrite (Q3 l (ws l) Hl) by (try assumption; reflexivity).
  fold x y. f_equal. apply map_ext. intros w. f_equal. unfold cgain. change (pc S w x y) with (amp w * cos (u w x y), amp w * sin (u w x y))%R.
  assert (Ez : pz S U V w = (rt w, (- om w)%R)) by (unfold pz; rewrite rate_max; reflexivity). rewrite Ez. clear.
  induction steps as [|s l0 IH]; [reflexivity|]. cbn [fold_right]. rewrite glist_cpoly. f_equal. exact IH.
Qed.

Lemma C73_discrete_frequency_proof :
  forall d U V k1 k2 : R, (0 < d)%R ->
  let om := (2 / (3 * d) * (U * sin (d * k1) + (U / 2 + V * (sqrt 3 / 2)) * sin (d / 2 * k1 + d * (sqrt 3 / 2) * k2)
                  + (- (U / 2) + V * (sqrt 3 / 2)) * sin (- (d / 2) * k1 + d * (sqrt 3 / 2) * k2)))%R in
  let speed := sqrt (U * U + V * V) in let K := sqrt (k1 * k1 + k2 * k2) in
  (Rabs (om - (U * k1 + V * k2)) <= d ^ 2 / 8 * speed * K ^ 3 /\ Rabs om <= speed * K /\ Rabs om <= 4 / 3 * speed / d)%R.
Proof.
  intros d U V k1 k2 Hd om speed K. split; [|split].
  - pose proof (omeg_accuracy d U V k1 k2 Hd) as Q. unfold hyp in Q. fold speed K in Q. replace (d ^ 2 / 8 * speed * K ^ 3)%R with (d * d / 8 * (speed * (K * K * K)))%R by field. exact Q.
  - exact (omeg_le d U V k1 k2 Hd).
  - exact (omeg_cfl d U V k1 k2 Hd).
Qed.

Lemma C74_advection_is_stable_proof :
  forall (st : stepper) (lim growth : R), (st = RK4 /\ lim = 2 * sqrt 2 /\ growth = 1 \/ st = LSRK 5 /\ lim = 316 / 100 /\ growth = 1 + 2 / 10 ^ 23)%R ->
  forall (S : setup RA), setup_ok S -> (0 < (dc (mesh_of_setup S) : R))%R -> 2 <= nx (mesh_of_setup S) -> Z.even (ny (mesh_of_setup S)) = true ->
  hook S = None -> f0 (par_of S) = 0%R \/ disable_vn (par_of S) = true ->
  forall (H U V : R) (ws : Z -> list (R * R * (Z * Z))) (steps : list (R * R)), H <> 0%R ->
  ((eddy_diff2 (par_of S) : R) <= 0)%R -> ((eddy_diff4 (par_of S) : R) <= 0)%R ->
  let d := (dc (mesh_of_setup S) : R) in
  let amp (w : R * R * (Z * Z)) := fst (fst w) in
  let k1 (w : R * R * (Z * Z)) := (2 * PI * IZR (fst (snd w)) / period_x (mesh_of_setup S))%R in
  let k2 (w : R * R * (Z * Z)) := (2 * PI * IZR (snd (snd w)) / period_y (mesh_of_setup S))%R in
  let u w x y := (k1 w * x + k2 w * y + snd (fst w))%R in
  (forall t dt, In (t, dt) steps -> 0 <= dt /\ dt * (4 / 3 * sqrt (U * U + V * V) / d) <= lim)%R ->
  let tr l x y := fold_right Rplus 0%R (map (fun w => amp w * cos (u w x y))%R (ws l)) in
  always (sdims S) (program S st (mkInitial (A:=RA) (fun _ _ => H) (fun _ _ => U) (fun _ _ => V) tr) steps) (mzero RA) (fun m' =>
    forall l k c, 0 <= l < ntracers (par_of S) -> 0 <= k < d_nlayers (sdims S) -> 0 <= c < d_ncells (sdims S) ->
    (Rabs (mr m' (TrCell St) [l; c; k]) <= growth ^ length steps * fold_right Rplus 0 (map (fun w => Rabs (amp w)) (ws l)))%R).
Proof.
  intros st lim growth Hst S Hok Hdc HX Hev Hf Hfv H U V ws steps H0 Hd2 Hd4 d amp k1 k2 u Hs tr.
  eapply always_weaken; [apply (program_uni S Hok Hdc Hf HX Hev st H U V tr steps H0 Hfv)|]. cbv beta. intros m' (Hr & Q) l k c Hl Hk Hc. destruct (Q k Hk) as (_ & _ & Q3).
  rewrite (Q3 l (ws l) Hl) by (try assumption; reflexivity). set (x := mr m' XCell [c]). set (y := mr m' YCell [c]).
  replace (growth ^ length steps * fold_right Rplus 0 (map (fun w => Rabs (amp w)) (ws l)))%R with (fold_right Rplus 0 (map (fun w => growth ^ length steps * Rabs (amp w)) (ws l)))%R.
  2:{ induction (ws l) as [|w W IH]; [cbn; ring|]. cbn [map fold_right]. rewrite IH. ring. }
  apply sum_abs. intros w _. eapply Rle_trans; [apply fst_cn|].
  assert (G1 : (1 <= growth)%R) by (destruct Hst as [(_ & _ & ->)|(_ & _ & ->)]; lra).
  assert (L2 : forall z, (Rabs z <= lim -> st = RK4 /\ z * z <= 8 \/ st = LSRK 5 /\ z * z <= 10)%R).
  { intros z Hz. assert (ZZ : (z * z <= lim * lim)%R) by (rewrite <- abs_sq; apply Rmult_le_compat; try apply Rabs_pos; assumption).
    destruct Hst as [(E & -> & _)|(E & -> & _)]; [left|right]; (split; [exact E|]).
    - replace (2 * sqrt 2 * (2 * sqrt 2))%R with (4 * (sqrt 2 * sqrt 2))%R in ZZ by ring. rewrite sqrt_sqrt in ZZ by lra. lra.
    - lra. }
  replace (growth ^ length steps * Rabs (amp w))%R with (growth ^ length steps * cn (pc S w x y))%R by (unfold pc; rewrite cn_scal, cn_cis, Rmult_1_r; reflexivity).
  apply cgain_norm; [exact G1|]. intros t dt Hi. destruct (Hs t dt Hi) as [T0 T1].
  assert (Ez : pz S U V w = (0%R, (- omeg d U V (k1 w) (k2 w))%R)).
  { unfold pz. rewrite rate_max. rewrite (Rmax_left 0 (eddy_diff2 (par_of S))), (Rmax_left 0 (eddy_diff4 (par_of S))) by assumption. f_equal. ring. }
  rewrite Ez. unfold cscal. cbn [fst snd]. rewrite Rmult_0_r. set (z := (dt * - omeg d U V (k1 w) (k2 w))%R).
  assert (Hz : (Rabs z <= lim)%R).
  { unfold z. rewrite Rabs_mult, Rabs_Ropp, (Rabs_right dt) by lra. eapply Rle_trans; [|exact T1]. apply Rmult_le_compat_l; [exact T0|]. exact (omeg_cfl d U V (k1 w) (k2 w) Hdc). }
  destruct (L2 z Hz) as [[E Z2]|[E Z2]]; rewrite E; cbn [gst Z.eqb Pos.eqb].
  - eapply Rle_trans; [apply im_rk4; exact Z2|exact G1].
  - destruct Hst as [(E' & _)|(_ & _ & ->)]; [congruence|]. now apply im_lsrk5.
Qed.

Lemma C74_euler_advection_refuted_proof :
  forall (S : setup RA), setup_ok S -> (0 < (dc (mesh_of_setup S) : R))%R -> 3 <= nx (mesh_of_setup S) -> Z.even (ny (mesh_of_setup S)) = true ->
  hook S = None -> f0 (par_of S) = 0%R \/ disable_vn (par_of S) = true -> ((eddy_diff2 (par_of S) : R) <= 0)%R -> ((eddy_diff4 (par_of S) : R) <= 0)%R -> 2 <= ntracers (par_of S) ->
  forall H U A dt : R, H <> 0%R -> U <> 0%R -> A <> 0%R -> dt <> 0%R ->
  let kx x := (2 * PI / period_x (mesh_of_setup S) * x)%R in
  let tr l x (y : R) := (if l =? 0 then A * cos (kx x) else A * cos (kx x - PI / 2))%R in
  exists r : R, (1 < r)%R /\ forall N, 0 <= N ->
  always (sdims S) (program S (LSRK 1) (mkInitial (A:=RA) (fun _ _ => H) (fun _ _ => U) (fun _ _ => 0%R) tr) (loop_steps (A:=RA) N dt)) (mzero RA) (fun m' =>
    forall k c, 0 <= k < d_nlayers (sdims S) -> 0 <= c < d_ncells (sdims S) ->
    (mr m' (TrCell St) [0%Z; c; k] * mr m' (TrCell St) [0%Z; c; k] + mr m' (TrCell St) [1%Z; c; k] * mr m' (TrCell St) [1%Z; c; k] = A * A * r ^ Z.to_nat N)%R).
Proof.
  intros S Hok Hdc HX3 Hev Hf Hfv Hd2 Hd4 Hnt H U A dt H0 U0 A0 T0 kx tr. assert (HX : 2 <= nx (mesh_of_setup S)) by lia.
  set (d := (dc (mesh_of_setup S) : R)) in *. set (k1 := (2 * PI * IZR 1 / period_x (mesh_of_setup S))%R). set (k2 := (2 * PI * IZR 0 / period_y (mesh_of_setup S))%R).
  assert (K2 : k2 = 0%R) by (unfold k2, Rdiv; rewrite Rmult_0_r, Rmult_0_l; reflexivity).
  set (om := omeg d U 0 k1 k2). exists (1 + (dt * om) * (dt * om))%R.
  assert (NX : (3 <= IZR (nx (mesh_of_setup S)))%R) by now apply IZR_le.
  assert (DK : (d * k1 = 2 * PI / IZR (nx (mesh_of_setup S)))%R).
  { unfold k1, period_x. cbn [F RA fofZ fmul]. fold d. rewrite Rmult_1_r. field. split; [lra|]. assert (0 < d)%R by exact Hdc. lra. }
  assert (PP := PI_RGT_0).
  assert (B : (0 < d * k1 < PI)%R).
  { rewrite DK. split; [apply Rdiv_lt_0_compat; lra|]. apply (Rmult_lt_reg_r (IZR (nx (mesh_of_setup S)))); [lra|]. unfold Rdiv. rewrite Rmult_assoc, Rinv_l by lra. nra. }
  assert (Om : om <> 0%R).
  { unfold om, omeg. rewrite K2. replace (d / 2 * k1 + d * (sqrt 3 / 2) * 0)%R with (d * k1 / 2)%R by field. replace (- (d / 2) * k1 + d * (sqrt 3 / 2) * 0)%R with (- (d * k1 / 2))%R by field.
    rewrite sin_neg. assert (S1 : (0 < sin (d * k1))%R) by (apply sin_gt_0; lra). assert (S2 : (0 < sin (d * k1 / 2))%R) by (apply sin_gt_0; lra).
    assert (D0 : (0 < d)%R) by exact Hdc. replace (2 / (3 * d) * (U * sin (d * k1) + (U / 2 + 0 * (sqrt 3 / 2)) * sin (d * k1 / 2) + (- (U / 2) + 0 * (sqrt 3 / 2)) * - sin (d * k1 / 2)))%R
      with (U * (2 / (3 * d) * (sin (d * k1) + sin (d * k1 / 2))))%R by (field; lra).
    apply Rmult_integral_contrapositive. split; [exact U0|]. apply Rgt_not_eq. apply Rmult_lt_0_compat; [apply Rdiv_lt_0_compat; lra|lra]. }
  split. { assert (Q : (0 < (dt * om) * (dt * om))%R) by (apply Rsqr_pos_lt; apply Rmult_integral_contrapositive; split; assumption). lra. }
  intros N HN. eapply always_weaken; [apply (program_uni S Hok Hdc Hf HX Hev (LSRK 1) H U 0 tr (loop_steps (A:=RA) N dt) H0 Hfv)|]. cbv beta. intros m' (Hr & Q) k c Hk Hc. destruct (Q k Hk) as (_ & _ & Q3).
  assert (PX0 : period_x (mesh_of_setup S) <> 0%R).
  { unfold period_x. cbn [F RA fofZ fmul] in *. apply Rgt_not_eq. apply Rmult_lt_0_compat; [lra|exact Hdc]. }
  set (x := mr m' XCell [c] : R) in *. set (y := mr m' YCell [c] : R) in *.
  assert (Uk : forall p, pu S (A, p, (1, 0)) x y = (kx x + p)%R).
  { intros p. unfold pu. cbn [fst snd]. unfold kx. unfold Rdiv. rewrite !Rmult_0_r, !Rmult_0_l, Rmult_1_r. ring. }
  assert (Z1 : forall p, pz S U 0 (A, p, (1, 0)) = (0%R, (- om)%R)).
  { intros p. unfold pz. cbn [fst snd]. rewrite rate_max. rewrite (Rmax_left 0 (eddy_diff2 (par_of S))), (Rmax_left 0 (eddy_diff4 (par_of S))) by assumption. f_equal. ring. }
  assert (Pw : forall p x y, pw S (A, p, (1, 0)) x y = (A * cos (kx x + p))%R).
  { intros p x' y'. unfold pw, pu. cbn [fst snd]. f_equal. f_equal. unfold kx, Rdiv. rewrite !Rmult_0_r, !Rmult_0_l, Rmult_1_r. ring. }
  assert (T1 := Q3 0 [(A, 0%R, (1, 0))] ltac:(lia)). assert (T2 := Q3 1 [(A, (- (PI / 2))%R, (1, 0))] ltac:(lia)).
  rewrite T1, T2; try exact Hc.
  2:{ intros x' y'. cbn [map fold_right]. rewrite Pw. unfold tr. cbn [Z.eqb]. rewrite Rplus_0_r. reflexivity. }
  2:{ intros x' y'. cbn [map fold_right]. rewrite Pw. unfold tr. cbn [Z.eqb]. rewrite !Rplus_0_r. reflexivity. }
  cbn [map fold_right]. rewrite !Rplus_0_r, !Z1. fold x y.
  assert (E2 : pc S (A, (- (PI / 2))%R, (1, 0)) x y = cmul (0, -1)%R (pc S (A, 0%R, (1, 0)) x y)).
  { unfold pc. rewrite !Uk. cbn [fst]. unfold cscal, cis, cmul. cbn [fst snd]. rewrite Rplus_0_r.
    replace (kx x + - (PI / 2))%R with (- (PI / 2 - kx x))%R by ring. rewrite cos_neg, cos_shift, sin_neg, sin_shift. f_equal; ring. }
  rewrite E2. set (v := pc S (A, 0%R, (1, 0)) x y). set (z := (0%R, (- om)%R)).
  assert (Gc : forall L, cgain (gst (LSRK 1)) z L (cmul (0, -1)%R v) = cmul (0, -1)%R (cgain (gst (LSRK 1)) z L v)).
  { induction L as [|s L IH]; [reflexivity|]. cbn [cgain fold_right]. unfold cgain in IH. rewrite IH. rewrite !cmul_assoc. f_equal. apply cmul_comm. }
  rewrite Gc. set (G := cgain (gst (LSRK 1)) z (loop_steps (A:=RA) N dt) v).
  assert (En : cnorm2 G = (A * A * (1 + dt * om * (dt * om)) ^ Z.to_nat N)%R).
  { assert (Gn : forall L, (forall s, In s L -> snd s = dt) -> cnorm2 (cgain (gst (LSRK 1)) z L v) = ((1 + dt * om * (dt * om)) ^ length L * cnorm2 v)%R).
    { induction L as [|s L IH]; intros HL; [cbn; ring|]. cbn [cgain fold_right length pow]. fold (cgain (gst (LSRK 1)) z L v). rewrite cnorm2_mul, IH by (intros; apply HL; now right).
      rewrite (HL s) by now left. unfold z, cscal. cbn [fst snd gst Z.eqb Pos.eqb]. rewrite Rmult_0_r, im_euler. ring. }
    unfold G. rewrite Gn by apply loop_snd. unfold loop_steps. rewrite map_length. unfold zseq. rewrite map_length, seq_length.
    replace (cnorm2 v) with (A * A)%R; [ring|]. unfold v, pc. cbn [fst]. transitivity (A * A * cnorm2 (cis (pu S (A, 0%R, (1%Z, 0%Z)) x y)))%R; [rewrite cnorm2_cis; ring|]. unfold cnorm2, cscal. cbn [fst snd]. ring. }
  rewrite <- En. unfold cmul, cnorm2. cbn [fst snd]. ring.
Qed.

Lemma C75_uniform_advection_converges_proof :
  forall (st : stepper) (lim slack : R), (st = RK4 /\ lim = 2 * sqrt 2 /\ slack = 0 \/ st = LSRK 5 /\ lim = 316 / 100 /\ slack = 1 / 10 ^ 22)%R ->
  forall (S : setup RA), setup_ok S -> (0 < (dc (mesh_of_setup S) : R))%R -> 2 <= nx (mesh_of_setup S) -> Z.even (ny (mesh_of_setup S)) = true ->
  hook S = None -> f0 (par_of S) = 0%R \/ disable_vn (par_of S) = true -> ((eddy_diff2 (par_of S) : R) <= 0)%R -> ((eddy_diff4 (par_of S) : R) <= 0)%R ->
  forall (H U V dt : R) (N : Z) (ws : Z -> list (R * R * (Z * Z))), H <> 0%R -> 0 <= N <= INT_MAX ->
  let d := (dc (mesh_of_setup S) : R) in
  let amp (w : R * R * (Z * Z)) := fst (fst w) in
  let k1 (w : R * R * (Z * Z)) := (2 * PI * IZR (fst (snd w)) / period_x (mesh_of_setup S))%R in
  let k2 (w : R * R * (Z * Z)) := (2 * PI * IZR (snd (snd w)) / period_y (mesh_of_setup S))%R in
  let u w x y := (k1 w * x + k2 w * y + snd (fst w))%R in
  let speed := sqrt (U * U + V * V) in let K w := sqrt (k1 w * k1 w + k2 w * k2 w) in let T := (IZR N * dt)%R in
  (0 <= dt /\ dt * (4 / 3 * speed / d) <= lim)%R ->
  let exact l (t x y : R) := fold_right Rplus 0%R (map (fun w => amp w * cos (u w (x - U * t) (y - V * t)))%R (ws l)) in
  always (sdims S) (program S st (mkInitial (A:=RA) (fun _ _ => H) (fun _ _ => U) (fun _ _ => V) (fun l x y => exact l 0%R x y)) (loop_steps (A:=RA) N dt)) (mzero RA) (fun m' =>
    forall l k c, 0 <= l < ntracers (par_of S) -> 0 <= k < d_nlayers (sdims S) -> 0 <= c < d_ncells (sdims S) ->
    (Rabs (mr m' (TrCell St) [l; c; k] - exact l T (mr m' XCell [c]) (mr m' YCell [c])) <=
      fold_right Rplus 0 (map (fun w => Rabs (amp w) * (T * (d ^ 2 * speed * K w ^ 3 / 8 + dt ^ 4 * (speed * K w) ^ 5 / 100) + IZR N * slack)) (ws l)))%R).
Proof.
  intros st lim slack Hst S Hok Hdc HX Hev Hf Hfv Hd2 Hd4 H U V dt N ws H0 HN d amp k1 k2 u speed K T Hdt exact.
  assert (Hfv' := Hfv).
  eapply always_weaken; [apply (program_uni S Hok Hdc Hf HX Hev st H U V (fun l x y => exact l 0%R x y) (loop_steps (A:=RA) N dt) H0 Hfv)|]. cbv beta. intros m' (Hr & Q) l k c Hl Hk Hc. destruct (Q k Hk) as (_ & _ & Q3).
  rewrite (Q3 l (ws l) Hl); [|intros x y; unfold exact; f_equal; apply map_ext; intros w; unfold pw, u, pu; rewrite !Rmult_0_r, !Rminus_0_r; reflexivity|exact Hc].
  set (x := mr m' XCell [c] : R). set (y := mr m' YCell [c] : R). unfold exact. rewrite sum_sub. apply sum_abs. intros w _. destruct Hdt as [T0 T1].
  assert (N0 : (0 <= IZR N)%R) by (apply IZR_le; lia). assert (TT : (0 <= T)%R) by (apply Rmult_le_pos; assumption).
  assert (L2 : forall z, (Rabs z <= lim -> st = RK4 /\ z * z <= 8 \/ st = LSRK 5 /\ z * z <= 10)%R).
  { intros z Hz. assert (ZZ : (z * z <= lim * lim)%R) by (rewrite <- abs_sq; apply Rmult_le_compat; try apply Rabs_pos; assumption).
    destruct Hst as [(E & -> & _)|(E & -> & _)]; [left|right]; (split; [exact E|]).
    - replace (2 * sqrt 2 * (2 * sqrt 2))%R with (4 * (sqrt 2 * sqrt 2))%R in ZZ by ring. rewrite sqrt_sqrt in ZZ by lra. lra.
    - lra. }
  set (om := omeg d U V (k1 w) (k2 w)). set (z := (dt * - om)%R).
  assert (Ez : pz S U V w = (0%R, (- om)%R)).
  { unfold pz. rewrite rate_max. rewrite (Rmax_left 0 (eddy_diff2 (par_of S))), (Rmax_left 0 (eddy_diff4 (par_of S))) by assumption. f_equal. ring. }
  assert (Az : (Rabs z = dt * Rabs om)%R) by (unfold z; rewrite Rabs_mult, Rabs_Ropp, (Rabs_right dt) by lra; reflexivity).
  assert (Hz : (Rabs z <= lim)%R).
  { rewrite Az. eapply Rle_trans; [|exact T1]. apply Rmult_le_compat_l; [exact T0|]. exact (omeg_cfl d U V (k1 w) (k2 w) Hdc). }
  assert (Az5 : (Rabs z ^ 5 <= dt * dt ^ 4 * (speed * K w) ^ 5)%R).
  { replace (dt * dt ^ 4 * (speed * K w) ^ 5)%R with ((dt * (speed * K w)) ^ 5)%R by ring. apply pow_incr. split; [apply Rabs_pos|]. rewrite Az. apply Rmult_le_compat_l; [exact T0|]. exact (omeg_le d U V (k1 w) (k2 w) Hdc). }
  (* rotation with the discrete frequency *)
  set (v := pc S w x y). set (rot := cmul (cis (IZR N * z)) v).
  assert (Nv : cn v = Rabs (amp w)) by (unfold v, pc; rewrite cn_scal, cn_cis; apply Rmult_1_r).
  assert (E1 : (Rabs (fst (cgain (gst st) (pz S U V w) (loop_steps (A:=RA) N dt) v) - fst rot) <= Rabs (amp w) * (T * (dt ^ 4 * (speed * K w) ^ 5 / 100) + IZR N * slack))%R).
  { assert (G : exists KK EE, (1 <= KK /\ cn (campl (gst st) (cscal dt (pz S U V w))) <= KK /\ cn (cadd (campl (gst st) (cscal dt (pz S U V w))) (cscal (-1) (cis z))) <= EE /\
      IZR N * KK ^ length (loop_steps (A:=RA) N dt) * EE <= T * (dt ^ 4 * (speed * K w) ^ 5 / 100) + IZR N * slack)%R).
    { rewrite Ez. unfold cscal at 1 2. cbn [fst snd]. rewrite Rmult_0_r. fold z.
      assert (Len : length (loop_steps (A:=RA) N dt) = Z.to_nat N) by (unfold loop_steps; rewrite map_length; unfold zseq; rewrite map_length, seq_length; reflexivity).
      destruct (L2 z Hz) as [[E Z2]|[E Z2]]; rewrite E; cbn [gst Z.eqb Pos.eqb].
      - exists 1%R, (Rabs z ^ 5 / 108)%R. split; [lra|]. split; [now apply im_rk4|]. split; [now apply err_rk4|]. rewrite pow1.
        destruct Hst as [(_ & _ & ->)|(E' & _)]; [|congruence]. unfold T.
        assert (B : (Rabs z ^ 5 / 108 <= dt * (dt ^ 4 * (speed * K w) ^ 5 / 100))%R) by (assert (0 <= Rabs z ^ 5)%R by (apply pow_le, Rabs_pos); lra).
        apply (Rmult_le_compat_l (IZR N)) in B; [|exact N0]. lra.
      - exists (1 + 2 / 10 ^ 23)%R, (Rabs z ^ 5 / 108 + 2 / 10 ^ 23)%R. split; [lra|]. split; [now apply im_lsrk5|]. split; [now apply err_lsrk5|]. rewrite Len.
        destruct Hst as [(E' & _)|(_ & _ & ->)]; [congruence|]. unfold T.
        assert (Z5 : (0 <= Rabs z ^ 5)%R) by (apply pow_le, Rabs_pos).
        pose proof (slack_bound N HN) as SB. set (KN := ((1 + 2 / 10 ^ 23) ^ Z.to_nat N)%R) in *.
        assert (B : (KN * (Rabs z ^ 5 / 108 + 2 / 10 ^ 23) <= dt * (dt ^ 4 * (speed * K w) ^ 5 / 100) + 1 / 10 ^ 22)%R).
        { apply Rle_trans with (101 / 100 * (Rabs z ^ 5 / 108 + 2 / 10 ^ 23))%R; [apply Rmult_le_compat_r; lra|]. lra. }
        apply (Rmult_le_compat_l (IZR N)) in B; [|exact N0]. lra. }
    destruct G as (KK & EE & G1 & G2 & G3 & G4).
    pose proof (cgain_err (gst st) (pz S U V w) dt (loop_steps (A:=RA) N dt) v KK EE G1 (loop_snd N dt)) as W. rewrite Ez in W at 1 2 3. cbn [fst snd] in W. fold z in W.
    specialize (W eq_refl). rewrite <- Ez in W. specialize (W G2 G3). rewrite Ez in W at 2. cbn [snd] in W. fold z in W. rewrite loop_len in W by lia. fold rot in W.
    eapply Rle_trans; [|eapply Rle_trans; [exact W|]].
    - eapply Rle_trans; [|apply fst_cn]. unfold cadd, cscal. cbn [fst snd]. apply Req_le. f_equal. ring.
    - rewrite Nv, Rmult_comm. apply Rmult_le_compat_l; [apply Rabs_pos|exact G4]. }
  assert (E2 : (Rabs (fst rot - amp w * cos (u w (x - U * T) (y - V * T))) <= Rabs (amp w) * (T * (d ^ 2 * speed * K w ^ 3 / 8)))%R).
  { assert (Er : fst rot = (amp w * cos (u w x y + IZR N * z))%R).
    { unfold rot, v, pc. change (pu S w x y) with (u w x y). unfold cmul, cscal, cis. cbn [fst snd]. rewrite (Rplus_comm (u w x y)), cos_plus. unfold amp. ring. }
    rewrite Er. replace (amp w * cos (u w x y + IZR N * z) - amp w * cos (u w (x - U * T) (y - V * T)))%R with (amp w * (cos (u w x y + IZR N * z) - cos (u w (x - U * T) (y - V * T))))%R by ring.
    rewrite Rabs_mult. apply Rmult_le_compat_l; [apply Rabs_pos|]. eapply Rle_trans; [apply cos_lip|].
    replace (u w x y + IZR N * z - u w (x - U * T) (y - V * T))%R with (- (T * (om - (U * k1 w + V * k2 w))))%R by (unfold u, z, T; ring).
    rewrite Rabs_Ropp, Rabs_mult, (Rabs_right T) by lra. apply Rmult_le_compat_l; [exact TT|].
    pose proof (omeg_accuracy d U V (k1 w) (k2 w) Hdc) as A. fold om in A. unfold hyp in A. fold speed in A. change (sqrt (k1 w * k1 w + k2 w * k2 w)) with (K w) in A.
    replace (d ^ 2 * speed * K w ^ 3 / 8)%R with (d * d / 8 * (speed * (K w * K w * K w)))%R by field. exact A. }
  set (a := fst (cgain (gst st) (pz S U V w) (loop_steps (A:=RA) N dt) v)) in *.
  replace (a - amp w * cos (u w (x - U * T) (y - V * T)))%R with ((a - fst rot) + (fst rot - amp w * cos (u w (x - U * T) (y - V * T))))%R by ring.
  eapply Rle_trans; [apply Rabs_triang|]. lra.
Qed.

