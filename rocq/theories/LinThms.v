(** Proofs of the theorems about small disturbances of the fluid at rest. *)
From Coq Require Import ZArith Reals List Bool Lia Lra FunctionalExtensionality.
From Verif Require Import Arith Arrays Prog Conc Launch Mesh AuxVars Tend Model Hex RSum Spec MeshProof MeshMem MeshR Over StepFn TendFn StepVal Ready Driver DriverFn Relate Cplx Waves Modes WaveRun WaveStab WaveThms AdvWaves AdvNum AdvThms LinStep LinSpec Tangent LinRun LinNorm LinEnergy LinModes LinWave.
Import ListNotations.
Open Scope Z_scope.

Lemma dist_fam S H m w : disturbed S H m w -> fam S (m 0%R) m /\ tan S St m (at_rest H) w.
Proof. intros (A & B & C). split; [intros x; split; [apply A|intros l Hl; now apply B]|]. intros p Hp. split; apply (C p Hp). Qed.
Lemma fam_dist S H m0 m w : fam S m0 m -> tan S St m (at_rest H) w -> disturbed S H m w.
Proof.
  intros A B. split; [intros x; apply A|]. split; [|intros p Hp; split; apply (B p Hp)].
  intros x l Hl. rewrite (proj2 (A x) l Hl). symmetry. now apply (proj2 (A 0%R)).
Qed.
Lemma dist_unique S H m w w' : disturbed S H m w -> disturbed S H m w' -> forall p, valid_place S p -> w p = w' p.
Proof. intros (_ & _ & A) (_ & _ & B) p Hp. eapply uniqueness_limite; [apply (A p Hp)|apply (B p Hp)]. Qed.
Lemma dist_ext S H m w w' : (forall p, valid_place S p -> w p = w' p) -> disturbed S H m w -> disturbed S H m w'.
Proof. intros E (A & B & C). split; [exact A|]. split; [exact B|]. intros p Hp. rewrite <- E by exact Hp. now apply C. Qed.

(** Families exist, and so do their runs. *)
Lemma mem_eq (m m' : mem RA) : meq m m' -> m = m'.
Proof. destruct m as [i1 r1], m' as [i2 r2]. intros [E1 E2]. cbn in E1, E2. f_equal; apply functional_extensionality; intros a; apply functional_extensionality; intros ix; auto. Qed.
Lemma dist_ex (S : setup RA) : setup_ok S -> forall H w, exists m, disturbed S H m w.
Proof.
  intros Hok H w. destruct (ready_any S Hok (fun _ _ => 0%R)) as (m0 & R0 & _).
  set (m := fun x => Mem (mi m0) (fun a ix => match a, ix with HCell St, [c; k] => (H k + x * w (AtCell c k))%R | VnEdge St, [e; k] => (0 + x * w (AtEdge e k))%R | _, _ => mr m0 a ix end)).
  assert (C : forall x l, const_loc l = true -> mget (m x) l = mget m0 l).
  { intros x [a ix|a ix] Hl; [reflexivity|]. destruct a; try discriminate Hl; reflexivity. }
  exists m. split; [intros x; eapply ready_frame; [apply C|exact R0]|]. split; [intros x l Hl; now rewrite !C|].
  intros [c k|e k] _; cbn [value_at at_rest mr m]; (split; [ring|apply lin_der]).
Qed.
Lemma runs_ex (S : setup RA) : setup_ok S -> forall st steps (m : R -> mem RA), (forall x, ready S (m x)) -> exists m', forall x, exec (sdims S) (stepper_run S st steps) (m x) (OK (m' x)).
Proof.
  intros Hok st steps m Hr. exists (fun x => run_fn S st steps (m x)). intros x.
  pose proof (hs_stepper_run S Hok st steps (m x) (ready_wfm S Hok _ (Hr x))) as Hs. apply hsafe_always in Hs. destruct Hs as [A [M B]].
  destruct (A _ B) as (M1 & E & HE). injection E as <-. now rewrite <- (mem_eq _ _ HE).
Qed.
Section Run.
Context (S : setup RA) (Hok : setup_ok S) (Hdc : (0 < (dc (mesh_of_setup S) : R))%R) (Hf : hook S = None) (Dh : disable_h (par_of S) = false) (Dv : disable_vn (par_of S) = false).
Lemma dist_run st H m m' w steps : (forall k, 0 <= k < d_nlayers (sdims S) -> H k <> 0%R) -> disturbed S H m w ->
  (forall x, exec (sdims S) (stepper_run S st steps) (m x) (OK (m' x))) ->
  disturbed S H m' (linear_run S (m 0%R) H (glist st) steps w) /\ forall l, const_loc l = true -> mget (m' 0%R) l = mget (m 0%R) l.
Proof.
  intros H0 Hd Hx. destruct (dist_fam S H m w Hd) as [Hfm Ht]. assert (Hr : ready S (m 0%R)) by apply Hfm.
  destruct (run_family S Hok Hdc (m 0%R) Hr H H0 Hf Dh Dv st steps w m m' Hfm Ht Hx) as [A B]. split; [exact (fam_dist S H _ m' _ A B)|].
  intros l Hl. now apply (proj2 (A 0%R)).
Qed.
Lemma dist_run_unique st H m m' w w' steps : (forall k, 0 <= k < d_nlayers (sdims S) -> H k <> 0%R) -> disturbed S H m w ->
  (forall x, exec (sdims S) (stepper_run S st steps) (m x) (OK (m' x))) -> disturbed S H m' w' ->
  forall p, valid_place S p -> w' p = linear_run S (m 0%R) H (glist st) steps w p.
Proof. intros H0 Hd Hx Hd' p Hp. destruct (dist_run st H m m' w steps H0 Hd Hx) as [A _]. exact (dist_unique S H m' _ _ Hd' A p Hp). Qed.
End Run.
(** The energy of a disturbance depends on its values at the places of the mesh only, and vanishes with them only. *)
Lemma denergy_ext S m H w w' : (forall p, valid_place S p -> w p = w' p) -> disturbance_energy S m H w = disturbance_energy S m H w'.
Proof. intros E. rewrite !energy_dot. rewrite (edot_ext S m H w w' w E), (edot_sym S m H w' w), (edot_ext S m H w w' w' E). reflexivity. Qed.
Lemma term_le n (f : Z -> R) i : (forall j, 0 <= j < n -> (0 <= f j)%R) -> 0 <= i < n -> (f i <= rsum n f)%R.
Proof.
  intros P Hi. rewrite <- (hot n f i Hi). apply rsum_le. intros j Hj. specialize (P j Hj). destruct (j =? i); lra.
Qed.
Lemma denergy_pos (S : setup RA) (Hok : setup_ok S) (Hdc : (0 < (dc (mesh_of_setup S) : R))%R) m (Hr : ready S m) H w p : (forall k, 0 <= k < d_nlayers (sdims S) -> (0 < H k)%R) -> (0 < grav (par_of S))%R ->
  valid_place S p -> w p <> 0%R -> (0 < disturbance_energy S m H w)%R.
Proof.
  intros Hp G Hv Hw. unfold disturbance_energy.
  assert (SQ : (0 < w p * w p)%R) by (destruct (Rtotal_order (w p) 0) as [A|[A|A]]; [nra|congruence|nra]).
  assert (Cn : forall k, 0 <= k < d_nlayers (sdims S) -> (0 <= grav (par_of S) * rsum (d_ncells (sdims S)) (fun c => mr m AreaCell [c] * (w (AtCell c k) * w (AtCell c k))) / 2)%R).
  { intros k Hk. apply Rmult_le_pos; [|lra]. apply Rmult_le_pos; [lra|]. apply (cells_nn S Hok Hdc m Hr (fun c => w (AtCell c k))). }
  assert (En : forall k, 0 <= k < d_nlayers (sdims S) -> (0 <= H k * rsum (d_nedges (sdims S)) (fun e => mr m DcEdge [e] * mr m DvEdge [e] * (w (AtEdge e k) * w (AtEdge e k))) / 2)%R).
  { intros k Hk. pose proof (Hp k Hk). apply Rmult_le_pos; [|lra]. apply Rmult_le_pos; [lra|]. apply (edges_nn S Hok Hdc m Hr (fun c => w (AtEdge c k))). }
  destruct p as [c k|e k]; destruct Hv as [Hc Hk].
  - eapply Rlt_le_trans; [|apply (term_le _ _ k); [|exact Hk]]; [|intros j Hj; cbv beta; specialize (Cn j Hj); specialize (En j Hj); lra].
    specialize (En k Hk). cbv beta. assert (0 < grav (par_of S) * rsum (d_ncells (sdims S)) (fun c => mr m AreaCell [c] * (w (AtCell c k) * w (AtCell c k))) / 2)%R; [|lra].
    apply Rmult_lt_0_compat; [|lra]. apply Rmult_lt_0_compat; [lra|]. pose proof (area_nn S Hok Hdc m Hr c Hc) as A.
    eapply Rlt_le_trans; [apply Rmult_lt_0_compat; [exact A|exact SQ]|]. apply (term_le _ (fun c => mr m AreaCell [c] * (w (AtCell c k) * w (AtCell c k)))%R c); [|exact Hc].
    intros j Hj. apply Rmult_le_pos; [left; now apply (area_nn S Hok Hdc m Hr)|apply Rle_0_sqr].
  - eapply Rlt_le_trans; [|apply (term_le _ _ k); [|exact Hk]]; [|intros j Hj; cbv beta; specialize (Cn j Hj); specialize (En j Hj); lra].
    specialize (Cn k Hk). cbv beta. assert (0 < H k * rsum (d_nedges (sdims S)) (fun e => mr m DcEdge [e] * mr m DvEdge [e] * (w (AtEdge e k) * w (AtEdge e k))) / 2)%R; [|lra].
    apply Rmult_lt_0_compat; [|lra]. apply Rmult_lt_0_compat; [now apply Hp|]. pose proof (dcdv_nn S Hok Hdc m Hr e Hc) as A.
    eapply Rlt_le_trans; [apply Rmult_lt_0_compat; [exact A|exact SQ]|]. apply (term_le _ (fun e => mr m DcEdge [e] * mr m DvEdge [e] * (w (AtEdge e k) * w (AtEdge e k)))%R e); [|exact Hc].
    intros j Hj. apply Rmult_le_pos; [left; now apply (dcdv_nn S Hok Hdc m Hr)|apply Rle_0_sqr].
Qed.
Lemma enabled_false (S : setup RA) : (visc_del2 (par_of S) <= 0)%R -> (visc_del4 (par_of S) <= 0)%R -> vel_diff_enabled (par_of S) = false /\ vel_hyperdiff_enabled (par_of S) = false.
Proof. intros A B. unfold vel_diff_enabled, vel_hyperdiff_enabled. cbn [flt fofZ RA]. split; apply Rltb_false || (destruct (Rlt_dec _ _); [lra|reflexivity]).
 Qed.

Lemma tends_ex (S : setup RA) : setup_ok S -> forall time (m : R -> mem RA), (forall x, ready S (m x)) -> exists m', forall x, exec (sdims S) (compute_tendency S Tend St time Replace) (m x) (OK (m' x)).
Proof.
  intros Hok time m Hr. exists (fun x => tendency_fn S Tend St time Replace (m x)). intros x.
  pose proof (rd_tendency S Hok Tend St time Replace (m x) (Hr x) ltac:(discriminate)) as Hs. apply hsafe_always in Hs. destruct Hs as [A [M B]].
  destruct (A _ B) as (M1 & E & HE). injection E as <-. now rewrite <- (mem_eq _ _ HE).
Qed.
Lemma programs_ex (S : setup RA) : setup_ok S -> forall st (I : R -> initial RA) steps, exists m', forall x, exec (sdims S) (program S st (I x) steps) (mzero RA) (OK (m' x)).
Proof.
  intros Hok st I steps. destruct (hs_constructors S Hok st) as (m0 & H1 & H2). set (m1 := stepper_fn S st (zero_fn S St m0)) in *.
  exists (fun x => run_fn S st steps (init_fn S (I x) m1)). intros x.
  assert (Hs : hsafe (sdims S) (program S st (I x) steps) (mzero RA) (fun M => meq M (run_fn S st steps (init_fn S (I x) m1)))).
  { unfold program. eapply hsafe_seq; [unfold prologue; eapply hsafe_seq; [exact H2|apply hs_init]|].
    apply hs_stepper_run; [exact Hok|]. apply ready_wfm; [exact Hok|]. exact (prologue_ready S st (I x) m0 H1). }
  apply hsafe_always in Hs. destruct Hs as [A [M B]]. destruct (A _ B) as (M1 & E & HE). injection E as <-. now rewrite <- (mem_eq _ _ HE).
Qed.
Section Prog.
Context (S : setup RA) (Hok : setup_ok S) (Hdc : (0 < (dc (mesh_of_setup S) : R))%R) (Hf : hook S = None) (Dh : disable_h (par_of S) = false) (Dv : disable_vn (par_of S) = false).
Lemma program_dist st H eta vx vy tr m' steps : H <> 0%R ->
  (forall x, exec (sdims S) (program S st (small_init H eta vx vy tr x) steps) (mzero RA) (OK (m' x))) ->
  disturbed S (fun _ => H) m' (linear_run S (m' 0%R) (fun _ => H) (glist st) steps (fun p => match p with
    | AtCell c k => eta (mr (m' 0%R) XCell [c]) (mr (m' 0%R) YCell [c])
    | AtEdge e k => (cos (mr (m' 0%R) AngleEdge [e]) * vx (mr (m' 0%R) XEdge [e]) (mr (m' 0%R) YEdge [e]) + sin (mr (m' 0%R) AngleEdge [e]) * vy (mr (m' 0%R) XEdge [e]) (mr (m' 0%R) YEdge [e]))%R end)).
Proof.
  intros H0 Hx. destruct (program_family S Hok H st steps eta vx vy tr m' Hx) as (M & X2 & FM & C & T).
  assert (CC : forall a ix, const_loc (LR a ix) = true -> mr (m' 0%R) a ix = mr (M 0%R) a ix) by (intros a ix Ha; apply mget_r; now apply C).
  assert (R' : ready S (m' 0%R)) by (eapply ready_cst; [exact C|apply FM]).
  assert (FM' : fam S (m' 0%R) M). { intros x. split; [apply FM|]. intros l Hl. rewrite (proj2 (FM x) l Hl). symmetry. now apply C. }
  destruct (run_family S Hok Hdc (m' 0%R) R' (fun _ => H) (fun _ _ => H0) Hf Dh Dv st steps _ M m' FM' T X2) as [A B].
  eapply dist_ext; [|exact (fam_dist S (fun _ => H) _ m' _ A B)].
  apply (opolyx_run (valid_place S) (linear_swe S (m' 0%R) (fun _ => H)) (L_ext S Hok (m' 0%R) R' (fun _ => H)) (glist st) steps).
  intros [c k|e k] _; rewrite !CC by reflexivity; reflexivity.
Qed.
End Prog.
Lemma not_stationary (S : setup RA) (Hok : setup_ok S) (Hdc : (0 < (dc (mesh_of_setup S) : R))%R) : (visc_del2 (par_of S) <= 0)%R -> (visc_del4 (par_of S) <= 0)%R -> 2 <= nx (mesh_of_setup S) -> Z.even (ny (mesh_of_setup S)) = true ->
  (0 < grav (par_of S))%R -> 0 < d_nlayers (sdims S) -> forall H, exists m w p, disturbed S H m w /\ valid_place S p /\ linear_swe S (m 0%R) H w p <> 0%R.
Proof.
  intros A2 A4 N1 Ev G NL H. destruct (enabled_false S A2 A4) as [V2 V4].
  set (w := fun p => match p with AtCell c k => if c =? 0 then 1%R else 0%R | AtEdge _ _ => 0%R end).
  destruct (dist_ex S Hok H w) as (m & Hd). exists m, w, (AtEdge 0 0). split; [exact Hd|].
  pose proof (MeshProof.Hy _ _ (proj1 Hok)) as Y1. assert (He : 0 <= 0 < 3 * (nx (mesh_of_setup S) * ny (mesh_of_setup S))) by nia. split; [split; [exact He|lia]|].
  pose proof (ready_hex S Hok (m 0%R) (proj1 Hd 0%R)) as Hm.
  cbn [linear_swe]. rewrite visc2, visc4, V2, V4. unfold recon. rewrite rsum_zero by (intros; unfold w; ring). unfold grad.
  rewrite !(hm_coe _ _ _ Hm), (hm_dce _ _ _ Hm) by lia. 
  assert (E1 : hcoe (nx (mesh_of_setup S)) (ny (mesh_of_setup S)) 0 1 = 0) by reflexivity.
  assert (E0 : hcoe (nx (mesh_of_setup S)) (ny (mesh_of_setup S)) 0 0 <> 0).
  { unfold hcoe, ecell. cbn [Z.eqb]. change (0 / 3) with 0. change (0 mod 3) with 0. change (3 + 0) with 3. unfold inb_. cbn [Z.eqb Pos.eqb]. unfold cix, mxc, colof, rowof. rewrite Zmod_0_l, Zdiv_0_l. cbn [Z.eqb]. lia. }
  rewrite E1. unfold w. destruct (Z.eqb_spec (hcoe (nx (mesh_of_setup S)) (ny (mesh_of_setup S)) 0 0) 0); [contradiction|]. cbn [Z.eqb].
  assert (D0 : (dc (mesh_of_setup S) : R) <> 0%R) by (apply Rgt_not_eq; exact Hdc).
  intros Q. assert (Q' : (grav (par_of S) / dc (mesh_of_setup S) = 0)%R) by (unfold Rdiv in *; lra).
  assert (0 < grav (par_of S) / dc (mesh_of_setup S))%R by (apply Rdiv_lt_0_compat; assumption). lra.
Qed.
Lemma phi_eig (S : setup RA) (Hok : setup_ok S) (Hdc : (0 < (dc (mesh_of_setup S) : R))%R) (N1 : 2 <= nx (mesh_of_setup S)) (Ev : Z.even (ny (mesh_of_setup S)) = true) m (Hr : ready S m) theta p q :
  let k1 := (2 * PI * IZR p / period_x (mesh_of_setup S))%R in let k2 := (2 * PI * IZR q / period_y (mesh_of_setup S))%R in
  let phi c := cos (k1 * mr m XCell [c] + k2 * mr m YCell [c] + theta) in
  forall c, 0 <= c < nx (mesh_of_setup S) * ny (mesh_of_setup S) -> outflow m (grad m phi) c = (lam (dc (mesh_of_setup S)) k1 k2 * phi c)%R.
Proof.
  intros k1 k2 phi. pose proof (ready_hex S Hok m Hr) as Hm.
  apply (eig_scal S Hok Hdc m Hr N1 Ev _ 1%R _ phi (eig_plane S Hok Hdc N1 Ev 1 theta p q m Hr)).
  intros c Hc. unfold phi. rewrite (hm_xc _ _ _ Hm), (hm_yc _ _ _ Hm) by exact Hc. fold k1 k2. ring.
Qed.
(** The amplitude after N steps against the exact oscillation. *)
Lemma osc_err (st : stepper) (lim slack : R) : (st = RK4 /\ lim = 2 * sqrt 2 /\ slack = 0 \/ st = LSRK 5 /\ lim = 316 / 100 /\ slack = 1 / 10 ^ 22)%R ->
  forall (om Om dt : R) (N : Z), (0 <= om <= Om)%R -> (0 <= dt)%R -> (dt * om <= lim)%R -> 0 <= N <= INT_MAX ->
  (Rabs (fst (cgain (gst st) (0, - om)%R (loop_steps (A:=RA) N dt) (1, 0)%R) - cos (om * (IZR N * dt))) <= IZR N * dt * (dt ^ 4 * Om ^ 5 / 100) + IZR N * slack)%R.
Proof.
  intros Hst om Om dt N [O0 O1] T0 T1 HN. assert (N0 : (0 <= IZR N)%R) by (apply IZR_le; lia).
  set (z := (dt * - om)%R).
  assert (Az : (Rabs z = dt * om)%R) by (unfold z; rewrite Rabs_mult, Rabs_Ropp, (Rabs_right dt), (Rabs_right om) by lra; reflexivity).
  assert (L2 : (st = RK4 /\ z * z <= 8 \/ st = LSRK 5 /\ z * z <= 10)%R).
  { assert (ZZ : (z * z <= lim * lim)%R) by (rewrite <- abs_sq; rewrite Az; apply Rmult_le_compat; try (apply Rmult_le_pos; assumption); exact T1).
    destruct Hst as [(E & -> & _)|(E & -> & _)]; [left|right]; (split; [exact E|]).
    - replace (2 * sqrt 2 * (2 * sqrt 2))%R with (4 * (sqrt 2 * sqrt 2))%R in ZZ by ring. rewrite sqrt_sqrt in ZZ by lra. lra.
    - lra. }
  assert (Az5 : (Rabs z ^ 5 <= dt * (dt ^ 4 * Om ^ 5))%R).
  { replace (dt * (dt ^ 4 * Om ^ 5))%R with ((dt * Om) ^ 5)%R by ring. apply pow_incr. split; [apply Rabs_pos|]. rewrite Az. now apply Rmult_le_compat_l. }
  assert (Z5 : (0 <= Rabs z ^ 5)%R) by (apply pow_le, Rabs_pos).
  assert (G : exists KK EE, (1 <= KK /\ cn (campl (gst st) (cscal dt (0, - om))) <= KK /\ cn (cadd (campl (gst st) (cscal dt (0, - om))) (cscal (-1) (cis z))) <= EE /\
      IZR N * KK ^ length (loop_steps (A:=RA) N dt) * EE <= IZR N * dt * (dt ^ 4 * Om ^ 5 / 100) + IZR N * slack)%R).
  { unfold cscal at 1 2. cbn [fst snd]. rewrite Rmult_0_r. fold z.
    assert (Len : length (loop_steps (A:=RA) N dt) = Z.to_nat N) by (unfold loop_steps; rewrite map_length; unfold zseq; rewrite map_length, seq_length; reflexivity).
    destruct L2 as [[E Z2]|[E Z2]]; rewrite E; cbn [gst Z.eqb Pos.eqb].
    - exists 1%R, (Rabs z ^ 5 / 108)%R. split; [lra|]. split; [now apply im_rk4|]. split; [now apply err_rk4|]. rewrite pow1.
      destruct Hst as [(_ & _ & ->)|(E' & _)]; [|congruence].
      assert (B : (Rabs z ^ 5 / 108 <= dt * (dt ^ 4 * Om ^ 5 / 100))%R) by lra.
      apply (Rmult_le_compat_l (IZR N)) in B; [|exact N0]. lra.
    - exists (1 + 2 / 10 ^ 23)%R, (Rabs z ^ 5 / 108 + 2 / 10 ^ 23)%R. split; [lra|]. split; [now apply im_lsrk5|]. split; [now apply err_lsrk5|]. rewrite Len.
      destruct Hst as [(E' & _)|(_ & _ & ->)]; [congruence|].
      pose proof (slack_bound N HN) as SB. set (KN := ((1 + 2 / 10 ^ 23) ^ Z.to_nat N)%R) in *.
      assert (B : (KN * (Rabs z ^ 5 / 108 + 2 / 10 ^ 23) <= dt * (dt ^ 4 * Om ^ 5 / 100) + 1 / 10 ^ 22)%R).
      { apply Rle_trans with (101 / 100 * (Rabs z ^ 5 / 108 + 2 / 10 ^ 23))%R; [apply Rmult_le_compat_r; lra|]. lra. }
      apply (Rmult_le_compat_l (IZR N)) in B; [|exact N0]. lra. }
  destruct G as (KK & EE & G1 & G2 & G3 & G4).
  pose proof (cgain_err (gst st) (0, - om)%R dt (loop_steps (A:=RA) N dt) (1, 0)%R KK EE G1 (loop_snd N dt) eq_refl G2 G3) as W. cbn [snd] in W. fold z in W. rewrite loop_len in W by lia.
  assert (Nv : cn (1, 0)%R = 1%R) by (unfold cn, cnorm2; cbn [fst snd]; replace (1 * 1 + 0 * 0)%R with 1%R by ring; apply sqrt_1).
  rewrite Nv, Rmult_1_r in W. eapply Rle_trans; [|eapply Rle_trans; [exact W|exact G4]].
  eapply Rle_trans; [|apply fst_cn]. apply Req_le. f_equal. unfold cadd, cscal, cmul, cis. cbn [fst snd].
  replace (IZR N * z)%R with (- (om * (IZR N * dt)))%R by (unfold z; ring). rewrite cos_neg. ring.
Qed.
Section Standing.
Context (S : setup RA) (Hok : setup_ok S) (Hdc : (0 < (dc (mesh_of_setup S) : R))%R) (Hf : hook S = None) (Dh : disable_h (par_of S) = false) (Dv : disable_vn (par_of S) = false).
Context (N1 : 2 <= nx (mesh_of_setup S)) (Ev : Z.even (ny (mesh_of_setup S)) = true) (V2 : vel_diff_enabled (par_of S) = false) (V4 : vel_hyperdiff_enabled (par_of S) = false)
  (F0 : f0 (par_of S) = 0%R) (G : (0 < grav (par_of S))%R).
Lemma standing (st : stepper) (lim slack : R) : (st = RK4 /\ lim = 2 * sqrt 2 /\ slack = 0 \/ st = LSRK 5 /\ lim = 316 / 100 /\ slack = 1 / 10 ^ 22)%R ->
  forall (H theta dt : R) (N p q : Z) (tr : Z -> R -> R -> R) (m' : R -> mem RA), (0 < H)%R -> 0 <= N <= INT_MAX ->
  let d := (dc (mesh_of_setup S) : R) in
  let k1 := (2 * PI * IZR p / period_x (mesh_of_setup S))%R in let k2 := (2 * PI * IZR q / period_y (mesh_of_setup S))%R in
  let speed := sqrt (grav (par_of S) * H) in let K := sqrt (k1 * k1 + k2 * k2) in let T := (IZR N * dt)%R in
  (0 <= dt /\ dt * (sqrt 6 * speed / d) <= lim)%R ->
  let wave X Y := cos (k1 * X + k2 * Y + theta) in
  (forall x, exec (sdims S) (program S st (mkInitial (A:=RA) (fun X Y => H + x * wave X Y)%R (fun _ _ => 0%R) (fun _ _ => 0%R) tr) (loop_steps (A:=RA) N dt)) (mzero RA) (OK (m' x))) ->
  forall k c, 0 <= k < d_nlayers (sdims S) -> 0 <= c < d_ncells (sdims S) ->
  mr (m' 0%R) (HCell St) [c; k] = H /\
  exists D, derivable_pt_lim (fun x => mr (m' x) (HCell St) [c; k]) 0 D /\
    (Rabs (D - wave (mr (m' 0%R) XCell [c]) (mr (m' 0%R) YCell [c]) * cos (speed * K * T)) <= T * (d ^ 2 * speed * K ^ 3 / 16 + dt ^ 4 * (speed * K) ^ 5 / 100) + IZR N * slack)%R.
Proof.
  intros Hst H theta dt N p q tr m' Hpos HN d k1 k2 speed K T [T0 T1] wv Hx k c Hk Hc.
  assert (Hx' : forall x, exec (sdims S) (program S st (small_init H wv (fun _ _ => 0%R) (fun _ _ => 0%R) tr x) (loop_steps (A:=RA) N dt)) (mzero RA) (OK (m' x))).
  { intros x. specialize (Hx x). replace (small_init H wv (fun _ _ => 0%R) (fun _ _ => 0%R) tr x) with (mkInitial (A:=RA) (fun X Y => H + x * wv X Y)%R (fun _ _ => 0%R) (fun _ _ => 0%R) tr); [exact Hx|].
    unfold small_init. f_equal; apply functional_extensionality; intros X; apply functional_extensionality; intros Y; ring. }
  pose proof (program_dist S Hok Hdc Hf Dh Dv st H wv (fun _ _ => 0%R) (fun _ _ => 0%R) tr m' _ ltac:(lra) Hx') as Hd.
  set (n := m' 0%R) in *. assert (Hr : ready S n) by apply Hd.
  set (phi := fun c => wv (mr n XCell [c]) (mr n YCell [c])).
  set (Lam := lam (dc (mesh_of_setup S)) k1 k2).
  assert (Hl : forall c, 0 <= c < nx (mesh_of_setup S) * ny (mesh_of_setup S) -> outflow n (grad n phi) c = (Lam * phi c)%R) by exact (phi_eig S Hok Hdc N1 Ev n Hr theta p q).
  destruct (lam_bounds (dc (mesh_of_setup S)) k1 k2 Hdc) as [[L1 L2] [L3 L4]]. fold Lam in L1, L2, L3, L4. fold d in L2, L3.
  set (gr := (grav (par_of S) : R)) in *. assert (GH : (0 < gr * H)%R) by (apply Rmult_lt_0_compat; assumption).
  set (KK := (k1 * k1 + k2 * k2)%R) in *. assert (KK0 : (0 <= KK)%R) by (unfold KK; apply Rplus_le_le_0_compat; apply Rle_0_sqr).
  assert (K0 : (0 <= K)%R) by apply sqrt_pos. assert (EK : (K * K = KK)%R) by (apply sqrt_sqrt; exact KK0).
  assert (S0 : (0 <= speed)%R) by apply sqrt_pos. assert (ES : (speed * speed = gr * H)%R) by (apply sqrt_sqrt; lra).
  set (om := sqrt (- (gr * H * Lam))).
  assert (Q0 : (0 <= - (gr * H * Lam))%R). { replace (- (gr * H * Lam))%R with (gr * H * - Lam)%R by ring. apply Rmult_le_pos; lra. }
  assert (Hom : (om * om = - (gr * H * Lam))%R) by (apply sqrt_sqrt; exact Q0). assert (O0 : (0 <= om)%R) by apply sqrt_pos.
  assert (O1 : (om <= speed * K)%R).
  { apply le_sq; [apply Rmult_le_pos; assumption|]. rewrite Hom. replace (speed * K * (speed * K))%R with (speed * speed * (K * K))%R by ring. rewrite ES, EK.
    replace (- (gr * H * Lam))%R with (gr * H * - Lam)%R by ring. apply Rmult_le_compat_l; lra. }
  assert (D0 : (0 < d)%R) by exact Hdc. assert (DD : (0 < d * d)%R) by (now apply Rmult_lt_0_compat).
  assert (O2 : (om <= sqrt 6 * speed / d)%R).
  { apply le_sq; [apply Rmult_le_pos; [apply Rmult_le_pos; [apply sqrt_pos|exact S0]|left; now apply Rinv_0_lt_compat]|]. rewrite Hom.
    replace (sqrt 6 * speed / d * (sqrt 6 * speed / d))%R with ((sqrt 6 * sqrt 6) * (speed * speed) / (d * d))%R by (field; lra). rewrite sqrt_sqrt, ES by lra.
    replace (6 * (gr * H) / (d * d))%R with (gr * H * (6 / (d * d)))%R by (field; lra).
    replace (- (gr * H * Lam))%R with (gr * H * - Lam)%R by ring. apply Rmult_le_compat_l; lra. }
  assert (Am : amp S om (1, 0)%R 1 0) by (split; cbn [fst snd]; ring).
  destruct (gw_run S Hok n Hr H V2 V4 F0 phi Lam om Hl Hom (Rgt_not_eq _ _ G) (glist st) (loop_steps (A:=RA) N dt) (1, 0)%R 1 0 Am) as (a' & b' & [A B] & E).
  rewrite fold_cgain in A.
  assert (Hd2 : disturbed S (fun _ => H) m' (gw n phi a' b')).
  { eapply dist_ext; [|exact Hd]. intros pl Hp. rewrite <- (E pl Hp).
    apply (opolyx_run (valid_place S) (linear_swe S n (fun _ => H)) (L_ext S Hok n Hr (fun _ => H)) (glist st)); [|exact Hp].
    intros [c' k'|e k'] _; cbn [gw]; [unfold phi; ring|ring]. }
  destruct Hd2 as (_ & _ & Q). destruct (Q (AtCell c k) (conj Hc Hk)) as [Q1 Q2]. cbn [value_at at_rest gw] in Q1, Q2. split; [exact Q1|]. exists (a' * phi c)%R. split; [exact Q2|].
  change (wv (mr n XCell [c]) (mr n YCell [c])) with (phi c).
  replace (a' * phi c - phi c * cos (speed * K * T))%R with (phi c * (a' - cos (speed * K * T)))%R by ring. rewrite Rabs_mult.
  assert (P1 : (Rabs (phi c) <= 1)%R) by (apply Rabs_le; apply COS_bound).
  apply Rle_trans with (1 * Rabs (a' - cos (speed * K * T)))%R; [apply Rmult_le_compat_r; [apply Rabs_pos|exact P1]|]. rewrite Rmult_1_l.
  assert (T1' : (dt * om <= lim)%R) by (eapply Rle_trans; [|exact T1]; now apply Rmult_le_compat_l).
  pose proof (osc_err st lim slack Hst om (speed * K) dt N (conj O0 O1) T0 T1' HN) as OE. rewrite <- A in OE. fold T in OE.
  assert (N0 : (0 <= IZR N)%R) by (apply IZR_le; lia). assert (TT : (0 <= T)%R) by (apply Rmult_le_pos; assumption).
  assert (FE : (Rabs (cos (om * T) - cos (speed * K * T)) <= T * (d ^ 2 * speed * K ^ 3 / 16))%R).
  { eapply Rle_trans; [apply cos_lip|]. replace (om * T - speed * K * T)%R with (- (T * (speed * K - om)))%R by ring. rewrite Rabs_Ropp, Rabs_mult, (Rabs_right T), (Rabs_right (speed * K - om)) by lra.
    apply Rmult_le_compat_l; [exact TT|]. set (Om := (speed * K)%R) in *.
    replace (d ^ 2 * speed * K ^ 3 / 16)%R with (Om * (d * d * KK / 16))%R by (rewrite <- EK; unfold Om; field).
    destruct (Req_dec Om 0) as [Z|NZ]; [rewrite Z in *; lra|]. assert (Op : (0 < Om)%R) by (assert (0 <= Om)%R by (apply Rmult_le_pos; assumption); lra).
    apply Rmult_le_reg_l with Om; [exact Op|].
    assert (D1 : ((Om - om) * (Om + om) <= Om * Om * (d * d * KK / 16))%R).
    { replace ((Om - om) * (Om + om))%R with (Om * Om - om * om)%R by ring. rewrite Hom. replace (Om * Om)%R with (gr * H * KK)%R by (rewrite <- ES, <- EK; unfold Om; ring).
      replace (gr * H * KK - - (gr * H * Lam))%R with (gr * H * (KK + Lam))%R by ring. replace (gr * H * KK * (d * d * KK / 16))%R with (gr * H * (d * d * (KK * KK) / 16))%R by field. apply Rmult_le_compat_l; lra. }
    assert (D2 : (0 <= (Om - om) * om)%R) by (apply Rmult_le_pos; lra). lra. }
  replace (a' - cos (speed * K * T))%R with ((a' - cos (om * T)) + (cos (om * T) - cos (speed * K * T)))%R by ring.
  eapply Rle_trans; [apply Rabs_triang|]. lra.
Qed.
End Standing.

Lemma C77_small_disturbances_proof :
  forall st : stepper, exists g : list R, stability_polynomial st g /\
  forall (S : setup RA), setup_ok S -> (0 < (dc (mesh_of_setup S) : R))%R -> hook S = None -> disable_h (par_of S) = false -> disable_vn (par_of S) = false ->
  forall (H : Z -> R) (m m' : R -> mem RA) (w : place -> R) (steps : list (R * R)), (forall k, 0 <= k < d_nlayers (sdims S) -> H k <> 0%R) -> disturbed S H m w ->
  (forall x, exec (sdims S) (stepper_run S st steps) (m x) (OK (m' x))) ->
  disturbed S H m' (linear_run S (m 0%R) H g steps w) /\ forall l, const_loc l = true -> mget (m' 0%R) l = mget (m 0%R) l.
Proof.
  intros st. exists (glist st). split; [apply glist_ok|]. intros S Hok Hdc Hf Dh Dv H m m' w steps H0 Hd Hx. exact (dist_run S Hok Hdc Hf Dh Dv st H m m' w steps H0 Hd Hx).
Qed.

Lemma C77_linear_tendency_proof :
  forall (S : setup RA), setup_ok S -> (0 < (dc (mesh_of_setup S) : R))%R -> hook S = None -> disable_h (par_of S) = false -> disable_vn (par_of S) = false ->
  forall (H : Z -> R) (m m' : R -> mem RA) (w : place -> R) (time : R), (forall k, 0 <= k < d_nlayers (sdims S) -> H k <> 0%R) -> disturbed S H m w ->
  (forall x, exec (sdims S) (compute_tendency S Tend St time Replace) (m x) (OK (m' x))) ->
  forall p, valid_place S p -> value_at Tend (m' 0%R) p = 0%R /\ derivable_pt_lim (fun x => value_at Tend (m' x) p) 0 (linear_swe S (m 0%R) H w p).
Proof.
  intros S Hok Hdc Hf Dh Dv H m m' w time H0 Hd Hx p Hp. destruct (dist_fam S H m w Hd) as [Hfm Ht]. assert (Hr : ready S (m 0%R)) by apply Hfm.
  pose proof (tan_replace S Hok Hdc (m 0%R) Hr H H0 Hf Dh Dv St m time w ltac:(discriminate) Hfm Ht p Hp) as T.
  assert (E : forall x, value_at Tend (tendency_fn S Tend St time Replace (m x)) p = value_at Tend (m' x) p).
  { intros x. assert (E : meq (m' x) (tendency_fn S Tend St time Replace (m x))). { eapply exec_fn; [|apply Hx]. apply rd_tendency; [exact Hok|apply Hfm|discriminate]. }
    destruct E as [_ E]. destruct p; cbn [value_at]; symmetry; apply E. }
  apply (T1_ext _ _ _ _ E) in T. exact T.
Qed.

Lemma C77_disturbed_programs_proof :
  forall st : stepper, exists g : list R, stability_polynomial st g /\
  forall (S : setup RA), setup_ok S -> (0 < (dc (mesh_of_setup S) : R))%R -> hook S = None -> disable_h (par_of S) = false -> disable_vn (par_of S) = false ->
  forall (H : R) (eta vx vy : R -> R -> R) (tr : Z -> R -> R -> R) (m' : R -> mem RA) (steps : list (R * R)), H <> 0%R ->
  (forall x, exec (sdims S) (program S st (mkInitial (A:=RA) (fun X Y => H + x * eta X Y)%R (fun X Y => x * vx X Y)%R (fun X Y => x * vy X Y)%R tr) steps) (mzero RA) (OK (m' x))) ->
  let n := m' 0%R in
  let w p := match p with
    | AtCell c k => eta (mr n XCell [c]) (mr n YCell [c])
    | AtEdge e k => (cos (mr n AngleEdge [e]) * vx (mr n XEdge [e]) (mr n YEdge [e]) + sin (mr n AngleEdge [e]) * vy (mr n XEdge [e]) (mr n YEdge [e]))%R end in
  disturbed S (fun _ => H) m' (linear_run S n (fun _ => H) g steps w).
Proof.
  intros st. exists (glist st). split; [apply glist_ok|]. intros S Hok Hdc Hf Dh Dv H eta vx vy tr m' steps H0 Hx n w.
  exact (program_dist S Hok Hdc Hf Dh Dv st H eta vx vy tr m' steps H0 Hx).
Qed.

Lemma C78_disturbances_do_not_grow_proof :
  forall (st : stepper) (growth : R), (st = RK4 /\ growth = 1 \/ st = LSRK 5 /\ growth = 1 + 1 / 10 ^ 22)%R ->
  forall (S : setup RA), setup_ok S -> (0 < (dc (mesh_of_setup S) : R))%R -> hook S = None -> disable_h (par_of S) = false -> disable_vn (par_of S) = false ->
  (visc_del2 (par_of S) <= 0)%R -> (visc_del4 (par_of S) <= 0)%R -> 2 <= nx (mesh_of_setup S) -> Z.even (ny (mesh_of_setup S)) = true -> (0 < grav (par_of S))%R ->
  forall (H : Z -> R) (Hmax : R) (m m' : R -> mem RA) (w w' : place -> R) (steps : list (R * R)), (forall k, 0 <= k < d_nlayers (sdims S) -> (0 < H k)%R) ->
  (forall k, 0 <= k < d_nlayers (sdims S) -> (H k <= Hmax)%R) -> (0 < Hmax)%R ->
  (forall t dt, In (t, dt) steps -> (Rabs dt * (sqrt (6 * grav (par_of S) * Hmax) / dc (mesh_of_setup S) + Rabs (f0 (par_of S))) <= sqrt 8)%R) ->
  disturbed S H m w -> (forall x, exec (sdims S) (stepper_run S st steps) (m x) (OK (m' x))) -> disturbed S H m' w' ->
  (disturbance_energy S (m 0%R) H w' <= growth ^ length steps * disturbance_energy S (m 0%R) H w)%R.
Proof.
  intros st growth Hst S Hok Hdc Hf Dh Dv A2 A4 N1 Ev G H Hmax m m' w w' steps Hp HM HM0 C Hd Hx Hd'. destruct (enabled_false S A2 A4) as [V2 V4].
  assert (H0 : forall k, 0 <= k < d_nlayers (sdims S) -> H k <> 0%R) by (intros k Hk; specialize (Hp k Hk); lra).
  rewrite (denergy_ext S (m 0%R) H w' (linear_run S (m 0%R) H (glist st) steps w)) by exact (dist_run_unique S Hok Hdc Hf Dh Dv st H m m' w w' steps H0 Hd Hx Hd').
  apply (energy_run S Hok Hdc (m 0%R) (proj1 Hd 0%R) H V2 V4 N1 Ev Hp G Hmax HM HM0 st (glist st) steps growth (glist_ok st) Hst w C).
Qed.

Lemma C78_one_stage_refuted_proof :
  forall (S : setup RA), setup_ok S -> (0 < (dc (mesh_of_setup S) : R))%R -> hook S = None -> disable_h (par_of S) = false -> disable_vn (par_of S) = false ->
  (visc_del2 (par_of S) <= 0)%R -> (visc_del4 (par_of S) <= 0)%R -> 2 <= nx (mesh_of_setup S) -> Z.even (ny (mesh_of_setup S)) = true -> (0 < grav (par_of S))%R ->
  forall (H : Z -> R) (m m' : R -> mem RA) (w w' : place -> R) (t dt : R), (forall k, 0 <= k < d_nlayers (sdims S) -> (0 < H k)%R) -> dt <> 0%R ->
  disturbed S H m w -> (forall x, exec (sdims S) (stepper_run S (LSRK 1) [(t, dt)]) (m x) (OK (m' x))) -> disturbed S H m' w' ->
  (exists p, valid_place S p /\ linear_swe S (m 0%R) H w p <> 0%R) ->
  (disturbance_energy S (m 0%R) H w' = disturbance_energy S (m 0%R) H w + dt ^ 2 * disturbance_energy S (m 0%R) H (linear_swe S (m 0%R) H w) /\
   disturbance_energy S (m 0%R) H w < disturbance_energy S (m 0%R) H w')%R.
Proof.
  intros S Hok Hdc Hf Dh Dv A2 A4 N1 Ev G H m m' w w' t dt Hp T0 Hd Hx Hd' (p & Vp & Np). destruct (enabled_false S A2 A4) as [V2 V4].
  assert (H0 : forall k, 0 <= k < d_nlayers (sdims S) -> H k <> 0%R) by (intros k Hk; specialize (Hp k Hk); lra).
  rewrite (denergy_ext S (m 0%R) H w' (linear_run S (m 0%R) H (glist (LSRK 1)) [(t, dt)] w)) by exact (dist_run_unique S Hok Hdc Hf Dh Dv (LSRK 1) H m m' w w' [(t, dt)] H0 Hd Hx Hd').
  unfold linear_run. cbn [glist Z.eqb Pos.eqb fold_left snd].
  pose proof (energy_euler S Hok Hdc (m 0%R) (proj1 Hd 0%R) H V2 V4 N1 Ev dt w) as E.
  pose proof (denergy_pos S Hok Hdc (m 0%R) (proj1 Hd 0%R) H (linear_swe S (m 0%R) H w) p Hp G Vp Np) as Pos.
  assert (D2 : (0 < dt ^ 2)%R) by (replace (dt ^ 2)%R with (Rsqr dt) by (unfold Rsqr; ring); apply Rsqr_pos_lt; exact T0). pose proof (Rmult_lt_0_compat _ _ D2 Pos). split; [exact E|]. rewrite E. lra.
Qed.

Lemma C79_balanced_flows_stay_proof :
  forall st : stepper,
  forall (S : setup RA), setup_ok S -> (0 < (dc (mesh_of_setup S) : R))%R -> hook S = None -> disable_h (par_of S) = false -> disable_vn (par_of S) = false ->
  (visc_del2 (par_of S) <= 0)%R -> (visc_del4 (par_of S) <= 0)%R -> 2 <= nx (mesh_of_setup S) -> Z.even (ny (mesh_of_setup S)) = true -> grav (par_of S) <> 0%R ->
  forall (H : Z -> R) (psi : Z -> Z -> R) (m m' : R -> mem RA) (w : place -> R) (steps : list (R * R)), (forall k, 0 <= k < d_nlayers (sdims S) -> H k <> 0%R) ->
  (forall c k, 0 <= c < d_ncells (sdims S) -> 0 <= k < d_nlayers (sdims S) -> w (AtCell c k) = (- (f0 (par_of S) / grav (par_of S)) * (rsum 6 (fun j => psi k (mi (m 0%R) VerticesOnCell [c; j])) / 6))%R) ->
  (forall e k, 0 <= e < d_nedges (sdims S) -> 0 <= k < d_nlayers (sdims S) ->
    w (AtEdge e k) = ((psi k (mi (m 0%R) VerticesOnEdge [e; 1%Z]) - psi k (mi (m 0%R) VerticesOnEdge [e; 0%Z])) / mr (m 0%R) DvEdge [e])%R) ->
  disturbed S H m w -> (forall x, exec (sdims S) (stepper_run S st steps) (m x) (OK (m' x))) -> disturbed S H m' w.
Proof.
  intros st S Hok Hdc Hf Dh Dv A2 A4 N1 Ev G H psi m m' w steps H0 Wc We Hd Hx. destruct (enabled_false S A2 A4) as [V2 V4].
  destruct (dist_run S Hok Hdc Hf Dh Dv st H m m' w steps H0 Hd Hx) as [A _]. eapply dist_ext; [|exact A].
  apply (steady_run S Hok (m 0%R) (proj1 Hd 0%R) H st (glist st) steps w (glist_ok st)).
  apply (balanced_L S Hok Hdc (m 0%R) (proj1 Hd 0%R) H V2 V4 N1 Ev psi w G); [exact Wc|exact We].
Qed.

Lemma C79_potential_vorticity_stays_proof :
  forall st : stepper,
  forall (S : setup RA), setup_ok S -> (0 < (dc (mesh_of_setup S) : R))%R -> hook S = None -> disable_h (par_of S) = false -> disable_vn (par_of S) = false ->
  (visc_del2 (par_of S) <= 0)%R -> (visc_del4 (par_of S) <= 0)%R -> 2 <= nx (mesh_of_setup S) -> Z.even (ny (mesh_of_setup S)) = true ->
  forall (H : Z -> R) (m m' : R -> mem RA) (w w' : place -> R) (steps : list (R * R)), (forall k, 0 <= k < d_nlayers (sdims S) -> H k <> 0%R) ->
  disturbed S H m w -> (forall x, exec (sdims S) (stepper_run S st steps) (m x) (OK (m' x))) -> disturbed S H m' w' ->
  forall v k, 0 <= v < d_nvertices (sdims S) -> 0 <= k < d_nlayers (sdims S) -> linear_pv S (m 0%R) H w' v k = linear_pv S (m 0%R) H w v k.
Proof.
  intros st S Hok Hdc Hf Dh Dv A2 A4 N1 Ev H m m' w w' steps H0 Hd Hx Hd' v k Hv Hk. destruct (enabled_false S A2 A4) as [V2 V4].
  rewrite (pv_ext S Hok (m 0%R) (proj1 Hd 0%R) H w' (linear_run S (m 0%R) H (glist st) steps w) v k Hv Hk (dist_run_unique S Hok Hdc Hf Dh Dv st H m m' w w' steps H0 Hd Hx Hd')).
  exact (pv_run S Hok Hdc (m 0%R) (proj1 Hd 0%R) H V2 V4 N1 Ev H0 st (glist st) steps w v k (glist_ok st) Hv Hk).
Qed.

Lemma C80_gravity_waves_proof :
  forall st : stepper, exists g : list R, stability_polynomial st g /\
  forall (S : setup RA), setup_ok S -> (0 < (dc (mesh_of_setup S) : R))%R -> hook S = None -> disable_h (par_of S) = false -> disable_vn (par_of S) = false ->
  (visc_del2 (par_of S) <= 0)%R -> (visc_del4 (par_of S) <= 0)%R -> 2 <= nx (mesh_of_setup S) -> Z.even (ny (mesh_of_setup S)) = true -> f0 (par_of S) = 0%R -> grav (par_of S) <> 0%R ->
  forall (H theta om : R) (p q : Z) (m m' : R -> mem RA) (z : R * R) (b : R) (steps : list (R * R)), H <> 0%R ->
  let d := (dc (mesh_of_setup S) : R) in
  let k1 := (2 * PI * IZR p / period_x (mesh_of_setup S))%R in let k2 := (2 * PI * IZR q / period_y (mesh_of_setup S))%R in
  let Lam := (4 / (3 * (d * d)) * (cos (d * k1) + cos (d / 2 * k1 + d * (sqrt 3 / 2) * k2) + cos (- (d / 2) * k1 + d * (sqrt 3 / 2) * k2) - 3))%R in
  let phi c := cos (k1 * mr (m 0%R) XCell [c] + k2 * mr (m 0%R) YCell [c] + theta) in
  let w a b pl := match pl with AtCell c k => (a * phi c)%R
    | AtEdge e k => (b * ((phi (mi (m 0%R) CellsOnEdge [e; 1%Z]) - phi (mi (m 0%R) CellsOnEdge [e; 0%Z])) / mr (m 0%R) DcEdge [e]))%R end in
  (om * om = - (grav (par_of S) * H * Lam))%R -> (om * b = grav (par_of S) * snd z)%R ->
  disturbed S (fun _ => H) m (w (fst z) b) -> (forall x, exec (sdims S) (stepper_run S st steps) (m x) (OK (m' x))) ->
  let z' := fold_left (fun z (s : R * R) => cmul (cpoly g (0, - (snd s * om))%R) z) steps z in
  exists b', (om * b' = grav (par_of S) * snd z')%R /\ disturbed S (fun _ => H) m' (w (fst z') b').
Proof.
  intros st. exists (glist st). split; [apply glist_ok|]. intros S Hok Hdc Hf Dh Dv A2 A4 N1 Ev F0 G H theta om p q m m' z b steps H0 d k1 k2 Lam phi w Hom Hb Hd Hx z'.
  destruct (enabled_false S A2 A4) as [V2 V4]. set (Hr := proj1 Hd 0%R).
  assert (Hl : forall c, 0 <= c < nx (mesh_of_setup S) * ny (mesh_of_setup S) -> outflow (m 0%R) (grad (m 0%R) phi) c = (Lam * phi c)%R) by exact (phi_eig S Hok Hdc N1 Ev (m 0%R) Hr theta p q).
  destruct (gw_run S Hok (m 0%R) Hr H V2 V4 F0 phi Lam om Hl Hom G (glist st) steps z (fst z) b (conj eq_refl Hb)) as (a' & b' & [A B] & E).
  assert (Ez : fold_left (fun z (s : R * R) => cmul (cpoly (glist st) (cscal (snd s) (0, - om)%R)) z) steps z = z').
  { unfold z'. clear. revert z. induction steps as [|s l IH]; intros z; [reflexivity|]. cbn [fold_left]. rewrite IH. do 3 f_equal. unfold cscal. cbn [fst snd]. f_equal; ring. }
  rewrite Ez in A, B. exists b'. split; [exact B|]. rewrite A in E.
  destruct (dist_run S Hok Hdc Hf Dh Dv st (fun _ => H) m m' _ steps (fun _ _ => H0) Hd Hx) as [Q _]. eapply dist_ext; [|exact Q]. exact E.
Qed.

Lemma C80_standing_waves_converge_proof :
  forall (st : stepper) (lim slack : R), (st = RK4 /\ lim = 2 * sqrt 2 /\ slack = 0 \/ st = LSRK 5 /\ lim = 316 / 100 /\ slack = 1 / 10 ^ 22)%R ->
  forall (S : setup RA), setup_ok S -> (0 < (dc (mesh_of_setup S) : R))%R -> hook S = None -> disable_h (par_of S) = false -> disable_vn (par_of S) = false ->
  (visc_del2 (par_of S) <= 0)%R -> (visc_del4 (par_of S) <= 0)%R -> 2 <= nx (mesh_of_setup S) -> Z.even (ny (mesh_of_setup S)) = true -> f0 (par_of S) = 0%R -> (0 < grav (par_of S))%R ->
  forall (H theta dt : R) (N p q : Z) (tr : Z -> R -> R -> R) (m' : R -> mem RA), (0 < H)%R -> 0 <= N <= INT_MAX ->
  let d := (dc (mesh_of_setup S) : R) in
  let k1 := (2 * PI * IZR p / period_x (mesh_of_setup S))%R in let k2 := (2 * PI * IZR q / period_y (mesh_of_setup S))%R in
  let speed := sqrt (grav (par_of S) * H) in let K := sqrt (k1 * k1 + k2 * k2) in let T := (IZR N * dt)%R in
  (0 <= dt /\ dt * (sqrt 6 * speed / d) <= lim)%R ->
  let wave X Y := cos (k1 * X + k2 * Y + theta) in
  (forall x, exec (sdims S) (program S st (mkInitial (A:=RA) (fun X Y => H + x * wave X Y)%R (fun _ _ => 0%R) (fun _ _ => 0%R) tr) (loop_steps (A:=RA) N dt)) (mzero RA) (OK (m' x))) ->
  forall k c, 0 <= k < d_nlayers (sdims S) -> 0 <= c < d_ncells (sdims S) ->
  mr (m' 0%R) (HCell St) [c; k] = H /\
  exists D, derivable_pt_lim (fun x => mr (m' x) (HCell St) [c; k]) 0 D /\
    (Rabs (D - wave (mr (m' 0%R) XCell [c]) (mr (m' 0%R) YCell [c]) * cos (speed * K * T)) <= T * (d ^ 2 * speed * K ^ 3 / 16 + dt ^ 4 * (speed * K) ^ 5 / 100) + IZR N * slack)%R.
Proof.
  intros st lim slack Hst S Hok Hdc Hf Dh Dv A2 A4 N1 Ev F0 G H theta dt N p q tr m' Hpos HN d k1 k2 speed K T Hdt wv Hx k c Hk Hc.
  exact (standing S Hok Hdc Hf Dh Dv N1 Ev (proj1 (enabled_false S A2 A4)) (proj2 (enabled_false S A2 A4)) F0 G st lim slack Hst H theta dt N p q tr m' Hpos HN Hdt Hx k c Hk Hc).
Qed.

Lemma C81_reconstruction_contracts_proof :
  forall (S : setup RA), setup_ok S -> Z.even (ny (mesh_of_setup S)) = true -> forall (m : mem RA) (u : Z -> R), ready S m ->
  let v e := rsum (mi m NedgesOnEdge [e]) (fun j => mr m WeightsOnEdge [e; j] * u (mi m EdgesOnEdge [e; j]))%R in
  (rsum (d_nedges (sdims S)) (fun e => v e * v e) <= rsum (d_nedges (sdims S)) (fun e => u e * u e))%R.
Proof.
  intros S Hok Ev m u Hr v. exact (recon_contracts (cfg_of S) (mesh_of_setup S) (ntracers (par_of S)) (proj1 Hok) m (ready_hex S Hok m Hr) Ev u).
Qed.

