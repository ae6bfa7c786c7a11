(** Proofs of the properties of [PropsHeat.v]. *)
From Coq Require Import ZArith Reals List Bool Lia Lra.
From Verif Require Import Arith Arrays Prog Conc Launch Mesh AuxVars Tend Model Hex HexComb RSum Spec MeshProof MeshMem MeshFacts MeshR MeshCalc Over Formulas KernBase Terms KernAux KernTend TendFn StepFn Ready Rel RelRun Relate TendVal StepVal StepRun Tableau StepThms RealTend SumParts Diag FieldInv ConsBase ConsThms SteadyThms SuperThms Diffuse DiffuseThms Deriv Stencil Taylor Sample Waves Modes DecayNum Driver DriverFn DriverThms WaveRun AdvThms HeatSpec HeatPlane.
Import ListNotations.
Open Scope Z_scope.

(** What the estimate needs of a stepper. *)
Definition good (g : Z -> R) (slack : R) : Prop := monotone g /\ (Rabs (g 1%Z - 1) <= slack)%R /\
  (Rabs (g 2%Z) + 2 * Rabs (g 3%Z) + 4 * Rabs (g 4%Z) + 8 * Rabs (g 5%Z) <= 11 / 10)%R.
Lemma good_rk4 : good g_rk4 0.
Proof. split; [exact mono_rk4|]. unfold g_rk4. split; [rewrite Rminus_diag_eq, Rabs_R0; lra|]. rewrite !Rabs_right; lra. Qed.
Lemma good_euler : good g_euler 0.
Proof. split; [exact mono_euler|]. unfold g_euler. split; [rewrite Rminus_diag_eq, Rabs_R0; lra|]. rewrite !Rabs_right; lra. Qed.
Lemma good_lsrk5 : good g_lsrk5 (1 / 10 ^ 25).
Proof.
  pose proof g5_order as (G0 & G1 & G2 & G3 & G4 & G5). split; [exact mono_lsrk5|]. split; [exact G1|].
  assert (Ab : forall x a, (Rabs (x - a) <= 1 / 10 ^ 25 -> 0 <= a -> Rabs x <= a + 1 / 10000)%R).
  { intros x a Ha Pa. assert (1 / 10 ^ 25 <= 1 / 10000)%R by lra. split_Rabs; lra. }
  apply Ab in G2; [|lra]. apply Ab in G3; [|lra]. apply Ab in G4; [|lra]. rewrite (Rabs_right (g_lsrk5 5)) by lra. lra.
Qed.

Section Heat.
Context (S : setup RA) (Hok : setup_ok S) (Hdc : (0 < (dc (mesh_of_setup S) : R))%R) (m : mem RA) (Hr : ready S m).
Context (HX : 2 <= nx (mesh_of_setup S)) (Hev : Z.even (ny (mesh_of_setup S)) = true) (H4 : ((eddy_diff4 (par_of S) : R) <= 0)%R) (H2 : (0 < (eddy_diff2 (par_of S) : R))%R).
Local Notation P := (par_of S).
Local Notation h := (mesh_of_setup S).
Local Notation X := (nx (mesh_of_setup S)).
Local Notation Y := (ny (mesh_of_setup S)).
Local Notation NC := (nx (mesh_of_setup S) * ny (mesh_of_setup S)).
Local Notation d := (dc (mesh_of_setup S) : R).
Local Notation avg := (avg6 X Y).
Local Notation per := (periodic (period_x h) (period_y h)).
Local Notation K := (eddy_diff2 P : R).
Let Hm := ready_hex S Hok m Hr.
Let HYY : 2 <= Y := HY S Hok Hev.
Lemma d_ne : d <> 0%R. Proof. cbn [F RA] in *. lra. Qed.
Lemma dcoef_val : dcoef S = (4 * K / (d * d))%R.
Proof. unfold dcoef. assert (En : tracer_diff_enabled P = true) by (unfold tracer_diff_enabled; cbn; destruct (Rlt_dec 0 (eddy_diff2 P)); [reflexivity|exfalso; auto]). now rewrite En. Qed.
Lemma per_hd f : per f -> per (hd d f).
Proof.
  intros HF x y. assert (E : forall x y, hd d f x y = (d * d / 4 * Ou d (Gr d f) x y)%R) by (intros; rewrite Ou_Gr by exact d_ne; field; exact d_ne).
  pose proof (per_Ou (period_x h) (period_y h) d (Gr d f) (fun q => per_Gr _ _ d f q HF)) as Q. destruct (Q x y) as [Q1 Q2].
  rewrite !E. split; f_equal; assumption.
Qed.
Lemma smp_hd f phi c : per f -> smpC h f phi -> 0 <= c < NC -> (avg phi c - phi c)%R = hd d f (hxc h c) (hyc h c).
Proof.
  intros HF Sm Hc. pose proof (smp_outflow (cfg_of S) h (ntracers P) (proj1 Hok) Hdc m Hm Hev HX (Gr d f) (grad m phi) (fun q => per_Gr _ _ d f q HF)
    (smp_grad (cfg_of S) h (ntracers P) (proj1 Hok) m Hm Hev f phi HF Sm) c Hc) as A.
  pose proof (lap_avg S Hok Hdc m Hr HX HYY phi c Hc) as B. unfold lap in B. rewrite A in B. rewrite Ou_Gr in B by exact d_ne.
  apply (Rmult_eq_reg_l (4 / (d * d))); [symmetry; exact B|]. pose proof d_ne. apply Rgt_not_eq, Rdiv_lt_0_compat; [lra|]. cbn [F RA] in *. nra.
Qed.
Lemma lpow1_smp f phi c : per f -> smpC h f phi -> 0 <= c < NC -> lpow S m 1 phi c = (dcoef S * hd d f (hxc h c) (hyc h c))%R.
Proof. intros HF Sm Hc. cbn [lpow]. rewrite (lop_avg S Hok Hdc m Hr HX HYY H4) by exact Hc. f_equal. now apply smp_hd. Qed.
Lemma lpow2_smp f phi c : per f -> smpC h f phi -> 0 <= c < NC -> lpow S m 2 phi c = (dcoef S * (dcoef S * hd d (hd d f) (hxc h c) (hyc h c)))%R.
Proof.
  intros HF Sm Hc. change (lpow S m 2 phi c) with (lop S m (lpow S m 1 phi) c). rewrite (lop_avg S Hok Hdc m Hr HX HYY H4) by exact Hc. f_equal.
  rewrite (smp_hd (fun x y => dcoef S * hd d f x y + 0 * hd d f x y)%R (lpow S m 1 phi) c); [|intros x y; destruct (per_hd f HF x y) as [E1 E2]; rewrite E1, E2; auto| |exact Hc].
  - rewrite hd_lin. ring.
  - intros c' Hc'. rewrite (lpow1_smp f) by assumption. ring.
Qed.
Lemma lop_small B f : (forall c, 0 <= c < NC -> (Rabs (f c) <= B)%R) -> forall c, 0 <= c < NC -> (Rabs (lop S m f c) <= dcoef S * (2 * B))%R.
Proof.
  intros HB c Hc. rewrite (lop_avg S Hok Hdc m Hr HX HYY H4) by exact Hc.
  assert (D0 : (0 <= dcoef S)%R) by (rewrite dcoef_val; pose proof d_ne; apply Rlt_le, Rdiv_lt_0_compat; cbn [F RA] in *; nra).
  apply abs_mul; [rewrite Rabs_right; lra|]. assert (A : (- B <= avg f c <= B)%R).
  { apply avg_bounds; try lia. intros c' Hc'. specialize (HB c' Hc'). split_Rabs; lra. }
  replace (2 * B)%R with (B + B)%R by ring. apply abs_dif; [split_Rabs; lra|now apply HB].
Qed.
Lemma lop_sub f g c : 0 <= c < NC -> lop S m (fun c => f c - g c)%R c = (lop S m f c - lop S m g c)%R.
Proof.
  intros Hc. rewrite (lop_ext S Hok Hdc m Hr HX HYY _ (fun c => 1 * f c + (-1) * g c)%R) by (try exact Hc; intros; ring).
  rewrite (lop_lin S Hok Hdc m Hr HX HYY) by exact Hc. ring.
Qed.
Lemma lpow_sub n f g c : 0 <= c < NC -> lpow S m n (fun c => f c - g c)%R c = (lpow S m n f c - lpow S m n g c)%R.
Proof.
  revert c. induction n; intros c Hc; [reflexivity|]. cbn [lpow]. rewrite (lop_ext S Hok Hdc m Hr HX HYY _ (fun c => lpow S m n f c - lpow S m n g c)%R) by assumption. now apply lop_sub.
Qed.
Lemma pol_sub g dt f f' c : 0 <= c < NC -> pol S m g dt (fun c => f c - f' c)%R c = (pol S m g dt f c - pol S m g dt f' c)%R.
Proof. intros Hc. unfold pol. rewrite !lpow_sub by exact Hc. ring. Qed.

Context (Te M : R) (D : R -> nat -> nat -> fn2) (HT : heat K Te M D) (HP : forall t, (0 <= t <= Te)%R -> per (D t 0%nat 0%nat)).
Context (g : Z -> R) (slack : R) (Hg : good g slack) (dt : R) (D0 : (0 <= dt)%R) (Dd : (4 * K * dt <= d * d)%R).
Definition at_cells (t : R) (c : Z) : R := D t 0%nat 0%nat (hxc h c) (hyc h c).
Lemma local_error t c : (0 <= t)%R -> (t + dt <= Te)%R -> 0 <= c < NC ->
  (Rabs (pol S m g dt (at_cells t) c - at_cells (t + dt) c) <= K * dt * M * (57 * d ^ 2 + 8 * slack))%R.
Proof.
  intros T0 T1 Hc. assert (Tt : (0 <= t <= Te)%R) by lra. destruct (HT t Tt) as (HD & HB & _). pose proof (HP t Tt) as Pt.
  assert (Sm : smpC h (D t 0%nat 0%nat) (at_cells t)) by (intros c' Hc'; reflexivity).
  destruct Hg as ((G0 & _) & G1 & G2). pose proof d_ne as Dn. pose proof (M_pos (D t) M HB) as M0.
  assert (Dp : (0 < d * d)%R) by (cbn [F RA] in *; nra).
  set (a := dcoef S). assert (Ea : a = (4 * K / (d * d))%R) by apply dcoef_val.
  assert (a0 : (0 <= a)%R) by (rewrite Ea; apply Rlt_le, Rdiv_lt_0_compat; [cbn [F RA] in *; lra|exact Dp]).
  assert (z1 : (0 <= a * dt <= 1)%R) by (apply (small_step S Hdc); assumption).
  set (B := (144 * K * K * M)%R). assert (B0 : (0 <= B)%R) by (unfold B; cbn [F RA] in *; repeat apply Rmult_le_pos; lra).
  assert (L2 : forall c, 0 <= c < NC -> (Rabs (lpow S m 2 (at_cells t) c) <= B)%R).
  { intros c' Hc'. rewrite (lpow2_smp (D t 0%nat 0%nat)) by assumption. fold a. apply Rle_trans with (a * (a * (9 * M * d ^ 4)))%R.
    - apply abs_mul; [rewrite Rabs_right; lra|]. apply abs_mul; [rewrite Rabs_right; lra|]. apply (hd_hd (D t) M HD HB).
    - right. rewrite Ea. unfold B. cbn [F RA] in *. field. exact Dn. }
  assert (L3 : forall c, 0 <= c < NC -> (Rabs (lpow S m 3 (at_cells t) c) <= a * (2 * B))%R) by (apply lop_small, L2).
  assert (L4 : forall c, 0 <= c < NC -> (Rabs (lpow S m 4 (at_cells t) c) <= a * (2 * (a * (2 * B))))%R) by (apply lop_small, L3).
  assert (L5 : forall c, 0 <= c < NC -> (Rabs (lpow S m 5 (at_cells t) c) <= a * (2 * (a * (2 * (a * (2 * B))))))%R) by (apply lop_small, L4).
  specialize (L2 c Hc). specialize (L3 c Hc). specialize (L4 c Hc). specialize (L5 c Hc).
  assert (E1 : lpow S m 1 (at_cells t) c = (K * (4 / (d * d) * hd d (D t 0%nat 0%nat) (hxc h c) (hyc h c)))%R).
  { rewrite (lpow1_smp (D t 0%nat 0%nat)) by assumption. fold a. rewrite Ea. cbn [F RA] in *. field. exact Dn. }
  pose proof (lap_consistent (D t) M HD HB d (hxc h c) (hyc h c) Dn) as C1. pose proof (lap_small (D t) M HD HB d (hxc h c) (hyc h c) Dn) as C2.
  pose proof (time_taylor K Te M D t dt (hxc h c) (hyc h c) HT ltac:(cbn [F RA] in *; lra) T0 D0 T1) as C3.
  unfold pol. rewrite E1, G0, Rmult_1_l. fold (at_cells (t + dt) c) in C3. fold (at_cells t c) in C3. fold (at_cells t c).
  set (Lh := (4 / (d * d) * hd d (D t 0%nat 0%nat) (hxc h c) (hyc h c))%R) in *. set (Lx := lapl (D t) (hxc h c) (hyc h c)) in *.
  set (T2 := lpow S m 2 (at_cells t) c) in *. set (T3 := lpow S m 3 (at_cells t) c) in *. set (T4 := lpow S m 4 (at_cells t) c) in *. set (T5 := lpow S m 5 (at_cells t) c) in *.
  set (u0 := at_cells t c) in *. set (u1 := at_cells (t + dt) c) in *.
  replace (u0 + g 1%Z * dt * (K * Lh) + g 2%Z * dt ^ 2 * T2 + g 3%Z * dt ^ 3 * T3 + g 4%Z * dt ^ 4 * T4 + g 5%Z * dt ^ 5 * T5 - u1)%R
    with ((K * dt) * ((g 1%Z - 1) * Lh) + (K * dt) * (Lh - Lx) - (u1 - u0 - dt * (K * Lx)) + (dt * dt) * (g 2%Z * T2 + g 3%Z * (dt * T3) + g 4%Z * (dt * dt * T4) + g 5%Z * (dt * dt * dt * T5)))%R by ring.
  assert (KD : (Rabs (K * dt) <= K * dt)%R) by (rewrite Rabs_right; [lra|]; cbn [F RA] in *; apply Rle_ge, Rmult_le_pos; lra).
  assert (DD : (Rabs (dt * dt) <= dt * dt)%R) by (rewrite Rabs_right; [lra|]; apply Rle_ge, Rmult_le_pos; lra).
  assert (Z1 : forall u w, (Rabs u <= a * (2 * w))%R -> (0 <= w)%R -> (Rabs (dt * u) <= 2 * w)%R).
  { intros u w Hu Hw. rewrite Rabs_mult, (Rabs_right dt) by lra. apply Rle_trans with (dt * (a * (2 * w)))%R; [apply Rmult_le_compat_l; assumption|]. nra. }
  assert (U3 : (Rabs (dt * T3) <= 2 * B)%R) by (now apply Z1).
  assert (U4 : (Rabs (dt * dt * T4) <= 4 * B)%R).
  { rewrite Rmult_assoc. replace (4 * B)%R with (2 * (2 * B))%R by ring. apply Z1; [|lra].
    rewrite Rabs_mult, (Rabs_right dt) by lra. apply Rle_trans with (dt * (a * (2 * (a * (2 * B)))))%R; [apply Rmult_le_compat_l; assumption|]. assert (0 <= a * (2 * B))%R by (apply Rmult_le_pos; lra). nra. }
  assert (U5 : (Rabs (dt * dt * dt * T5) <= 8 * B)%R).
  { assert (Q : (dt * (a * (2 * (a * (2 * (a * (2 * B)))))) <= a * (2 * (a * (2 * (2 * B)))))%R).
    { replace (dt * (a * (2 * (a * (2 * (a * (2 * B)))))))%R with ((a * dt) * (a * (2 * (a * (2 * (2 * B))))))%R by ring.
      rewrite <- (Rmult_1_l (a * (2 * (a * (2 * (2 * B)))))) at 2. apply Rmult_le_compat_r; [|lra]. repeat (apply Rmult_le_pos; try lra). }
    assert (V : (Rabs (dt * T5) <= a * (2 * (a * (2 * (2 * B)))))%R) by (rewrite Rabs_mult, (Rabs_right dt) by lra; eapply Rle_trans; [apply Rmult_le_compat_l; [lra|exact L5]|exact Q]).
    replace (dt * dt * dt * T5)%R with (dt * (dt * (dt * T5)))%R by ring. replace (8 * B)%R with (2 * (2 * (2 * B)))%R by ring. apply Z1; [|lra].
    rewrite Rabs_mult, (Rabs_right dt) by lra. apply Rle_trans with (dt * (a * (2 * (a * (2 * (2 * B))))))%R; [apply Rmult_le_compat_l; assumption|].
    assert (0 <= a * (2 * (2 * B)))%R by (apply Rmult_le_pos; lra). nra. }
  assert (W : (Rabs (g 2%Z * T2 + g 3%Z * (dt * T3) + g 4%Z * (dt * dt * T4) + g 5%Z * (dt * dt * dt * T5)) <= 11 / 10 * B)%R).
  { eapply Rle_trans; [apply abs_sum; [apply abs_sum; [apply abs_sum|]|]; [apply abs_mul; [apply Rle_refl|exact L2]|apply abs_mul; [apply Rle_refl|exact U3]|apply abs_mul; [apply Rle_refl|exact U4]|apply abs_mul; [apply Rle_refl|exact U5]]|].
    replace (Rabs (g 2%Z) * B + Rabs (g 3%Z) * (2 * B) + Rabs (g 4%Z) * (4 * B) + Rabs (g 5%Z) * (8 * B))%R with ((Rabs (g 2%Z) + 2 * Rabs (g 3%Z) + 4 * Rabs (g 4%Z) + 8 * Rabs (g 5%Z)) * B)%R by ring.
    apply Rmult_le_compat_r; assumption. }
  eapply Rle_trans; [apply abs_sum; [apply abs_dif; [apply abs_sum|exact C3]|apply abs_mul; [exact DD|exact W]]|].
  - apply abs_mul; [exact KD|apply abs_mul; [exact G1|exact C2]].
  - apply abs_mul; [exact KD|exact C1].
  - unfold B. cbn [F RA] in *. assert (Q : (K * dt * M * (4 * K * dt) <= K * dt * M * (d * d))%R) by (apply Rmult_le_compat_l; [repeat apply Rmult_le_pos; lra|exact Dd]).
    assert (Q0 : (0 <= K * dt * M * (d * d))%R) by (repeat apply Rmult_le_pos; lra). nra.
Qed.
Lemma run_error (l : list (R * R)) : (forall s, In s l -> snd s = dt) -> forall (t e : R) (phi : Z -> R), (0 <= t)%R -> (t + INR (length l) * dt <= Te)%R ->
  (forall c, 0 <= c < NC -> (Rabs (phi c - at_cells t c) <= e)%R) ->
  forall c, 0 <= c < NC -> (Rabs (prun S m g l phi c - at_cells (t + INR (length l) * dt) c) <= e + INR (length l) * (K * dt * M * (57 * d ^ 2 + 8 * slack)))%R.
Proof.
  induction l as [|s l IH]; intros Hl t e phi T0 T1 He c Hc.
  - cbn [length INR prun fold_left]. rewrite !Rmult_0_l, !Rplus_0_r. now apply He.
  - cbn [length] in T1 |- *. rewrite S_INR in *. cbn [prun fold_left]. pose proof (Hl s (or_introl eq_refl)) as Es. rewrite Es.
    pose proof (pos_INR (length l)) as Ln. assert (Ld : (0 <= INR (length l) * dt)%R) by (apply Rmult_le_pos; lra).
    set (E := (K * dt * M * (57 * d ^ 2 + 8 * slack))%R).
    assert (G : forall c, 0 <= c < NC -> (Rabs (pol S m g dt phi c - at_cells (t + dt) c) <= e + E)%R).
    { intros c' Hc'. replace (pol S m g dt phi c' - at_cells (t + dt) c')%R with (pol S m g dt (fun c => phi c - at_cells t c)%R c' + (pol S m g dt (at_cells t) c' - at_cells (t + dt) c'))%R by (rewrite pol_sub by exact Hc'; ring).
      apply abs_sum; [|apply local_error; try assumption; lra].
      assert (Q : (- e <= pol S m g dt (fun c => phi c - at_cells t c)%R c' <= e)%R).
      { apply (pol_bounds S Hok Hdc m Hr HX HYY H4); [apply Hg|now apply small_step| |exact Hc']. intros c0 Hc0. specialize (He c0 Hc0). split_Rabs; lra. }
      split_Rabs; lra. }
    pose proof (IH (fun s Hs => Hl s (or_intror Hs)) (t + dt)%R (e + E)%R (pol S m g dt phi) ltac:(lra) ltac:(lra) G c Hc) as Q.
    replace (t + (INR (length l) + 1) * dt)%R with (t + dt + INR (length l) * dt)%R by ring.
    replace (e + (INR (length l) + 1) * E)%R with (e + E + INR (length l) * E)%R by ring. exact Q.
Qed.
End Heat.

Lemma C98_diffusion_converges_proof :
  forall (st : stepper) (slack : R), ((st = RK4 \/ st = LSRK 1) /\ slack = 0 \/ st = LSRK 5 /\ slack = 1 / 10 ^ 25)%R ->
  forall (S : setup RA), setup_ok S -> let h0 := mesh_of_setup S in let d := (dc h0 : R) in let kappa := (eddy_diff2 (par_of S) : R) in
  2 <= nx h0 -> Z.even (ny h0) = true -> (0 < d)%R -> hook S = None -> (0 < kappa)%R -> ((eddy_diff4 (par_of S) : R) <= 0)%R ->
  forall (H Te M : R) (D : R -> nat -> nat -> fn2), H <> 0%R -> heat kappa Te M D ->
  (forall t, (0 <= t <= Te)%R -> periodic (period_x h0) (period_y h0) (D t 0%nat 0%nat)) ->
  forall (dt : R) (N : Z) (tr : Z -> fn2), 0 <= N -> (0 <= dt)%R -> (4 * kappa * dt <= d * d)%R -> (IZR N * dt <= Te)%R ->
  always (sdims S) (program S st (mkInitial (A:=RA) (fun _ _ => H) (fun _ _ => 0%R) (fun _ _ => 0%R) tr) (loop_steps (A:=RA) N dt)) (mzero RA) (fun m' =>
    forall l k c, 0 <= l < ntracers (par_of S) -> 0 <= k < d_nlayers (sdims S) -> 0 <= c < d_ncells (sdims S) ->
    (forall x y, tr l x y = D 0%R 0%nat 0%nat x y) ->
    (Rabs (mr m' (TrCell St) [l; c; k] - D (IZR N * dt) 0%nat 0%nat (mr m' XCell [c]) (mr m' YCell [c])) <= kappa * (IZR N * dt) * M * (57 * d ^ 2 + 8 * slack))%R).
Proof.
  intros st slack Hst S Hok h0 d kappa HX Hev Hdc Hf H2 H4 H Te M D H0 HT HP dt N tr HN D0 Dd HTe.
  set (steps := loop_steps (A:=RA) N dt : list (R * R)).
  set (Q := fun m' : mem RA => forall l k c, 0 <= l < ntracers (par_of S) -> 0 <= k < d_nlayers (sdims S) -> 0 <= c < d_ncells (sdims S) ->
    (forall x y, tr l x y = D 0%R 0%nat 0%nat x y) ->
    (Rabs (mr m' (TrCell St) [l; c; k] - D (IZR N * dt) 0%nat 0%nat (mr m' XCell [c]) (mr m' YCell [c])) <= kappa * (IZR N * dt) * M * (57 * d ^ 2 + 8 * slack))%R).
  eapply always_weaken; [apply (program_split S Hok st _ steps (fun m m' => Q m'))|intros m' (m & _ & QQ); exact QQ].
  intros m Hx. destruct (prologue_spec S Hok st _ m Hx) as (Hr & Z & I). pose proof (HY S Hok Hev) as HYY.
  assert (Hz : disabled_zero S Tend m) by (intros k Hk; destruct (Z k Hk) as (Z1 & Z2 & _); split; intros _; auto).
  assert (Ry : rest S (fun _ => H) (fld St m)).
  { intros j Hj. destruct (I j Hj) as (I1 & I2 & _). cbn in I1, I2. split; [intros c Hc; now apply I1|]. intros e He. change (mr m (VnEdge St) [e; j] = 0%R). rewrite I2 by exact He. apply Rminus_diag_uniq. cbn [F RA]. ring. }
  assert (EL : length steps = Z.to_nat N) by (unfold steps, loop_steps; rewrite map_length; unfold zseq; now rewrite map_length, seq_length).
  assert (IN : INR (length steps) = IZR N) by (rewrite EL, INR_IZR_INZ, Z2Nat.id by lia; reflexivity).
  pose proof (ready_hex S Hok m Hr) as Hm.
  assert (G : forall g y' M' N', good g slack -> ran S m (fun _ => H) g steps (fld St m) y' -> holds S St N' y' -> meq M' N' -> cst m M' -> Q M').
  { intros g y' M' N' Hg [_ E] Hy [_ EM] C l k c Hl Hk Hc Htr. rewrite EM. destruct (Hy k Hk) as (_ & _ & E3). rewrite E3 by assumption.
    change (ft y' l c k) with (slice y' l k c). rewrite E by assumption. destruct (I k Hk) as (_ & _ & I3). cbn in I3.
    rewrite (mget_r M' m XCell [c]), (mget_r M' m YCell [c]) by now apply C. rewrite (hm_xc _ _ _ Hm), (hm_yc _ _ _ Hm) by exact Hc.
    assert (IC : forall c, 0 <= c < nx h0 * ny h0 -> (Rabs (slice (fld St m) l k c - at_cells S D 0 c) <= 0)%R).
    { intros c' Hc'. change (slice (fld St m) l k c') with (mr m (TrCell St) [l; c'; k]). rewrite I3 by assumption. rewrite Htr, (hm_xc _ _ _ Hm), (hm_yc _ _ _ Hm) by exact Hc'.
      rewrite Rminus_diag_eq by reflexivity. rewrite Rabs_R0. lra. }
    assert (TE0 : (0 + INR (length steps) * dt <= Te)%R) by (rewrite IN; lra).
    pose proof (run_error S Hok Hdc m Hr HX Hev H4 H2 Te M D HT HP g slack Hg dt D0 Dd steps (loop_snd N dt) 0%R 0%R (slice (fld St m) l k) (Rle_refl 0) TE0 IC c Hc) as R0.
    rewrite IN, !Rplus_0_l in R0. unfold at_cells in R0. eapply Rle_trans; [exact R0|]. right. unfold kappa, d, h0. ring. }
  assert (Cst : forall M', meq M' (run_fn S st steps m) -> cst m M').
  { intros M' EM. eapply cst_meq; [exact EM|]. destruct st; [apply cst_rk4_run|apply cst_lsrk_run]. }
  destruct Hst as [[[-> | ->] ->] | [-> ->]].
  - eapply always_fn; [apply rd_rk4_run; auto|]. intros M' E.
    destruct (rk4_ran S Hok Hdc m Hr HX HYY Hf (fun _ => H) (fun _ _ => H0) steps m (fld St m) Hr Hz (holds_fld S St m) Ry) as (y' & A & B).
    eapply G; [exact good_rk4|exact B|exact A|exact E|now apply Cst].
  - eapply always_fn; [apply rd_lsrk_run; auto|]. intros M' E.
    destruct (lsrk_ran S Hok Hdc m Hr HX HYY Hf (fun _ => H) (fun _ _ => H0) 1 steps m (fld St m) ltac:(lia) Hr (holds_fld S St m) Ry) as (y' & A & B).
    eapply G; [exact good_euler|exact B|exact A|exact E|now apply Cst].
  - eapply always_fn; [apply rd_lsrk_run; auto|]. intros M' E.
    destruct (lsrk_ran S Hok Hdc m Hr HX HYY Hf (fun _ => H) (fun _ _ => H0) 5 steps m (fld St m) ltac:(lia) Hr (holds_fld S St m) Ry) as (y' & A & B).
    eapply G; [exact good_lsrk5|exact B|exact A|exact E|now apply Cst].
Qed.

