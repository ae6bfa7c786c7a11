(** Proofs of the properties of [PropsHeatFloat.v]. *)
From Coq Require Import ZArith Reals List Bool Lia Lra.
From Coq Require Import Floats.SpecFloat.
From Flocq Require Import Core.Core.
From Verif Require Import Arith Arrays Prog Conc Launch Mesh AuxVars Tend Model Hex HexComb MeshProof MeshMem Over Formulas KernBase Terms KernAux KernTend TendFn StepFn Ready Rel RelRun Relate TendVal StepVal StepRun RSum FloatFacts FloatMass FloatRun FloatRest TrFloat TrFlux TrRun NearFloat Diffuse DiffuseThms Deriv Stencil Taylor Sample AdvThms WaveRun HeatSpec HeatPlane HeatThms HeatFloat Modes FloatThms.
Import ListNotations.
Open Scope Z_scope.

Lemma flt_pos cc ss pp (x : spec_float) : fin x -> (0 < val x)%R -> @flt (SFA cc ss pp) (@fofZ (SFA cc ss pp) 0) x = true.
Proof.
  intros [F1 F2] Hx. destruct x as [s|s| |[|] mx ex]; try discriminate F2; try (exfalso; cbn in Hx; lra); [|reflexivity].
  exfalso. unfold val in Hx. pose proof (bpow_gt_0 radix2 ex). pose proof (IZR_lt (Z.neg mx) 0 (Pos2Z.neg_is_neg mx)). cbn in Hx. unfold Defs.F2R in Hx. cbn in Hx. nra.
Qed.
Lemma flt_neg cc ss pp (x : spec_float) : fin x -> (val x <= 0)%R -> @flt (SFA cc ss pp) (@fofZ (SFA cc ss pp) 0) x = false.
Proof.
  intros [F1 F2] Hx. destruct x as [s|s| |[|] mx ex]; try discriminate F2; try reflexivity.
  exfalso. unfold val in Hx. pose proof (bpow_gt_0 radix2 ex). pose proof (IZR_lt 0 (Z.pos mx) (Pos2Z.is_pos mx)). cbn in Hx. unfold Defs.F2R in Hx. cbn in Hx. nra.
Qed.

Section Run.
Context (cc ss : spec_float -> spec_float) (pp : spec_float).
Local Notation A := (SFA cc ss pp).
Context (S : setup A) (Hok : setup_ok S).
Local Notation cf := (cfg_of S).
Local Notation P := (par_of S).
Local Notation h := (mesh_of_setup S).
Local Notation X := (nx h).
Local Notation Y := (ny h).
Local Notation NC := (X * Y).
Local Notation nl := (d_nlayers (sdims S)).
Implicit Types (m n : mem A).
Context (HX : 2 <= X) (Hev : Z.even Y = true).
Context (Hdc : ps (-100) 100 (dc h)) (Hf0 : bd 100 (f0 P)) (Hg : bd 100 (grav P)) (Hn2 : bd 100 (visc_del2 P)) (Hn4 : bd 100 (visc_del4 P)).
Context (Ek : hook S = None).
Context (Hh : Z -> F A) (HHh : forall k, 0 <= k < nl -> ps (-100) 100 (Hh k)).
Context (l k : Z) (Hl : 0 <= l < ntracers P) (Hk : 0 <= k < nl).
Context (HK : ps (-100) 100 (eddy_diff2 P)) (E2 : tracer_diff_enabled P = true) (E4 : tracer_hyperdiff_enabled P = false).
Local Notation d := (val (dc h)).
Local Notation K := (val (eddy_diff2 P)).
Local Notation resting := (resting cc ss pp S Hh).
Local Notation tr s n c := (mr n (TrCell s) [l; c; k]).
Local Notation al := (al cc ss pp S).
Local Notation Lr := (Lr cc ss pp S).
Local Notation R4 := (R4 cc ss pp S).

(** The same mesh and diffusivity over the real numbers. *)
Definition SR : setup RA := mkSetup cf (mkHex (A:=RA) X Y d (nlayers h)) (mkParams (A:=RA) 0%R 0%R 0%R 0%R 0%R K 0%R (ntracers P) false false) None.
Lemma SR_ok : setup_ok SR. Proof. exact Hok. Qed.
Context (m' : mem RA) (Hr' : ready SR m').
Let Hd' : (0 < d)%R := d0 cc ss pp S Hdc.
Let HK' : (0 < K)%R := K0 cc ss pp S HK.
Lemma Y2 : 2 <= Y. Proof. exact (Modes.HY SR SR_ok Hev). Qed.
Lemma z4 : ((eddy_diff4 (par_of SR) : R) <= 0)%R. Proof. cbn. lra. Qed.
Lemma lop_Lr f c : 0 <= c < NC -> Lr f c = lop SR m' f c.
Proof. intros Hc. rewrite (lop_avg SR SR_ok Hd' m' Hr' HX Y2 z4) by exact Hc. now rewrite (dcoef_val SR HK'). Qed.
Lemma R4_pol (dt : F A) u c : 0 <= c < NC -> R4 dt u c = pol SR m' g_rk4 (val dt) u c.
Proof.
  intros Hc. set (t := val dt). assert (L1 : forall c, 0 <= c < NC -> Lr u c = lpow SR m' 1 u c) by (intros; now apply lop_Lr).
  pose proof (fun a0 a1 a2 a3 f c Hc => lop_comb5 SR SR_ok Hd' m' Hr' HX Y2 u a0 a1 a2 a3 0%R f c Hc) as CB.
  set (f2 := fun c => (u c + t * (1 / 2) * Lr u c)%R). set (f3 := fun c => (u c + t * (1 / 2) * Lr f2 c)%R). set (f4 := fun c => (u c + t * 1 * Lr f3 c)%R).
  assert (L2 : forall c, 0 <= c < NC -> Lr f2 c = (lpow SR m' 1 u c + t / 2 * lpow SR m' 2 u c)%R).
  { intros c' Hc'. rewrite lop_Lr by exact Hc'. rewrite (CB 1 (t / 2) 0 0)%R; [ring|exact Hc'|]. intros c0 Hc0. unfold f2. rewrite L1 by exact Hc0. field. }
  assert (L3 : forall c, 0 <= c < NC -> Lr f3 c = (lpow SR m' 1 u c + t / 2 * lpow SR m' 2 u c + t * t / 4 * lpow SR m' 3 u c)%R).
  { intros c' Hc'. rewrite lop_Lr by exact Hc'. rewrite (CB 1 (t / 2) (t * t / 4) 0)%R; [ring|exact Hc'|]. intros c0 Hc0. unfold f3. rewrite L2 by exact Hc0. field. }
  assert (L4 : forall c, 0 <= c < NC -> Lr f4 c = (lpow SR m' 1 u c + t * lpow SR m' 2 u c + t * t / 2 * lpow SR m' 3 u c + t * t * t / 4 * lpow SR m' 4 u c)%R).
  { intros c' Hc'. rewrite lop_Lr by exact Hc'. rewrite (CB 1 t (t * t / 2) (t * t * t / 4))%R; [ring|exact Hc'|]. intros c0 Hc0. unfold f4. rewrite L3 by exact Hc0. field. }
  change (R4 dt u c) with (u c + t * (1 / 6) * Lr u c + t * (1 / 3) * Lr f2 c + t * (1 / 3) * Lr f3 c + t * (1 / 6) * Lr f4 c)%R.
  rewrite L1, L2, L3, L4 by exact Hc. unfold pol, g_rk4. field.
Qed.

Context (Te M : R) (D : R -> nat -> nat -> fn2) (HT : heat K Te M D) (HP : forall t, (0 <= t <= Te)%R -> periodic (period_x (mesh_of_setup SR)) (period_y (mesh_of_setup SR)) (D t 0%nat 0%nat)).
Context (dt : F A) (Fdt : fin dt) (D0 : (0 <= val dt)%R) (Dd : (4 * K * val dt <= d * d)%R) (Bdt : bd 200 dt).
Context (B : R) (HB : rng B (-100) 100).
Local Notation at_cells := (at_cells SR D).
Definition E1 : R := (850 * eps64 * B)%R.
Lemma dt_al : (0 <= val dt /\ al * val dt <= 1)%R.
Proof. split; [exact D0|]. pose proof (small_step SR Hd' (val dt) D0 Dd) as Q. rewrite (dcoef_val SR HK') in Q. apply Q. Qed.
Lemma B0 : (0 < B)%R. Proof. exact (rng_pos _ _ _ HB). Qed.
Lemma E10 : (0 <= E1)%R.
Proof. unfold E1. pose proof B0. pose proof eps_pos. apply Rmult_le_pos; [apply Rmult_le_pos|]; lra. Qed.
Lemma q120 : ((q64 ^ 120 - 1) * (7 * B) <= E1)%R.
Proof.
  pose proof (q_lin 120 ltac:(lia)) as Q. replace (INR 120) with 120%R in Q by (rewrite INR_IZR_INZ; reflexivity). unfold E1. pose proof B0 as B1. pose proof eps_pos as Ep.
  apply Rle_trans with ((850 / 7 * eps64) * (7 * B))%R; [apply Rmult_le_compat_r; lra|right; field].
Qed.
Lemma run_near (steps : list (F A * F A)) : (forall s, In s steps -> snd s = dt) -> forall n (t e b : R), ready S n -> resting St n -> zTd cc ss pp S n ->
  (0 <= t)%R -> (t + INR (length steps) * val dt <= Te)%R -> (b + INR (length steps) * E1 <= B)%R ->
  (forall c, 0 <= c < NC -> fin (tr St n c) /\ (Rabs (val (tr St n c)) <= b)%R /\ (Rabs (val (tr St n c) - at_cells t c) <= e)%R) ->
  let n' := rk4_run_fn S steps n in
  forall c, 0 <= c < NC -> fin (tr St n' c) /\ (Rabs (val (tr St n' c) - at_cells (t + INR (length steps) * val dt) c) <= e + INR (length steps) * (K * val dt * M * (57 * d ^ 2) + E1))%R.
Proof.
  induction steps as [|[t0 s] steps IH]; intros Hs n t e b Hr HR HZ T0 T1 TB Hn n' c Hc; subst n'.
  - cbn [length INR rk4_run_fn fold_left]. rewrite !Rmult_0_l, !Rplus_0_r. destruct (Hn c Hc) as (N1 & _ & N2). auto.
  - cbn [length] in T1, TB |- *. rewrite S_INR in *. pose proof (Hs _ (or_introl eq_refl)) as Es. cbn in Es. subst s.
    pose proof (pos_INR (length steps)) as Ln. assert (Ld : (0 <= INR (length steps) * val dt)%R) by (apply Rmult_le_pos; lra). pose proof E10 as Q10.
    assert (Le : (0 <= INR (length steps) * E1)%R) by (apply Rmult_le_pos; lra).
    assert (Hn1 : forall c, 0 <= c < NC -> fin (tr St n c) /\ (Rabs (val (tr St n c)) <= B)%R) by (intros c' Hc'; destruct (Hn c' Hc') as (N1 & N2 & _); split; [exact N1|lra]).
    destruct (rk4_near cc ss pp S Hok HX Y2 Hdc Hf0 Hg Hn2 Hn4 Ek Hh HHh l k Hl Hk HK E2 E4 dt Fdt dt_al Bdt B HB t0 n Hr HR HZ Hn1) as (A1 & A2 & A3 & A4).
    set (n1 := rk4_fn S t0 dt n) in *. set (u := fun c => val (tr St n c)) in *.
    assert (G : forall c, 0 <= c < NC -> fin (tr St n1 c) /\ (Rabs (val (tr St n1 c)) <= b + E1)%R /\ (Rabs (val (tr St n1 c) - at_cells (t + val dt) c) <= e + (K * val dt * M * (57 * d ^ 2) + E1))%R).
    { intros c' Hc'. destruct (A4 c' Hc') as (N1 & _ & N3 & _). split; [exact N1|]. rewrite R4_pol in N3 by exact Hc'. pose proof q120 as Q.
      assert (M1 : (- b <= pol SR m' g_rk4 (val dt) u c' <= b)%R).
      { apply (pol_bounds SR SR_ok Hd' m' Hr' HX Y2 z4); [exact mono_rk4|now apply small_step| |exact Hc']. intros c0 Hc0. destruct (Hn c0 Hc0) as (_ & N & _). unfold u. split_Rabs; lra. }
      assert (M2 : (- e <= pol SR m' g_rk4 (val dt) (fun c => u c - at_cells t c)%R c' <= e)%R).
      { apply (pol_bounds SR SR_ok Hd' m' Hr' HX Y2 z4); [exact mono_rk4|now apply small_step| |exact Hc']. intros c0 Hc0. destruct (Hn c0 Hc0) as (_ & _ & N). unfold u. split_Rabs; lra. }
      rewrite (pol_sub SR SR_ok Hd' m' Hr' HX Hev) in M2 by exact Hc'.
      assert (M3 : (Rabs (pol SR m' g_rk4 (val dt) (at_cells t) c' - at_cells (t + val dt) c') <= K * val dt * M * (57 * d ^ 2 + 8 * 0))%R)
        by (apply (local_error SR SR_ok Hd' m' Hr' HX Hev z4 HK' Te M D HT HP g_rk4 0 good_rk4 (val dt) D0 Dd t c' T0); [lra|exact Hc']).
      rewrite Rmult_0_r, Rplus_0_r in M3. clear - N3 Q M1 M2 M3. split; split_Rabs; lra. }
    pose proof (IH (fun s Hs' => Hs s (or_intror Hs')) n1 (t + val dt)%R (e + (K * val dt * M * (57 * d ^ 2) + E1))%R (b + E1)%R A1 A2 A3 ltac:(lra) ltac:(lra) ltac:(lra) G c Hc) as [Q1 Q2].
    split; [exact Q1|]. replace (t + (INR (length steps) + 1) * val dt)%R with (t + val dt + INR (length steps) * val dt)%R by ring.
    eapply Rle_trans; [exact Q2|]. right. ring.
Qed.
End Run.

Lemma C100_binary64_diffusion_proof :
  forall (cc ss : spec_float -> spec_float) (pp : spec_float) (S : setup (SFA cc ss pp)), setup_ok S ->
  let size (n : Z) (x : spec_float) := fin x /\ (Rabs (val x) <= bpow radix2 n)%R in
  let normal (x : spec_float) := fin x /\ (bpow radix2 (-100) <= val x <= bpow radix2 100)%R in
  let h := mesh_of_setup S in let d := val (dc h) in let kappa := val (eddy_diff2 (par_of S)) in
  2 <= nx h -> Z.even (ny h) = true -> normal (dc h) -> size 100 (f0 (par_of S)) -> size 100 (grav (par_of S)) ->
  size 100 (visc_del2 (par_of S)) -> size 100 (visc_del4 (par_of S)) -> normal (eddy_diff2 (par_of S)) ->
  fin (eddy_diff4 (par_of S)) -> (val (eddy_diff4 (par_of S)) <= 0)%R -> hook S = None ->
  forall H : Z -> spec_float, (forall k, 0 <= k < d_nlayers (sdims S) -> normal (H k)) ->
  forall (Te M : R) (D : R -> nat -> nat -> fn2), heat kappa Te M D ->
  (forall t, (0 <= t <= Te)%R -> periodic (IZR (nx h) * d) (IZR (ny h) * d * sqrt 3 / 2) (D t 0%nat 0%nat)) ->
  let xc (c : Z) := (d * (IZR (c mod nx h) + if Z.even (c / nx h) then 1 / 2 else 1))%R in
  let yc (c : Z) := (d * IZR (c / nx h + 1) * sqrt 3 / 2)%R in
  forall dt : spec_float, size 200 dt -> (0 <= val dt)%R -> (4 * kappa * val dt <= d * d)%R ->
  forall steps : list (spec_float * spec_float), (forall x, In x steps -> snd x = dt) -> let N := INR (length steps) in
  (N * val dt <= Te)%R -> (N * (1700 * bpow radix2 (-53)) <= 1)%R ->
  forall m : mem (SFA cc ss pp), ready S m -> disabled_zero S Tend m ->
  (forall k, 0 <= k < d_nlayers (sdims S) -> (forall c, 0 <= c < d_ncells (sdims S) -> mr m (HCell St) [c; k] = H k) /\
    (forall e, 0 <= e < d_nedges (sdims S) -> exists sign, mr m (VnEdge St) [e; k] = S754_zero sign)) ->
  forall l k, 0 <= l < ntracers (par_of S) -> 0 <= k < d_nlayers (sdims S) ->
  forall B e0 : R, (bpow radix2 (-100) <= B <= bpow radix2 100)%R ->
  (forall c, 0 <= c < d_ncells (sdims S) -> let x := mr m (TrCell St) [l; c; k] in
    fin x /\ (Rabs (val x) <= B / 2)%R /\ (Rabs (val x - D 0 0%nat 0%nat (xc c) (yc c)) <= e0)%R) ->
  always (sdims S) (rk4_run S steps) m (fun m' => forall c, 0 <= c < d_ncells (sdims S) -> let x := mr m' (TrCell St) [l; c; k] in
    fin x /\ (Rabs (val x - D (N * val dt)%R 0%nat 0%nat (xc c) (yc c)) <= e0 + kappa * (N * val dt) * M * (57 * d ^ 2) + N * (850 * bpow radix2 (-53) * B))%R).
Proof.
  intros cc ss pp S Hok size normal h d kappa HX Hev Hdc Hf Hg H2 H4 HK Fk4 Vk4 Ek H HH Te M D HT HP xc yc dt Bdt D0 Dd steps Hs N TN TB m Hr HZ HR l k Hl Hk B e0 HB Hm.
  assert (E2 : tracer_diff_enabled (par_of S) = true) by (apply flt_pos; [apply HK|exact (rng_pos _ _ _ (proj2 HK))]).
  assert (E4 : tracer_hyperdiff_enabled (par_of S) = false) by (apply flt_neg; assumption).
  destruct (ready_any (SR cc ss pp S) (SR_ok cc ss pp S Hok) (fun _ _ => 0%R)) as (mr' & Hr' & _).
  assert (Px : forall c, hxc (mesh_of_setup (SR cc ss pp S)) c = xc c).
  { intros c. unfold hxc, xc, rowof, colof, d, h. cbn. case (Z.even (c / nx (mesh_of_setup S))); [field|rewrite plus_IZR; reflexivity]. }
  assert (Py : forall c, hyc (mesh_of_setup (SR cc ss pp S)) c = yc c) by reflexivity.
  apply (always_fn S _ (rk4_run_fn S steps) m); [now apply rd_rk4_run|]. intros m' Em. apply meq_eq in Em. subst m'. intros c Hc x.
  assert (E1' : resting cc ss pp S H St m).
  { intros k' Hk'. destruct (HR k' Hk') as [R1 R2]. split; [exact R1|]. intros e He. destruct (R2 e He) as (sg & E). rewrite E. split; [split; exact eq_refl|exact eq_refl]. }
  assert (E2' : zTd cc ss pp S m) by (intros k' Hk'; destruct (HZ k' Hk') as [Z1 Z2]; split; intros Ed i Hi; [rewrite (Z1 Ed i Hi)|rewrite (Z2 Ed i Hi)]; apply (zero_0 cc ss pp)).
  assert (TB' : (B / 2 + N * E1 B <= B)%R).
  { unfold E1, eps64. pose proof (rng_pos _ _ _ HB) as B1. assert (Q : (N * (1700 * bpow radix2 (-53)) * B <= 1 * B)%R) by (apply Rmult_le_compat_r; lra). lra. }
  destruct (run_near cc ss pp S Hok HX Hev Hdc Hf Hg H2 H4 Ek H HH l k Hl Hk HK E2 E4 mr' Hr' Te M D HT HP dt (proj1 Bdt) D0 Dd Bdt B HB steps Hs m 0%R e0 (B / 2)%R Hr E1' E2' (Rle_refl 0) ltac:(rewrite Rplus_0_l; exact TN) TB') with (c := c) as [Q1 Q2].
  - intros c' Hc'. destruct (Hm c' Hc') as (M1 & M2 & M3). split; [exact M1|]. split; [exact M2|]. unfold at_cells. rewrite Px, Py. exact M3.
  - exact Hc.
  - split; [exact Q1|]. rewrite Rplus_0_l in Q2. unfold at_cells in Q2. rewrite Px, Py in Q2. eapply Rle_trans; [exact Q2|]. right. unfold E1, eps64, kappa, d, h. change (INR (@length (F (SFA cc ss pp) * F (SFA cc ss pp)) steps)) with N. ring.
Qed.
