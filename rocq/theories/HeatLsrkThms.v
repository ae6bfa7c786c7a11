(** Proofs of the properties of [PropsHeatFloat.v], low storage method. *)
From Coq Require Import ZArith Reals List Bool Lia Lra.
From Coq Require Import Floats.SpecFloat.
From Flocq Require Import Core.Core.
From Verif Require Import Arith Arrays Prog Conc Launch Mesh AuxVars Tend Model Hex HexComb MeshProof MeshMem Over Formulas KernBase Terms KernAux KernTend TendFn StepFn Ready Rel RelRun Relate TendVal StepVal StepRun RSum FloatFacts FloatMass FloatRun FloatRest TrFloat TrFlux TrRun NearFloat Diffuse DiffuseThms Deriv Stencil Taylor Sample AdvThms WaveRun HeatSpec HeatPlane HeatThms HeatFloat Modes FloatThms Tableau LinStep HeatLsrk HeatFloatThms.
Import ListNotations.
Open Scope Z_scope.

Section Run.
Context (cc ss : spec_float -> spec_float) (pp : spec_float).
Local Notation A := (SFA cc ss pp).
Context (S : setup A) (Hok : setup_ok S).
Local Notation cf := (cfg_of S).
Local Notation P := (par_of S).
Local Notation h := (mesh_of_setup S).
Local Notation X := (nx h).
Local Notation Y := (ny h).
Local Notation NC := (X * Y).
Local Notation nl := (d_nlayers (sdims S)).
Implicit Types (m n : mem A).
Context (HX : 2 <= X) (Hev : Z.even Y = true).
Context (Hdc : ps (-100) 100 (dc h)) (Hf0 : bd 100 (f0 P)) (Hg : bd 100 (grav P)) (Hn2 : bd 100 (visc_del2 P)) (Hn4 : bd 100 (visc_del4 P)).
Context (Ek : hook S = None).
Context (Hh : Z -> F A) (HHh : forall k, 0 <= k < nl -> ps (-100) 100 (Hh k)).
Context (l k : Z) (Hl : 0 <= l < ntracers P) (Hk : 0 <= k < nl).
Context (HK : ps (-100) 100 (eddy_diff2 P)) (E2 : tracer_diff_enabled P = true) (E4 : tracer_hyperdiff_enabled P = false).
Local Notation d := (val (dc h)).
Local Notation K := (val (eddy_diff2 P)).
Local Notation resting := (resting cc ss pp S Hh).
Local Notation tr s n c := (mr n (TrCell s) [l; c; k]).
Local Notation al := (al cc ss pp S).
Local Notation Lr := (Lr cc ss pp S).
Local Notation SR := (SR cc ss pp S).
Local Notation SR_ok := (SR_ok cc ss pp S Hok).

Context (m' : mem RA) (Hr' : ready SR m').
Let Hd' : (0 < d)%R := d0 cc ss pp S Hdc.
Let HK' : (0 < K)%R := K0 cc ss pp S HK.
Local Notation Y2 := (Y2 cc ss pp S Hok Hev).
Local Notation z4 := (z4 cc ss pp S).
Lemma ls_pol (dt : F A) u Yv Q c : exact_step cc ss pp S dt u Yv Q -> 0 <= c < NC -> Yv 5 c = pol SR m' g_lsrk5 (val dt) u c.
Proof.
  intros (E0 & E1 & EN) Hc. pose proof (lop_Lr cc ss pp S Hok HX Hev Hdc HK m' Hr') as LL.
  pose proof (lsrk5_alg (fun c => 0 <= c < NC) (lop SR m') (fun f g x E Hx => lop_ext SR SR_ok Hd' m' Hr' HX Y2 f g x E Hx)
    (fun a b f g x Hx => lop_lin SR SR_ok Hd' m' Hr' HX Y2 a b f g x Hx) (val dt) tab_a tab_b u Yv Q (fun x _ => E0 x)) as G.
  rewrite G; [| | | | | |exact Hc].
  - rewrite opolyx6. reflexivity.
  - intros x Hx. destruct (E1 x) as [A1 A2]. rewrite <- LL by exact Hx. auto.
  - intros x Hx. destruct (EN 1 ltac:(lia) x) as [A1 A2]. rewrite <- LL by exact Hx. auto.
  - intros x Hx. destruct (EN 2 ltac:(lia) x) as [A1 A2]. rewrite <- LL by exact Hx. auto.
  - intros x Hx. destruct (EN 3 ltac:(lia) x) as [A1 A2]. rewrite <- LL by exact Hx. auto.
  - intros x Hx. destruct (EN 4 ltac:(lia) x) as [A1 A2]. rewrite <- LL by exact Hx. auto.
Qed.

Context (Te M : R) (D : R -> nat -> nat -> fn2) (HT : heat K Te M D) (HP : forall t, (0 <= t <= Te)%R -> periodic (period_x (mesh_of_setup SR)) (period_y (mesh_of_setup SR)) (D t 0%nat 0%nat)).
Context (dt : F A) (Fdt : fin dt) (D0 : (0 <= val dt)%R) (Dd : (4 * K * val dt <= d * d)%R) (Bdt : bd 200 dt).
Context (B : R) (HB : rng B (-100) 100).
Local Notation at_cells := (at_cells SR D).
Definition E5 : R := (8700 * eps64 * B)%R.
Lemma dt_al : (0 <= val dt /\ al * val dt <= 1)%R.
Proof. split; [exact D0|]. pose proof (small_step SR Hd' (val dt) D0 Dd) as Q. rewrite (dcoef_val SR HK') in Q. apply Q. Qed.
Lemma B0 : (0 < B)%R. Proof. exact (rng_pos _ _ _ HB). Qed.
Lemma E50 : (0 <= E5)%R.
Proof. unfold E5. pose proof B0. pose proof eps_pos. apply Rmult_le_pos; [apply Rmult_le_pos|]; lra. Qed.
Lemma q155 : ((q64 ^ 155 - 1) * (55.05 * B) <= E5)%R.
Proof.
  pose proof (q_lin 155 ltac:(lia)) as Q. replace (INR 155) with 155%R in Q by (rewrite INR_IZR_INZ; reflexivity). unfold E5. pose proof B0 as B1. pose proof eps_pos as Ep.
  apply Rle_trans with ((8700 / 55.05 * eps64) * (55.05 * B))%R; [apply Rmult_le_compat_r; lra|right; lra].
Qed.
Lemma run_near (steps : list (F A * F A)) : (forall s, In s steps -> snd s = dt) -> forall n (t e b : R), ready S n -> resting St n -> zT cc ss pp S n -> (forall c, 0 <= c < NC -> fin (tr Tend n c)) ->
  (0 <= t)%R -> (t + INR (length steps) * val dt <= Te)%R -> (b + INR (length steps) * E5 <= B)%R ->
  (forall c, 0 <= c < NC -> fin (tr St n c) /\ (Rabs (val (tr St n c)) <= b)%R /\ (Rabs (val (tr St n c) - at_cells t c) <= e)%R) ->
  let n' := lsrk_run_fn S 5 steps n in
  forall c, 0 <= c < NC -> fin (tr St n' c) /\ (Rabs (val (tr St n' c) - at_cells (t + INR (length steps) * val dt) c) <= e + INR (length steps) * (K * val dt * M * (57 * d ^ 2 + 8 * (1 / 10 ^ 25)) + E5))%R.
Proof.
  induction steps as [|[t0 s] steps IH]; intros Hs n t e b Hr HR HZ FT T0 T1 TB Hn n' c Hc; subst n'.
  - cbn [length INR lsrk_run_fn fold_left]. rewrite !Rmult_0_l, !Rplus_0_r. destruct (Hn c Hc) as (N1 & _ & N2). auto.
  - cbn [length] in T1, TB |- *. rewrite S_INR in *. pose proof (Hs _ (or_introl eq_refl)) as Es. cbn in Es. subst s.
    pose proof (pos_INR (length steps)) as Ln. assert (Ld : (0 <= INR (length steps) * val dt)%R) by (apply Rmult_le_pos; lra). pose proof E50 as Q10.
    assert (Le : (0 <= INR (length steps) * E5)%R) by (apply Rmult_le_pos; lra).
    assert (Hn1 : forall c, 0 <= c < NC -> fin (tr St n c) /\ (Rabs (val (tr St n c)) <= B)%R) by (intros c' Hc'; destruct (Hn c' Hc') as (N1 & N2 & _); split; [exact N1|lra]).
    destruct (lsrk5_near cc ss pp S Hok HX Y2 Hdc Hf0 Hg Hn2 Hn4 Ek Hh HHh l k Hl Hk HK E2 E4 dt Fdt dt_al Bdt B HB t0 n Hr HR HZ FT Hn1) as (A1 & A2 & A3 & A5 & Yv & Q & A6 & A4).
    set (n1 := lsrk_fn S 5 t0 dt n) in *. set (u := fun c => val (tr St n c)) in *.
    assert (G : forall c, 0 <= c < NC -> fin (tr St n1 c) /\ (Rabs (val (tr St n1 c)) <= b + E5)%R /\ (Rabs (val (tr St n1 c) - at_cells (t + val dt) c) <= e + (K * val dt * M * (57 * d ^ 2 + 8 * (1 / 10 ^ 25)) + E5))%R).
    { intros c' Hc'. destruct (A4 c' Hc') as (N1 & _ & N3 & _). split; [exact N1|]. rewrite (ls_pol dt u Yv Q c' A6 Hc') in N3. pose proof q155 as Q5.
      assert (M1 : (- b <= pol SR m' g_lsrk5 (val dt) u c' <= b)%R).
      { apply (pol_bounds SR SR_ok Hd' m' Hr' HX Y2 z4); [exact mono_lsrk5|now apply small_step| |exact Hc']. intros c0 Hc0. destruct (Hn c0 Hc0) as (_ & N & _). unfold u. split_Rabs; lra. }
      assert (M2 : (- e <= pol SR m' g_lsrk5 (val dt) (fun c => u c - at_cells t c)%R c' <= e)%R).
      { apply (pol_bounds SR SR_ok Hd' m' Hr' HX Y2 z4); [exact mono_lsrk5|now apply small_step| |exact Hc']. intros c0 Hc0. destruct (Hn c0 Hc0) as (_ & _ & N). unfold u. split_Rabs; lra. }
      rewrite (pol_sub SR SR_ok Hd' m' Hr' HX Hev) in M2 by exact Hc'.
      assert (M3 : (Rabs (pol SR m' g_lsrk5 (val dt) (at_cells t) c' - at_cells (t + val dt) c') <= K * val dt * M * (57 * d ^ 2 + 8 * (1 / 10 ^ 25)))%R)
        by (apply (local_error SR SR_ok Hd' m' Hr' HX Hev z4 HK' Te M D HT HP g_lsrk5 (1 / 10 ^ 25)%R good_lsrk5 (val dt) D0 Dd t c' T0); [lra|exact Hc']).
      clear - N3 Q5 M1 M2 M3. split; split_Rabs; lra. }
    pose proof (IH (fun s Hs' => Hs s (or_intror Hs')) n1 (t + val dt)%R (e + (K * val dt * M * (57 * d ^ 2 + 8 * (1 / 10 ^ 25)) + E5))%R (b + E5)%R A1 A2 A3 A5 ltac:(lra) ltac:(lra) ltac:(lra) G c Hc) as [V1 V2].
    split; [exact V1|]. replace (t + (INR (length steps) + 1) * val dt)%R with (t + val dt + INR (length steps) * val dt)%R by ring.
    eapply Rle_trans; [exact V2|]. right. ring.
Qed.
End Run.

Lemma C100_binary64_diffusion_lsrk5_proof :
  forall (cc ss : spec_float -> spec_float) (pp : spec_float) (S : setup (SFA cc ss pp)), setup_ok S ->
  let size (n : Z) (x : spec_float) := fin x /\ (Rabs (val x) <= bpow radix2 n)%R in
  let normal (x : spec_float) := fin x /\ (bpow radix2 (-100) <= val x <= bpow radix2 100)%R in
  let h := mesh_of_setup S in let d := val (dc h) in let kappa := val (eddy_diff2 (par_of S)) in
  2 <= nx h -> Z.even (ny h) = true -> normal (dc h) -> size 100 (f0 (par_of S)) -> size 100 (grav (par_of S)) ->
  size 100 (visc_del2 (par_of S)) -> size 100 (visc_del4 (par_of S)) -> normal (eddy_diff2 (par_of S)) ->
  fin (eddy_diff4 (par_of S)) -> (val (eddy_diff4 (par_of S)) <= 0)%R -> hook S = None ->
  forall H : Z -> spec_float, (forall k, 0 <= k < d_nlayers (sdims S) -> normal (H k)) ->
  forall (Te M : R) (D : R -> nat -> nat -> fn2), heat kappa Te M D ->
  (forall t, (0 <= t <= Te)%R -> periodic (IZR (nx h) * d) (IZR (ny h) * d * sqrt 3 / 2) (D t 0%nat 0%nat)) ->
  let xc (c : Z) := (d * (IZR (c mod nx h) + if Z.even (c / nx h) then 1 / 2 else 1))%R in
  let yc (c : Z) := (d * IZR (c / nx h + 1) * sqrt 3 / 2)%R in
  forall dt : spec_float, size 200 dt -> (0 <= val dt)%R -> (4 * kappa * val dt <= d * d)%R ->
  forall steps : list (spec_float * spec_float), (forall x, In x steps -> snd x = dt) -> let N := INR (length steps) in
  (N * val dt <= Te)%R -> (N * (17400 * bpow radix2 (-53)) <= 1)%R ->
  forall m : mem (SFA cc ss pp), ready S m ->
  (forall k, 0 <= k < d_nlayers (sdims S) -> (forall c, 0 <= c < d_ncells (sdims S) -> mr m (HCell St) [c; k] = H k) /\
    (forall e, 0 <= e < d_nedges (sdims S) -> exists sign, mr m (VnEdge St) [e; k] = S754_zero sign)) ->
  forall l k, 0 <= l < ntracers (par_of S) -> 0 <= k < d_nlayers (sdims S) ->
  forall B e0 : R, (bpow radix2 (-100) <= B <= bpow radix2 100)%R ->
  (forall c, 0 <= c < d_ncells (sdims S) -> let x := mr m (TrCell St) [l; c; k] in
    fin x /\ (Rabs (val x) <= B / 2)%R /\ (Rabs (val x - D 0 0%nat 0%nat (xc c) (yc c)) <= e0)%R) ->
  always (sdims S) (lsrk_ctor S ++ lsrk_run S 5 steps) m (fun m' => forall c, 0 <= c < d_ncells (sdims S) -> let x := mr m' (TrCell St) [l; c; k] in
    fin x /\ (Rabs (val x - D (N * val dt)%R 0%nat 0%nat (xc c) (yc c)) <= e0 + kappa * (N * val dt) * M * (57 * d ^ 2 + 8 / 10 ^ 25) + N * (8700 * bpow radix2 (-53) * B))%R).
Proof.
  intros cc ss pp S Hok size normal h d kappa HX Hev Hdc Hf Hg H2 H4 HK Fk4 Vk4 Ek H HH Te M D HT HP xc yc dt Bdt D0 Dd steps Hs N TN TB m Hr HR l k Hl Hk B e0 HB Hm.
  assert (E2 : tracer_diff_enabled (par_of S) = true) by (apply flt_pos; [apply HK|exact (rng_pos _ _ _ (proj2 HK))]).
  assert (E4 : tracer_hyperdiff_enabled (par_of S) = false) by (apply flt_neg; assumption).
  destruct (ready_any (SR cc ss pp S) (SR_ok cc ss pp S Hok) (fun _ _ => 0%R)) as (mr' & Hr' & _).
  assert (Px : forall c, hxc (mesh_of_setup (SR cc ss pp S)) c = xc c).
  { intros c. unfold hxc, xc, rowof, colof, d, h. cbn. case (Z.even (c / nx (mesh_of_setup S))); [field|rewrite plus_IZR; reflexivity]. }
  assert (Py : forall c, hyc (mesh_of_setup (SR cc ss pp S)) c = yc c) by reflexivity.
  apply (always_fn S _ (fun m => lsrk_run_fn S 5 steps (lsrk_init_fn S m)) m); [now apply hs_ls|]. intros m' Em. apply meq_eq in Em. subst m'. intros c Hc x.
  assert (E1' : resting cc ss pp S H St m).
  { intros k' Hk'. destruct (HR k' Hk') as [R1 R2]. split; [exact R1|]. intros e He. destruct (R2 e He) as (sg & E). rewrite E. split; [split; exact eq_refl|exact eq_refl]. }
  assert (E1i : resting cc ss pp S H St (lsrk_init_fn S m)) by (intros k' Hk'; destruct (E1' k' Hk') as [R1 R2]; split; intros i Hi; rewrite init_other by reflexivity; auto).
  assert (E2' : zT cc ss pp S (lsrk_init_fn S m)).
  { intros k' Hk'. split; intros i Hi; [rewrite (proj1 (init_T cc ss pp S m k' Hk') i Hi)|rewrite (proj2 (init_T cc ss pp S m k' Hk') i Hi)]; apply (zero_0 cc ss pp). }
  assert (E3' : forall c, 0 <= c < nx h * ny h -> fin (mr (lsrk_init_fn S m) (TrCell Tend) [l; c; k])).
  { intros c' Hc'. rewrite (init_Tr cc ss pp S m l c' k Hl Hc' Hk). apply (zero_0 cc ss pp). }
  assert (TB' : (B / 2 + N * E5 B <= B)%R).
  { unfold E5, eps64. pose proof (rng_pos _ _ _ HB) as B1. assert (Q : (N * (17400 * bpow radix2 (-53)) * B <= 1 * B)%R) by (apply Rmult_le_compat_r; lra). lra. }
  destruct (run_near cc ss pp S Hok HX Hev Hdc Hf Hg H2 H4 Ek H HH l k Hl Hk HK E2 E4 mr' Hr' Te M D HT HP dt (proj1 Bdt) D0 Dd Bdt B HB steps Hs (lsrk_init_fn S m) 0%R e0 (B / 2)%R (init_ready cc ss pp S m Hr) E1i E2' E3' (Rle_refl 0) ltac:(rewrite Rplus_0_l; exact TN) TB') with (c := c) as [Q1 Q2].
  - intros c' Hc'. rewrite init_other by reflexivity. destruct (Hm c' Hc') as (M1 & M2 & M3). split; [exact M1|]. split; [exact M2|]. unfold at_cells. rewrite Px, Py. exact M3.
  - exact Hc.
  - split; [exact Q1|]. rewrite Rplus_0_l in Q2. unfold at_cells in Q2. rewrite Px, Py in Q2. eapply Rle_trans; [exact Q2|]. right. unfold E5, eps64, kappa, d, h. change (INR (@length (F (SFA cc ss pp) * F (SFA cc ss pp)) steps)) with N. field.
Qed.
