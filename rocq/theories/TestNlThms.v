(** Proofs of the properties of [PropsTestNl.v]. *)
From Coq Require Import ZArith Reals List Bool Lia Lra.
From Verif Require Import Arith Arrays Prog Conc Launch Mesh AuxVars Tend Model Hex HexComb RSum Spec MeshProof MeshMem MeshFacts MeshR Over KernBase TendFn StepFn Ready Relate TendVal StepVal StepRun Diag Driver DriverFn TestFns TestRun TestRunFn DriverThms CeilThms TestAdv TestAdvThms TestNl Sim SimScale SimThms.
Import ListNotations.
Open Scope Z_scope.

Lemma nl_error_rms (S : setup RA) (Hok : setup_ok S) (m : mem RA) (exact : R -> R -> R) : 0 < d_nlayers (sdims S) ->
  let err c k := (mr m (HCell St) [c; k] - exact (mr m XCell [c]) (mr m YCell [c]))%R in
  forall r, nl_error_norm S exact m r <-> r = Some (sqrt (rsum (d_nlayers (sdims S)) (fun k => rsum (d_ncells (sdims S)) (fun c => err c k * err c k)) / IZR (d_ncells (sdims S)))%R).
Proof.
  intros HL err r. set (NL := d_nlayers (sdims S)) in *. set (NC := d_ncells (sdims S)) in *.
  assert (NC0 : 0 <= NC) by (pose proof (proj1 Hok) as (A1 & A2 & _); unfold NC; cbn; nia).
  pose (sq := fun c k => (err c k * err c k)%R).
  assert (V : forall errf, reduces (sdims S) m (nl_compute_error S exact) (zseq (NC * NL)) errf -> errf = Some (rsum NL (fun k => rsum NC (fun c => err c k * err c k)%R))).
  { intros errf He. rewrite (reduces_sum _ _ _ _ _ (fun i => sq (i / NL) (i mod NL))) with (2 := He).
    - f_equal. change (Rsum (zseq (NC * NL)) ?f) with (rsum (NC * NL) f). rewrite (rsum_div NC NL sq) by lia. apply rsum_swap.
    - intros i x Hi. apply in_zseq in Hi.
      assert (Hc : 0 <= i / NL < NC) by (split; [apply Z.div_pos; lia|apply Z.div_lt_upper_bound; lia]).
      assert (Hk : 0 <= i mod NL < NL) by (apply Z.mod_pos_bound; lia).
      assert (Q : safe (sdims S) (nl_compute_error (A:=RA) S exact i x) m (fun _ => True) (fun _ => True) (fun z _ => z = Rplus x (sq (i / NL) (i mod NL)))).
      { unfold nl_compute_error. fold NL. set (c := i / NL) in *. set (k := i mod NL) in *. apply safe_bind, safe_rdr; [cbn [validb rext]; apply inb1; exact Hc|exact I|]. apply safe_bind, safe_rdr; [cbn [validb rext]; apply inb1; exact Hc|exact I|].
        apply safe_bind, safe_rdr; [cbn [validb rext]; apply inb2; split; assumption|exact I|].
        apply safe_ret. cbv zeta. unfold sq, err. cbn [F RA fadd fsub fmul]. apply Rminus_diag_uniq. ring. }
      destruct (safe_run _ _ _ _ _ _ Q) as (z & m' & Ez & ->). eauto. }
  split.
  - intros (errf & He & ->). rewrite (V _ He). reflexivity.
  - intros ->. destruct (reduces_ex (sdims S) m (nl_compute_error S exact) (zseq (NC * NL))) as [errf He]. exists errf. split; [exact He|]. rewrite (V _ He). reflexivity.
Qed.

Section Prog.
Context (S : setup RA) (Hok : setup_ok S) (st : stepper) (I : initial RA) (steps : list (R * R)).
Lemma prog_always : always (sdims S) (program S st I steps) (mzero RA) (ready S).
Proof.
  destruct (program_split S Hok st I steps (fun m m' => ready S m')) as [A1 A2].
  { intros m Hm. destruct (prologue_spec S Hok st I m Hm) as (Rm & _). pose proof (hs_stepper_run S Hok st steps m (ready_wfm S Hok m Rm)) as G. apply hsafe_always in G. destruct G as [G [n Gn]]. split; [|exists n; exact Gn].
    intros o Ho. destruct (G o Ho) as (n' & -> & E). exists n'. split; [reflexivity|]. eapply ready_cst; [|exact Rm]. eapply cst_meq; [exact E|]. destruct st; [apply cst_rk4_run|apply cst_lsrk_run]. }
  split; [|exact A2]. intros o Ho. destruct (A1 o Ho) as (m' & -> & (m & _ & R)). eauto.
Qed.
Lemma prog_ex : exists m', exec (sdims S) (program S st I steps) (mzero RA) (OK m').
Proof. destruct prog_always as [_ [m H]]. eauto. Qed.
Lemma prog_ready m' : exec (sdims S) (program S st I steps) (mzero RA) (OK m') -> ready S m'.
Proof. intros H. destruct prog_always as [A _]. destruct (A _ H) as (n & E & R). injection E as <-. exact R. Qed.
End Prog.

(** The root mean square of the deviation [err] over the cells. *)
Definition rms (NC : Z) (err : Z -> R) : R := sqrt (rsum NC (fun c => err c * err c) / IZR NC)%R.
Definition dev_h (exact : R -> R -> R) (m : mem RA) (k c : Z) : R := (mr m (HCell St) [c; k] - exact (mr m XCell [c]) (mr m YCell [c]))%R.
Definition dev_t (exact : R -> R -> R) (m : mem RA) (k c : Z) : R := (mr m (TrCell St) [0%Z; c; k] - exact (mr m XCell [c]) (mr m YCell [c]))%R.

Section Two.
Context (S0 S : setup RA) (Ok0 : setup_ok S0) (Hok : setup_ok S) (Hd : (0 < (dc (mesh_of_setup S0) : R))%R) (U : change_of_units S0 S 1 1 1) (Uf : unforced S0).
Context (st : stepper) (I : initial RA) (steps : list (R * R)) (m0 m : mem RA).
Context (X0 : exec (sdims S0) (program S0 st I steps) (mzero RA) (OK m0)) (X1 : exec (sdims S) (program S st I steps) (mzero RA) (OK m)).
Lemma two_same k0 k : 0 <= k0 < d_nlayers (sdims S0) -> 0 <= k < d_nlayers (sdims S) -> forall exact,
  (forall c, 0 <= c < d_ncells (sdims S0) -> dev_h exact m k c = dev_h exact m0 k0 c) /\
  (1 <= ntracers (par_of S0) -> forall c, 0 <= c < d_ncells (sdims S0) -> dev_t exact m k c = dev_t exact m0 k0 c).
Proof.
  intros Hk0 Hk exact.
  assert (HI : forall x y : R, (ini_h I (1 * x) (1 * y) = 1 * ini_h I x y /\ ini_vx I (1 * x) (1 * y) = 1 / 1 * ini_vx I x y /\ ini_vy I (1 * x) (1 * y) = 1 / 1 * ini_vy I x y /\
    forall l, ini_tr I l (1 * x) (1 * y) = 1 * ini_tr I l x y)%R).
  { intros x y. rewrite !Rmult_1_l. replace (1 / 1)%R with 1%R by field. rewrite !Rmult_1_l. repeat split. intros l. now rewrite Rmult_1_l. }
  assert (X1' : exec (sdims S) (program S st I (map (fun s : R * R => (1 * fst s, 1 * snd s)%R) steps)) (mzero RA) (OK m)).
  { rewrite (map_ext _ (fun s => s)); [rewrite map_id; exact X1|]. intros [t dt]. cbn [fst snd]. now rewrite !Rmult_1_l. }
  destruct (C87_no_preferred_units_proof S0 S st 1 1 1 (fun _ => 1%R) I I steps m0 m Ok0 Hok Hd ltac:(lra) ltac:(lra) ltac:(lra) U Uf HI X0 X1' k0 k Hk0 Hk) as (A1 & _ & A3).
  pose proof (prog_ready S0 Ok0 st I steps m0 X0) as R0. pose proof (prog_ready S Hok st I steps m X1) as R1. pose proof U as (Ex & Ey & Ed & _).
  assert (EX : forall c, 0 <= c < d_ncells (sdims S0) -> mr m XCell [c] = mr m0 XCell [c] /\ mr m YCell [c] = mr m0 YCell [c]).
  { intros c Hc. rewrite (xc_scale S0 S Ok0 Hok 1 Ex Ey Ed m0 m R0 R1 c Hc), (yc_scale S0 S Ok0 Hok 1 Ex Ey Ed m0 m R0 R1 c Hc). split; apply Rmult_1_l. }
  split.
  - intros c Hc. unfold dev_h. destruct (EX c Hc) as [-> ->]. rewrite A1 by exact Hc. cbn [Arith.F RA]. ring.
  - intros Ht c Hc. unfold dev_t. destruct (EX c Hc) as [-> ->]. rewrite A3 by (try exact Hc; lia). cbn [Arith.F RA]. ring.
Qed.
End Two.

Lemma rms_all NL NC (f : Z -> Z -> R) g : 0 < NL -> 0 < NC -> (forall k c, 0 <= k < NL -> 0 <= c < NC -> f k c = g c) ->
  (sqrt (rsum NL (fun k => rsum NC (fun c => f k c * f k c)) / IZR NC) = sqrt (IZR NL) * rms NC g)%R.
Proof.
  intros HL HC E. unfold rms. assert (0 < IZR NC)%R by now apply IZR_lt. assert (0 < IZR NL)%R by now apply IZR_lt.
  rewrite (rsum_ext NL _ (fun _ => rsum NC (fun c => g c * g c)%R)) by (intros k Hk; apply rsum_ext; intros c Hc; now rewrite E).
  rewrite rsum_const by lia. rewrite <- sqrt_mult.
  - f_equal. field. lra.
  - lra.
  - apply Rmult_le_pos; [apply rsum_nonneg; intros; apply Rle_0_sqr|left; now apply Rinv_0_lt_compat].
Qed.
Lemma nlay1 (S : setup RA) : setup_ok S -> nlayers (mesh_of_setup S) = 1 -> 0 < d_nlayers (sdims S).
Proof.
  intros (M & _ & _) E. cbn [sdims dims_of d_nlayers]. rewrite E. assert (V : 0 < vector_length (cfg_of S)) by (unfold vector_length; destruct (no_simd (cfg_of S)); [lia|destruct M as (_ & _ & _ & L & _); lia]).
  pose proof (zceil_lt 1 (vector_length (cfg_of S)) V). lia.
Qed.
(** The reference build. *)
Definition cf0 : config := mkConfig true false false 1.
Lemma ok_ref n (d : R) (P : params RA) f : 1 <= n -> 3 * (n * n) <= INT_MAX -> 0 <= ntracers P -> setup_ok (mkSetup cf0 (mkHex (A:=RA) n n d 1) P f).
Proof.
  intros H1 H2 H3. split; [|split; [exact H3|discriminate]]. unfold mesh_ok. cbn [cfg_of mesh_of_setup nx ny lanes nlayers cf0]. repeat split; try lia; try exact H2. unfold INT_MAX. cbn. lia.
Qed.

Lemma ceil_uniq x N M : (IZR N - 1 < x <= IZR N)%R -> (IZR M - 1 < x <= IZR M)%R -> N = M.
Proof.
  intros [A B] [C D]. assert (E1 : (IZR (N - 1) < IZR M)%R) by (rewrite minus_IZR; lra). assert (E2 : (IZR (M - 1) < IZR N)%R) by (rewrite minus_IZR; lra).
  apply lt_IZR in E1. apply lt_IZR in E2. lia.
Qed.
Lemma rate_one (run : Z -> R -> Prop) NL e1 e2 r : 0 < NL -> (forall x, run 50 x <-> x = (sqrt (IZR NL) * e1)%R) -> (forall x, run 100 x <-> x = (sqrt (IZR NL) * e2)%R) ->
  main_rate run r <-> r = log2 (e1 / e2).
Proof.
  intros HL Q1 Q2. assert (L0 : (0 < sqrt (IZR NL))%R) by (apply sqrt_lt_R0; now apply IZR_lt).
  assert (E : (sqrt (IZR NL) * e1 / (sqrt (IZR NL) * e2) = e1 / e2)%R).
  { unfold Rdiv. rewrite Rinv_mult. generalize (/ e2)%R. intros z. field. lra. }
  split.
  - intros (a & b & A & B & ->). apply Q1 in A. apply Q2 in B. subst a b. now rewrite E.
  - intros ->. exists (sqrt (IZR NL) * e1)%R, (sqrt (IZR NL) * e2)%R. rewrite E. repeat split; [now apply Q1|now apply Q2].
Qed.
Lemma C88_nonlinear_test_error_proof :
  forall (n N : Z), 1 <= n -> (IZR N - 1 < nl_timeend / nl_dt n <= IZR N)%R -> exists e : R, forall (cf : config), let S := MS.setup cf n in setup_ok S ->
  always (sdims S) (program S RK4 nl_init (loop_steps (A:=RA) N (nl_timeend / IZR N)%R)) (mzero RA) (fun m' =>
    (forall k, 0 <= k < d_nlayers (sdims S) ->
      let err c := (mr m' (HCell St) [c; k] - MS.h (mr m' XCell [c]) (mr m' YCell [c]) nl_timeend)%R in
      sqrt (rsum (d_ncells (sdims S)) (fun c => err c * err c)%R / IZR (d_ncells (sdims S)))%R = e) /\
    forall r, nl_error_norm S (fun x y => MS.h x y nl_timeend) m' r <-> r = Some (sqrt (IZR (d_nlayers (sdims S))) * e)%R).
Proof.
  intros n N Hn HN. assert (N0 : (1 <= IZR n)%R) by now apply IZR_le.
  set (steps := loop_steps (A:=RA) N (nl_timeend / IZR N)%R). set (ex := fun x y => MS.h x y nl_timeend).
  assert (D : {3 * (n * n) <= INT_MAX} + {~ 3 * (n * n) <= INT_MAX}) by apply Z_le_dec. destruct D as [D|D].
  2:{ exists 0%R. intros cf S Hok. exfalso. apply D. apply (proj1 Hok). }
  set (S0 := MS.setup cf0 n). assert (Ok0 : setup_ok S0) by (apply ok_ref; [exact Hn|exact D|cbn; lia]).
  assert (Hd : (0 < (dc (mesh_of_setup S0) : R))%R) by (cbn; unfold MS.lx; apply Rdiv_lt_0_compat; lra).
  destruct (prog_ex S0 Ok0 RK4 nl_init steps) as [m0 X0]. exists (rms (d_ncells (sdims S0)) (dev_h ex m0 0)).
  intros cf S Hok.
  assert (U : change_of_units S0 S 1 1 1).
  { unfold change_of_units. cbv zeta. rewrite !pow1, !Rmult_1_r, !Rmult_1_l. do 6 (split; [reflexivity|]). split; [auto|]. do 2 (split; [reflexivity|]). cbn. intros x y t. rewrite !Rmult_1_l. replace (1 / 1)%R with 1%R by field. rewrite !Rmult_1_l. auto. }
  assert (Uf : unforced S0) by (intros Hu; destruct Hu; discriminate).
  pose proof (nlay1 S Hok eq_refl) as L1. pose proof (nlay1 S0 Ok0 eq_refl) as L0.
  assert (NC0 : 0 < d_ncells (sdims S)) by (cbn; clear - Hn; nia).
  destruct (prog_always S Hok RK4 nl_init steps) as [_ PE]. split; [|destruct PE as [q PE]; exists q; exact PE].
  intros o Ho. destruct (prog_always S Hok RK4 nl_init steps) as [PA _]. destruct (PA o Ho) as (m & -> & Rm). exists m. split; [reflexivity|].
  assert (E : forall k c, 0 <= k < d_nlayers (sdims S) -> 0 <= c < d_ncells (sdims S) -> dev_h ex m k c = dev_h ex m0 0 c).
  { intros k c Hk Hc. destruct (two_same S0 S Ok0 Hok Hd U Uf RK4 nl_init steps m0 m X0 Ho 0 k ltac:(lia) Hk ex) as [A _]. exact (A c Hc). }
  split.
  - intros k Hk err. unfold rms. f_equal. f_equal. apply rsum_ext. intros c Hc. change (err c) with (dev_h ex m k c). now rewrite E.
  - intros r. eapply iff_trans; [exact (nl_error_rms S Hok m ex L1 r)|]. change (d_ncells (sdims S0)) with (d_ncells (sdims S)). rewrite <- (rms_all (d_nlayers (sdims S)) (d_ncells (sdims S)) (dev_h ex m) (dev_h ex m0 0) L1 NC0 E). reflexivity.
Qed.

Lemma C88_advection_test_error_proof :
  forall (n N : Z), 1 <= n -> (IZR N - 1 < ta_timeend / ta_dt n <= IZR N)%R -> exists e : R, forall (f0 : R) (cf : config), let S := ta_setup cf f0 n in setup_ok S ->
  always (sdims S) (program S (LSRK 5) ta_init (loop_steps (A:=RA) N (ta_timeend / IZR N)%R)) (mzero RA) (fun m' =>
    (forall k, 0 <= k < d_nlayers (sdims S) ->
      let err c := (mr m' (TrCell St) [0%Z; c; k] - TA.tr (mr m' XCell [c]) (mr m' YCell [c]) ta_timeend)%R in
      sqrt (rsum (d_ncells (sdims S)) (fun c => err c * err c)%R / IZR (d_ncells (sdims S)))%R = e) /\
    forall r, error_norm S (fun x y => TA.tr x y ta_timeend) m' r <-> r = Some (sqrt (IZR (d_nlayers (sdims S))) * e)%R).
Proof.
  intros n N Hn HN. assert (N0 : (1 <= IZR n)%R) by now apply IZR_le.
  set (steps := loop_steps (A:=RA) N (ta_timeend / IZR N)%R). set (ex := fun x y => TA.tr x y ta_timeend).
  assert (D : {3 * (n * n) <= INT_MAX} + {~ 3 * (n * n) <= INT_MAX}) by apply Z_le_dec. destruct D as [D|D].
  2:{ exists 0%R. intros f0 cf S Hok. exfalso. apply D. apply (proj1 Hok). }
  set (S0 := ta_setup cf0 0 n). assert (Ok0 : setup_ok S0) by (apply ok_ref; [exact Hn|exact D|cbn; lia]).
  assert (Hd : (0 < (dc (mesh_of_setup S0) : R))%R) by (cbn; unfold TA.lx; apply Rdiv_lt_0_compat; lra).
  destruct (prog_ex S0 Ok0 (LSRK 5) ta_init steps) as [m0 X0]. exists (rms (d_ncells (sdims S0)) (dev_t ex m0 0)).
  intros f0 cf S Hok.
  assert (U : change_of_units S0 S 1 1 1).
  { unfold change_of_units. cbv zeta. rewrite !pow1, !Rmult_1_r, !Rmult_1_l. do 6 (split; [reflexivity|]). split; [discriminate|]. do 2 (split; [reflexivity|]). exact I. }
  assert (Uf : unforced S0) by (intros Hu; reflexivity).
  pose proof (nlay1 S Hok eq_refl) as L1. pose proof (nlay1 S0 Ok0 eq_refl) as L0.
  assert (NC0 : 0 < d_ncells (sdims S)) by (cbn; clear - Hn; nia).
  destruct (prog_always S Hok (LSRK 5) ta_init steps) as [_ PE]. split; [|destruct PE as [q PE]; exists q; exact PE].
  intros o Ho. destruct (prog_always S Hok (LSRK 5) ta_init steps) as [PA _]. destruct (PA o Ho) as (m & -> & Rm). exists m. split; [reflexivity|].
  assert (E : forall k c, 0 <= k < d_nlayers (sdims S) -> 0 <= c < d_ncells (sdims S) -> dev_t ex m k c = dev_t ex m0 0 c).
  { intros k c Hk Hc. destruct (two_same S0 S Ok0 Hok Hd U Uf (LSRK 5) ta_init steps m0 m X0 Ho 0 k ltac:(lia) Hk ex) as [_ A]. apply A; [cbn; lia|exact Hc]. }
  split.
  - intros k Hk err. unfold rms. f_equal. f_equal. apply rsum_ext. intros c Hc. change (err c) with (dev_t ex m k c). now rewrite E.
  - intros r. eapply iff_trans; [exact (error_rms S Hok m ex eq_refl L1 r)|]. change (d_ncells (sdims S0)) with (d_ncells (sdims S)). rewrite <- (rms_all (d_nlayers (sdims S)) (d_ncells (sdims S)) (dev_t ex m) (dev_t ex m0 0) L1 NC0 E). reflexivity.
Qed.

Lemma C88_one_verdict_proof :
  (exists rate : R, forall cf : config, setup_ok (MS.setup cf 50) -> setup_ok (MS.setup cf 100) -> forall r, main_rate (nl_run cf) r <-> r = rate) /\
  (exists rate : R, forall (cf : config) (f0 : R), setup_ok (ta_setup cf f0 50) -> setup_ok (ta_setup cf f0 100) -> forall r, main_rate (ta_run cf f0) r <-> r = rate).
Proof.
  split.
  - destruct (C88_nonlinear_test_error_proof 50 60 ltac:(lia) ltac:(unfold nl_timeend, nl_dt, MS.lx; lra)) as [e1 H1].
    destruct (C88_nonlinear_test_error_proof 100 120 ltac:(lia) ltac:(unfold nl_timeend, nl_dt, MS.lx; lra)) as [e2 H2].
    exists (log2 (e1 / e2)). intros cf K1 K2 r.
    assert (Q1 : forall x, nl_run cf 50 x <-> x = (sqrt (IZR (d_nlayers (sdims (MS.setup cf 50)))) * e1)%R).
    { intros x. destruct (H1 cf K1) as [A [m A2]]. split.
      - intros (N & m' & HN & Hx & He). assert (N = 60) by (apply (ceil_uniq _ _ _ HN); unfold nl_timeend, nl_dt, MS.lx; lra). subst N.
        destruct (A _ Hx) as (n & E & _ & G). injection E as <-. apply G in He. now injection He.
      - intros ->. exists 60, m. split; [unfold nl_timeend, nl_dt, MS.lx; lra|]. split; [exact A2|]. destruct (A _ A2) as (n & E & _ & G). injection E as <-. now apply G. }
    assert (Q2 : forall x, nl_run cf 100 x <-> x = (sqrt (IZR (d_nlayers (sdims (MS.setup cf 100)))) * e2)%R).
    { intros x. destruct (H2 cf K2) as [A [m A2]]. split.
      - intros (N & m' & HN & Hx & He). assert (N = 120) by (apply (ceil_uniq _ _ _ HN); unfold nl_timeend, nl_dt, MS.lx; lra). subst N.
        destruct (A _ Hx) as (n & E & _ & G). injection E as <-. apply G in He. now injection He.
      - intros ->. exists 120, m. split; [unfold nl_timeend, nl_dt, MS.lx; lra|]. split; [exact A2|]. destruct (A _ A2) as (n & E & _ & G). injection E as <-. now apply G. }
    apply (rate_one (nl_run cf) _ e1 e2 r (nlay1 _ K1 eq_refl) Q1 Q2).
  - destruct (C88_advection_test_error_proof 50 100 ltac:(lia) ltac:(unfold ta_timeend, ta_dt, TA.lx; lra)) as [e1 H1].
    destruct (C88_advection_test_error_proof 100 200 ltac:(lia) ltac:(unfold ta_timeend, ta_dt, TA.lx; lra)) as [e2 H2].
    exists (log2 (e1 / e2)). intros cf f0 K1 K2 r.
    assert (Q1 : forall x, ta_run cf f0 50 x <-> x = (sqrt (IZR (d_nlayers (sdims (ta_setup cf f0 50)))) * e1)%R).
    { intros x. destruct (H1 f0 cf K1) as [A [m A2]]. split.
      - intros (N & m' & HN & Hx & He). assert (N = 100) by (apply (ceil_uniq _ _ _ HN); unfold ta_timeend, ta_dt, TA.lx; lra). subst N.
        destruct (A _ Hx) as (n & E & _ & G). injection E as <-. apply G in He. now injection He.
      - intros ->. exists 100, m. split; [unfold ta_timeend, ta_dt, TA.lx; lra|]. split; [exact A2|]. destruct (A _ A2) as (n & E & _ & G). injection E as <-. now apply G. }
    assert (Q2 : forall x, ta_run cf f0 100 x <-> x = (sqrt (IZR (d_nlayers (sdims (ta_setup cf f0 100)))) * e2)%R).
    { intros x. destruct (H2 f0 cf K2) as [A [m A2]]. split.
      - intros (N & m' & HN & Hx & He). assert (N = 200) by (apply (ceil_uniq _ _ _ HN); unfold ta_timeend, ta_dt, TA.lx; lra). subst N.
        destruct (A _ Hx) as (n & E & _ & G). injection E as <-. apply G in He. now injection He.
      - intros ->. exists 200, m. split; [unfold ta_timeend, ta_dt, TA.lx; lra|]. split; [exact A2|]. destruct (A _ A2) as (n & E & _ & G). injection E as <-. now apply G. }
    apply (rate_one (ta_run cf f0) _ e1 e2 r (nlay1 _ K1 eq_refl) Q1 Q2).
Qed.

