(** Proofs of the properties of [PropsTests.v]. *)
From Coq Require Import ZArith Znumtheory Reals List Bool Lia Lra SpecFloat.
From Verif Require Import Arith Arrays Prog Conc Launch Mesh AuxVars Tend Model RSum Hex MeshProof MeshMem Ready Relate StepVal StepRun StepThms Diag ConsThms Driver DriverFn DriverThms TestFns Deriv.
Import ListNotations.
Open Scope R_scope.

(** ** The double vortex *)
Lemma bump_le xc yc x y : 0 < DV.bump xc yc x y <= 1.
Proof.
  unfold DV.bump. split; [apply exp_pos|]. enough (exp (- (1 / 2) * (DV.xprime xc x * DV.xprime xc x + DV.yprime yc y * DV.yprime yc y)) <= exp 0) by (rewrite exp_0 in *; lra).
  set (a := DV.xprime xc x). set (b := DV.yprime yc y).
  assert (H : - (1 / 2) * (a * a + b * b) <= 0) by nra. destruct H as [H|H]; [left; now apply exp_increasing|right; now f_equal].
Qed.
Lemma dv_h_pos x y : 600 <= DV.h x y.
Proof.
  unfold DV.h. pose proof (bump_le DV.xc1 DV.yc1 x y). pose proof (bump_le DV.xc2 DV.yc2 x y). pose proof PI_RGT_0.
  assert (0 <= 4 * PI * DV.sigmax * DV.sigmay / DV.lx / DV.ly) by (unfold DV.sigmax, DV.sigmay, DV.lx, DV.ly; lra).
  unfold DV.h0, DV.dh. lra.
Qed.
Lemma sqrt3_pos : 0 < sqrt 3. Proof. apply sqrt_lt_R0. lra. Qed.
Lemma sqrt3_sq : sqrt 3 * sqrt 3 = 3. Proof. apply sqrt_sqrt. lra. Qed.
Lemma sqrt3_lo : 17 / 10 < sqrt 3. Proof. pose proof sqrt3_pos. pose proof sqrt3_sq. nra. Qed.
Lemma sqrt3_hi : sqrt 3 < 18 / 10. Proof. pose proof sqrt3_pos. pose proof sqrt3_sq. nra. Qed.
Lemma dv_rows nx : (1 <= nx)%Z -> DV.rows nx * sqrt 3 = 2 * IZR nx.
Proof.
  intros H. apply IZR_le in H. unfold DV.rows, DV.dc, DV.lx, DV.ly. pose proof sqrt3_pos. field. lra.
Qed.

(** No multiple of 1 / sqrt 3 is an integer. *)
Lemma no_ratio3 (a b : Z) : (3 * (b * b) = a * a)%Z -> a = 0%Z.
Proof.
  assert (G : forall n a b, (0 <= a <= Z.of_nat n)%Z -> (3 * (b * b) = a * a)%Z -> a = 0%Z).
  { induction n as [|n IH]; intros x y Hx E; [lia|].
    assert (P3 : prime 3) by (apply prime_3).
    assert (D : (3 | x * x)%Z) by (exists (y * y)%Z; lia). apply prime_mult in D; [|exact P3].
    assert (Dx : (3 | x)%Z) by tauto. destruct Dx as [x' ->].
    assert (E2 : (y * y = 3 * (x' * x'))%Z) by lia.
    assert (D2 : (3 | y * y)%Z) by (exists (x' * x')%Z; lia). apply prime_mult in D2; [|exact P3].
    assert (Dy : (3 | y)%Z) by tauto. destruct Dy as [y' ->].
    destruct (Z.eq_dec x' 0); [lia|]. enough (x' = 0%Z) by lia. apply (IH x' y'); lia. }
  intros E. destruct (Z_le_gt_dec 0 a).
  - apply (G (Z.to_nat a) a b); lia.
  - enough (- a = 0)%Z by lia. apply (G (Z.to_nat (- a)) (- a)%Z b); lia.
Qed.
Lemma dv_ny nx ny : (1 <= nx)%Z -> IZR ny - 1 < DV.rows nx <= IZR ny -> 
  DV.rows nx < IZR ny /\ IZR ny < 2 * DV.rows nx /\ (2 <= ny)%Z.
Proof.
  intros Hn [H1 H2]. pose proof (dv_rows nx Hn) as E. pose proof sqrt3_pos. pose proof sqrt3_sq. pose proof sqrt3_hi.
  assert (1 <= IZR nx) by now apply IZR_le.
  assert (L : 11 / 10 < DV.rows nx).
  { apply Rmult_lt_reg_r with (sqrt 3); [lra|]. rewrite E. lra. }
  assert (N : DV.rows nx <> IZR ny).
  { intros Q. rewrite Q in E. assert (W : 3 * (IZR ny * IZR ny) = (2 * IZR nx) * (2 * IZR nx)) by (rewrite <- E; nra).
    assert (Wz : (3 * (ny * ny) = 2 * nx * (2 * nx))%Z).
    { apply eq_IZR. rewrite !mult_IZR. exact W. }
    apply no_ratio3 in Wz. lia. }
  split; [lra|]. split; [lra|]. apply Z.lt_le_incl in Hn || idtac.
  assert (1 < ny)%Z by (apply lt_IZR; lra). lia.
Qed.
Lemma dv_period nx ny : (1 <= nx)%Z -> period_y (mesh_of_setup (DV.setup (mkConfig false false false 1) nx ny)) = IZR ny / DV.rows nx * DV.ly.
Proof.
  intros Hn. unfold period_y. cbn. apply IZR_le in Hn. unfold DV.rows, DV.dc, DV.lx, DV.ly. pose proof sqrt3_pos. field. lra.
Qed.

Lemma rsum_pos n f : (0 < n)%Z -> (forall i, (0 <= i < n)%Z -> 0 < f i) -> 0 < rsum n f.
Proof.
  intros Hn H. replace n with ((n - 1) + 1)%Z by lia. rewrite rsum_succ by lia.
  assert (0 <= rsum (n - 1) f) by (apply rsum_nonneg; intros i Hi; left; apply H; lia).
  pose proof (H (n - 1)%Z ltac:(lia)). lra.
Qed.

Lemma C54_double_vortex_checks_pass_proof :
  forall (cf : config) (nx ny : Z) (steps : list (R * R)), let S := DV.setup cf nx ny in
  (2 <= nx)%Z -> IZR ny - 1 < DV.rows nx <= IZR ny -> setup_ok S ->
  always (sdims S) (program S (LSRK 5) DV.init steps) (mzero RA) (fun m' =>
    exists m, exec (sdims S) (prologue S (LSRK 5) DV.init) (mzero RA) (OK m) /\ exec (sdims S) (stepper_run S (LSRK 5) steps) m (OK m') /\
    exists mass0 massf cir0 cirf : R,
    (forall r, mass_integral S St m r <-> r = Some mass0) /\ (forall r, mass_integral S St m' r <-> r = Some massf) /\
    (forall r, circulation_integral S St m r <-> r = Some cir0) /\ (forall r, circulation_integral S St m' r <-> r = Some cirf) /\
    0 < mass0 /\ 0 < cir0 /\ (massf - mass0) / mass0 = 0 /\ (cirf - cir0) / cir0 = 0).
Proof.
  intros cf nx ny steps S Hnx Hny Hok.
  destruct (dv_ny nx ny ltac:(lia) Hny) as (_ & _ & Hny2).
  assert (Hnx' : 2 <= IZR nx) by now apply IZR_le.
  assert (Hdc : 0 < DV.dc nx) by (unfold DV.dc, DV.lx; apply Rdiv_lt_0_compat; lra).
  eapply always_weaken; [apply (program_split S Hok (LSRK 5) DV.init steps (fun m m' =>
    exec (sdims S) (stepper_run S (LSRK 5) steps) m (OK m') /\
    exists mass0 massf cir0 cirf : R,
    (forall r, mass_integral S St m r <-> r = Some mass0) /\ (forall r, mass_integral S St m' r <-> r = Some massf) /\
    (forall r, circulation_integral S St m r <-> r = Some cir0) /\ (forall r, circulation_integral S St m' r <-> r = Some cirf) /\
    0 < mass0 /\ 0 < cir0 /\ (massf - mass0) / mass0 = 0 /\ (cirf - cir0) / cir0 = 0))|].
  2: { intros m' (m & X & Y & Q). eauto. }
  intros m Hx. destruct (prologue_spec S Hok (LSRK 5) DV.init m Hx) as (R & _ & I).
  pose proof (proj2 (C25_mass_conserved_proof S Hok Hdc Hnx Hny2 eq_refl eq_refl steps m R) 5%Z) as M.
  pose proof (hsafe_always _ _ _ _ (hs_stepper_run S Hok (LSRK 5) steps m (ready_wfm S Hok m R))) as W.
  destruct W as [W1 W2]. split; [|exact W2]. intros o Ho. destruct (W1 o Ho) as (m' & -> & Em).
  exists m'. split; [reflexivity|]. split; [exact Ho|].
  destruct (proj1 M _ Ho) as (m2 & E2 & Q). injection E2 as <-.
  assert (R' : ready S m').
  { eapply ready_meq; [apply meq_sym; exact Em|]. eapply ready_cst; [apply cst_lsrk_run|exact R]. }
  assert (U : forall n, ready S n -> (exists r, mass_integral S St n r) /\ forall r r', mass_integral S St n r -> mass_integral S St n r' -> r = r').
  { intros n Rn. split; [apply reduces_ex|]. intros r r' A B. apply (mass_sum S Hok n Rn) in A. apply (mass_sum S Hok n Rn) in B. congruence. }
  destruct (U m R) as [[r Hr] Ur]. destruct (U m' R') as [[r' Hr'] Ur'].
  destruct (Q r r' Hr Hr') as [-> [x ->]].
  destruct (C27_circulation_is_constant_proof S Hok Hdc St m R) as [[c Hc] Uc].
  destruct (C27_circulation_is_constant_proof S Hok Hdc St m' R') as [[c' Hc'] Uc'].
  pose proof (Uc _ Hc) as Ec. pose proof (Uc' _ Hc') as Ec'. rewrite Ec in Hc. rewrite Ec' in Hc'.
  set (cc := (IZR (d_nlayers (sdims S)) * f0 (par_of S) * (period_x (mesh_of_setup S) * period_y (mesh_of_setup S)))%R) in *.
  assert (NLp : (0 < d_nlayers (sdims S))%Z).
  { change (0 < zceil 1 (vector_length cf) * vector_length cf)%Z. assert (V : (0 < vector_length cf)%Z) by (destruct Hok as ((_ & _ & _ & Hm & _) & _); cbn in Hm; unfold vector_length; destruct (no_simd cf); lia).
    unfold zceil. change (- (1))%Z with (-1)%Z. pose proof (Z.div_lt_upper_bound (-1) (vector_length cf) 0 V ltac:(lia)). nia. }
  assert (mp : 0 < x).
  { apply (mass_sum S Hok m R) in Hr. injection Hr as ->. apply rsum_pos; [cbn; lia|]. intros i Hi. apply rsum_pos; [exact NLp|]. intros k Hk.
    apply Rmult_lt_0_compat.
    - rewrite (hm_area _ _ _ (ready_hex S Hok m R)) by exact Hi. unfold hareac. change (0 < DV.dc nx * DV.dc nx * sqrt 3 / 2).
      pose proof (Rmult_lt_0_compat _ _ (Rmult_lt_0_compat _ _ Hdc Hdc) sqrt3_pos). lra.
    - destruct (I k Hk) as (I1 & _ & _). rewrite I1 by exact Hi. cbn. pose proof (dv_h_pos (mr m XCell [i]) (mr m YCell [i])). lra. }
  assert (cp : 0 < cc).
  { unfold cc. apply Rmult_lt_0_compat; [apply Rmult_lt_0_compat|apply Rmult_lt_0_compat].
    - now apply IZR_lt.
    - cbn. unfold DV.coriolis. lra.
    - unfold period_x. cbn. apply Rmult_lt_0_compat; [lra|exact Hdc].
    - unfold period_y. change (0 < IZR ny * DV.dc nx * sqrt 3 / 2). apply IZR_le in Hny2. assert (Q0 : 0 < IZR ny) by lra.
      pose proof (Rmult_lt_0_compat _ _ (Rmult_lt_0_compat _ _ Q0 Hdc) sqrt3_pos). lra. }
  exists x, x, cc, cc.
  split; [intros r0; split; [intros H; now apply Ur|now intros ->]|].
  split; [intros r0; split; [intros H; now apply Ur'|now intros ->]|].
  split; [intros r0; split; [apply Uc|now intros ->]|]. split; [intros r0; split; [apply Uc'|now intros ->]|].
  split; [exact mp|]. split; [exact cp|]. split; unfold Rdiv; (rewrite Rminus_diag_eq by reflexivity); apply Rmult_0_l.
Qed.

Lemma C54_nan_passes_the_checks_proof :
  forall (initial tol : spec_float),
  SFltb tol (SFabs (SFdiv 53 1024 (SFsub 53 1024 S754_nan initial) initial)) = false.
Proof.
  intros i tol. destruct i, tol; reflexivity.
Qed.

Lemma C55_double_vortex_is_balanced_proof :
  forall x y : R,
  (exists hx, derivable_pt_lim (fun s => DV.h s y) x hx /\ DV.coriolis * DV.vy x y = DV.g * hx) /\
  (exists hy, derivable_pt_lim (fun s => DV.h x s) y hy /\ DV.coriolis * DV.vx x y = - DV.g * hy) /\
  (exists ux vy, derivable_pt_lim (fun s => DV.vx s y) x ux /\ derivable_pt_lim (fun s => DV.vy x s) y vy /\ ux + vy = 0).
Proof.
  intros x y. pose proof PI_RGT_0 as Hpi.
  assert (DX : forall l c s, 2 * PI / l * (s - c) = 2 * (PI / l * (s - c))) by (intros; unfold Rdiv; ring).
  split; [|split].
  - eexists. split.
    + unfold DV.h, DV.bump, DV.xprime. der. reflexivity.
    + unfold DV.vy, DV.bump, DV.xprimeprime, DV.xprime. rewrite !DX, !sin_2a.
      set (E1 := exp _). set (E2 := exp _). unfold DV.g, DV.coriolis, DV.dh, DV.sigmax, DV.lx. field. lra.
  - eexists. split.
    + unfold DV.h, DV.bump, DV.yprime. der. reflexivity.
    + unfold DV.vx, DV.bump, DV.yprimeprime, DV.yprime. rewrite !DX, !sin_2a.
      set (E1 := exp _). set (E2 := exp _). unfold DV.g, DV.coriolis, DV.dh, DV.sigmay, DV.ly. field. lra.
  - eexists. eexists. split; [|split].
    + unfold DV.vx, DV.bump, DV.xprime. der. reflexivity.
    + unfold DV.vy, DV.bump, DV.yprime. der. reflexivity.
    + unfold DV.yprimeprime, DV.xprimeprime, DV.xprime, DV.yprime. rewrite !DX, !sin_2a.
      set (E1 := exp _). set (E2 := exp _). unfold DV.g, DV.coriolis, DV.dh, DV.sigmax, DV.sigmay, DV.ly, DV.lx. field. lra.
Qed.

Lemma C55_double_vortex_periodic_refuted_proof :
  forall (cf : config) (nx ny : Z), let S := DV.setup cf nx ny in
  (1 <= nx)%Z -> IZR ny - 1 < DV.rows nx <= IZR ny ->
  (forall x y, DV.h (x + period_x (mesh_of_setup S)) y = DV.h x y) /\
  DV.ly < period_y (mesh_of_setup S) < 2 * DV.ly /\
  exists x y, DV.h x (y + period_y (mesh_of_setup S)) <> DV.h x y.
Proof.
  intros cf nx ny S Hn Hny. destruct (dv_ny nx ny Hn Hny) as (L1 & L2 & _).
  assert (Hn' : 1 <= IZR nx) by now apply IZR_le. pose proof sqrt3_pos as H3. pose proof PI_RGT_0 as Hpi.
  assert (Rp : 0 < DV.rows nx) by (pose proof (dv_rows nx Hn); nra).
  assert (Px : period_x (mesh_of_setup S) = DV.lx) by (unfold period_x; cbn; unfold DV.dc; field; lra).
  assert (Py : period_y (mesh_of_setup S) = IZR ny / DV.rows nx * DV.ly) by exact (dv_period nx ny Hn).
  assert (Lp : 0 < DV.ly) by (unfold DV.ly; lra). rewrite Px, Py. set (p := IZR ny / DV.rows nx * DV.ly).
  assert (Q : 1 < IZR ny / DV.rows nx < 2).
  { assert (E : IZR ny / DV.rows nx * DV.rows nx = IZR ny) by (field; lra). split; nra. }
  split; [|split].
  - intros x y. unfold DV.h, DV.bump. 
    assert (E : forall xc, DV.xprime xc (x + DV.lx) = - DV.xprime xc x).
    { intros xc. unfold DV.xprime. replace (PI / DV.lx * (x + DV.lx - xc)) with (PI / DV.lx * (x - xc) + PI) by (field; unfold DV.lx; lra).
      rewrite neg_sin. ring. }
    rewrite !E, !Rmult_opp_opp. reflexivity.
  - unfold p. split; nra.
  - (* if not, the y-dependence of the first vortex would have period p *)
    destruct (Req_dec (DV.h DV.xc1 (DV.yc1 + p)) (DV.h DV.xc1 DV.yc1)) as [E1|N]; [|eauto].
    destruct (Req_dec (DV.h DV.xc2 (DV.yc1 + p)) (DV.h DV.xc2 DV.yc1)) as [E2|N]; [|eauto].
    exfalso. unfold DV.h, DV.bump in E1, E2.
    assert (SS : forall xc yc x y, exp (- (1 / 2) * (DV.xprime xc x * DV.xprime xc x + DV.yprime yc y * DV.yprime yc y)) =
      exp (- (1 / 2) * (DV.xprime xc x * DV.xprime xc x)) * exp (- (1 / 2) * (DV.yprime yc y * DV.yprime yc y))).
    { intros. rewrite <- exp_plus. f_equal. ring. }
    rewrite !SS in E1, E2. clear SS.
    assert (X0 : forall xc, DV.xprime xc xc = 0) by (intros; unfold DV.xprime; replace (PI / DV.lx * (xc - xc)) with 0 by ring; rewrite sin_0; ring).
    assert (X1 : DV.xprime DV.xc2 DV.xc1 = - DV.xprime DV.xc1 DV.xc2).
    { unfold DV.xprime. replace (PI / DV.lx * (DV.xc1 - DV.xc2)) with (- (PI / DV.lx * (DV.xc2 - DV.xc1))) by ring. rewrite sin_neg. ring. }
    rewrite X1, !X0, !Rmult_opp_opp in *. clear X0 X1.
    replace (- (1 / 2) * (0 * 0)) with 0 in * by ring. rewrite exp_0 in *.
    set (c := exp (- (1 / 2) * (DV.xprime DV.xc1 DV.xc2 * DV.xprime DV.xc1 DV.xc2))) in *.
    assert (Hc : 0 < c < 1).
    { unfold c. split; [apply exp_pos|]. apply Rlt_le_trans with (exp 0); [|rewrite exp_0; lra]. apply exp_increasing.
      enough (DV.xprime DV.xc1 DV.xc2 <> 0) by nra. unfold DV.xprime.
      replace (PI / DV.lx * (DV.xc2 - DV.xc1)) with (PI / 5) by (unfold DV.xc1, DV.xc2, DV.ox, DV.lx; field).
      assert (0 < sin (PI / 5)) by (apply sin_gt_0; lra).
      apply Rmult_integral_contrapositive. split; [|lra]. unfold DV.lx, DV.sigmax, DV.lx. apply Rgt_not_eq. apply Rdiv_lt_0_compat; [lra|]. nra. }
    set (a := exp (- (1 / 2) * (DV.yprime DV.yc1 (DV.yc1 + p) * DV.yprime DV.yc1 (DV.yc1 + p)))) in *.
    set (b := exp (- (1 / 2) * (DV.yprime DV.yc2 (DV.yc1 + p) * DV.yprime DV.yc2 (DV.yc1 + p)))) in *.
    set (b' := exp (- (1 / 2) * (DV.yprime DV.yc2 DV.yc1 * DV.yprime DV.yc2 DV.yc1))) in *.
    unfold DV.dh in *.
    assert (F1 : (a - 1) + c * (b - b') = 0) by lra.
    assert (F2 : c * (a - 1) + (b - b') = 0) by lra.
    assert (Ea : a = exp 0) by (rewrite exp_0; assert (Z0 : (a - 1) * (1 - c * c) = 0) by nra; apply Rmult_integral in Z0; destruct Z0 as [Z0|Z0]; [lra|nra]).
    unfold a in Ea. apply exp_inv in Ea.
    unfold DV.yprime in Ea.
    replace (PI / DV.ly * (DV.yc1 + p - DV.yc1)) with (IZR ny / DV.rows nx * PI) in Ea by (unfold p; field; lra).
    set (q := IZR ny / DV.rows nx) in *.
    assert (Sq : sin (q * PI) < 0) by (apply sin_lt_0; nra).
    assert (Hk : 0 < DV.ly / (PI * DV.sigmay)) by (unfold DV.sigmay; apply Rdiv_lt_0_compat; [lra|]; nra).
    set (k := DV.ly / (PI * DV.sigmay)) in *.
    assert (U : k * sin (q * PI) < 0) by nra. set (u := k * sin (q * PI)) in *. nra.
Qed.

Lemma C56_manufactured_solution_solves_the_equations_proof :
  forall x y t : R,
  exists ht fx fy hx hy ut ux uy vt vx vy : R,
  derivable_pt_lim (fun s => MS.h x y s) t ht /\ derivable_pt_lim (fun s => MS.h s y t * MS.vx s y t) x fx /\
  derivable_pt_lim (fun s => MS.h x s t * MS.vy x s t) y fy /\
  derivable_pt_lim (fun s => MS.h s y t) x hx /\ derivable_pt_lim (fun s => MS.h x s t) y hy /\
  derivable_pt_lim (fun s => MS.vx x y s) t ut /\ derivable_pt_lim (fun s => MS.vx s y t) x ux /\ derivable_pt_lim (fun s => MS.vx x s t) y uy /\
  derivable_pt_lim (fun s => MS.vy x y s) t vt /\ derivable_pt_lim (fun s => MS.vy s y t) x vx /\ derivable_pt_lim (fun s => MS.vy x s t) y vy /\
  ht + fx + fy = MS.h_tend x y t /\
  ut + MS.vx x y t * ux + MS.vy x y t * uy - MS.f0 * MS.vy x y t + MS.grav * hx = MS.vx_tend x y t /\
  vt + MS.vx x y t * vx + MS.vy x y t * vy + MS.f0 * MS.vx x y t + MS.grav * hy = MS.vy_tend x y t.
Proof.
  intros x y t. do 11 eexists.
  split; [unfold MS.h, MS.phi; der; reflexivity|]. split; [unfold MS.h, MS.vx, MS.phi; der; reflexivity|].
  split; [unfold MS.h, MS.vy, MS.phi; der; reflexivity|]. split; [unfold MS.h, MS.phi; der; reflexivity|].
  split; [unfold MS.h, MS.phi; der; reflexivity|]. split; [unfold MS.vx, MS.phi; der; reflexivity|].
  split; [unfold MS.vx, MS.phi; der; reflexivity|]. split; [unfold MS.vx, MS.phi; der; reflexivity|].
  split; [unfold MS.vy, MS.phi; der; reflexivity|]. split; [unfold MS.vy, MS.phi; der; reflexivity|].
  split; [unfold MS.vy, MS.phi; der; reflexivity|].
  unfold MS.h_tend, MS.vx_tend, MS.vy_tend, MS.vx, MS.vy. fold (MS.phi x y t). rewrite cos_2a, sin_2a.
  unfold MS.eta0. set (s := sin (MS.phi x y t)). set (c := cos (MS.phi x y t)).
  repeat split; field.
Qed.

Lemma C56_manufactured_solution_is_periodic_proof :
  forall (cf : config) (n : Z) (f : R -> R -> R -> R), (1 <= n)%Z ->
  In f [MS.h; MS.vx; MS.vy; MS.h_tend; MS.vx_tend; MS.vy_tend] ->
  forall x y t, f (x + period_x (mesh_of_setup (MS.setup cf n))) y t = f x y t /\ f x (y + period_y (mesh_of_setup (MS.setup cf n))) t = f x y t.
Proof.
  intros cf n f Hn Hf x y t. apply IZR_le in Hn. pose proof PI_RGT_0 as Hpi. pose proof sqrt3_pos as H3.
  assert (Px : period_x (mesh_of_setup (MS.setup cf n)) = MS.lx) by (unfold period_x; cbn; field; lra).
  assert (Py : period_y (mesh_of_setup (MS.setup cf n)) = MS.ly) by (unfold period_y, MS.ly; cbn; field; lra).
  rewrite Px, Py.
  assert (E1 : MS.phi (x + MS.lx) y t = MS.phi x y t + 2 * IZR 2 * PI).
  { unfold MS.phi, MS.kx, MS.mx, MS.lx. field. }
  assert (E2 : MS.phi x (y + MS.ly) t = MS.phi x y t + 2 * IZR 2 * PI).
  { unfold MS.phi, MS.ky, MS.my. unfold MS.ly, MS.lx. field. lra. }
  assert (Sn : sin (MS.phi x y t + 2 * IZR 2 * PI) = sin (MS.phi x y t)) by (rewrite <- (sin_period (MS.phi x y t) 2); f_equal; cbn; ring).
  assert (Cn : cos (MS.phi x y t + 2 * IZR 2 * PI) = cos (MS.phi x y t)) by (rewrite <- (cos_period (MS.phi x y t) 2); f_equal; cbn; ring).
  assert (S2 : sin (2 * (MS.phi x y t + 2 * IZR 2 * PI)) = sin (2 * MS.phi x y t)) by (rewrite <- (sin_period (2 * MS.phi x y t) 4); f_equal; cbn; ring).
  assert (C2 : cos (2 * (MS.phi x y t + 2 * IZR 2 * PI)) = cos (2 * MS.phi x y t)) by (rewrite <- (cos_period (2 * MS.phi x y t) 4); f_equal; cbn; ring).
  cbn [In] in Hf. repeat (destruct Hf as [<-|Hf]); try contradiction;
    unfold MS.h, MS.vx, MS.vy, MS.h_tend, MS.vx_tend, MS.vy_tend; rewrite E1, E2, ?Sn, ?Cn, ?S2, ?C2; auto.
Qed.

Lemma C57_tracer_tests_exact_solutions_proof :
  (forall x y t, exists tt fx fy, derivable_pt_lim (fun s => TA.tr x y s) t tt /\
     derivable_pt_lim (fun s => TA.vx s y t * TA.tr s y t) x fx /\ derivable_pt_lim (fun s => TA.vy x s t * TA.tr x s t) y fy /\ tt + fx + fy = 0) /\
  (exists tx ty txx tyy : R -> R -> R -> R, forall x y t,
     derivable_pt_lim (fun s => TD.tr s y t) x (tx x y t) /\ derivable_pt_lim (fun s => TD.tr x s t) y (ty x y t) /\
     derivable_pt_lim (fun s => tx s y t) x (txx x y t) /\ derivable_pt_lim (fun s => ty x s t) y (tyy x y t) /\
     derivable_pt_lim (fun s => TD.tr x y s) t (TD.diff2 * (txx x y t + tyy x y t))) /\
  (exists tx ty lap lx ly lxx lyy : R -> R -> R -> R, forall x y t,
     derivable_pt_lim (fun s => TH.tr s y t) x (tx x y t) /\ derivable_pt_lim (fun s => TH.tr x s t) y (ty x y t) /\
     (exists txx tyy, derivable_pt_lim (fun s => tx s y t) x txx /\ derivable_pt_lim (fun s => ty x s t) y tyy /\ lap x y t = txx + tyy) /\
     derivable_pt_lim (fun s => lap s y t) x (lx x y t) /\ derivable_pt_lim (fun s => lap x s t) y (ly x y t) /\
     derivable_pt_lim (fun s => lx s y t) x (lxx x y t) /\ derivable_pt_lim (fun s => ly x s t) y (lyy x y t) /\
     derivable_pt_lim (fun s => TH.tr x y s) t (- TH.diff4 * (lxx x y t + lyy x y t))).
Proof.
  pose proof sqrt3_pos as H3. split; [|split].
  - intros x y t. do 3 eexists. split; [unfold TA.tr; der; reflexivity|]. split; [unfold TA.vx, TA.tr; der; reflexivity|].
    split; [unfold TA.vy, TA.tr; der; reflexivity|]. unfold TA.ly, TA.lx. field. lra.
  - exists (fun x y t => cos (2 * PI * x / TD.lx) * (2 * PI / TD.lx) * sin (2 * PI * y / TD.ly) * exp (- TD.diff2 * TD.c * t)).
    exists (fun x y t => sin (2 * PI * x / TD.lx) * (cos (2 * PI * y / TD.ly) * (2 * PI / TD.ly)) * exp (- TD.diff2 * TD.c * t)).
    exists (fun x y t => - sin (2 * PI * x / TD.lx) * (2 * PI / TD.lx) * (2 * PI / TD.lx) * sin (2 * PI * y / TD.ly) * exp (- TD.diff2 * TD.c * t)).
    exists (fun x y t => - sin (2 * PI * x / TD.lx) * (sin (2 * PI * y / TD.ly) * (2 * PI / TD.ly) * (2 * PI / TD.ly)) * exp (- TD.diff2 * TD.c * t)).
    intros x y t. unfold TD.tr. repeat split; der; unfold Rdiv; try ring.
    unfold TD.c, TD.ly, TD.lx. field. lra.
  - set (sx := fun x : R => sin (2 * PI * x / TH.lx)). set (cx := fun x : R => cos (2 * PI * x / TH.lx)).
    set (sy := fun y : R => sin (2 * PI * y / TH.ly)). set (cy := fun y : R => cos (2 * PI * y / TH.ly)).
    set (ex := fun t : R => exp (- TH.diff4 * TH.c * TH.c * t)).
    assert (Cc : (2 * PI / TH.lx) * (2 * PI / TH.lx) + (2 * PI / TH.ly) * (2 * PI / TH.ly) = TH.c).
    { unfold TH.c, TH.ly, TH.lx. field. lra. }
    exists (fun x y t => 2 * PI / TH.lx * cx x * sy y * ex t). exists (fun x y t => 2 * PI / TH.ly * sx x * cy y * ex t).
    exists (fun x y t => - TH.c * (sx x * sy y * ex t)).
    exists (fun x y t => - TH.c * (2 * PI / TH.lx * cx x * sy y * ex t)). exists (fun x y t => - TH.c * (2 * PI / TH.ly * sx x * cy y * ex t)).
    exists (fun x y t => TH.c * ((2 * PI / TH.lx) * (2 * PI / TH.lx) * sx x * sy y * ex t)).
    exists (fun x y t => TH.c * ((2 * PI / TH.ly) * (2 * PI / TH.ly) * sx x * sy y * ex t)).
    intros x y t. unfold TH.tr, sx, cx, sy, cy, ex. split; [|split; [|split]].
    + der. unfold Rdiv. ring.
    + der. unfold Rdiv. ring.
    + do 2 eexists. split; [der; reflexivity|]. split; [der; reflexivity|]. rewrite <- Cc. unfold Rdiv. ring.
    + repeat split; der; unfold Rdiv; try ring. 
      set (A := sin _). set (B := sin _). set (E := exp _). unfold Rdiv in Cc.
      pose proof (f_equal (fun z => - TH.diff4 * TH.c * A * B * E * z) Cc) as Cd. cbv beta in Cd.
      set (a := 2 * PI * / TH.lx) in *. set (b := 2 * PI * / TH.ly) in *. lra.
Qed.

Lemma C57_advection_thickness_proof :
  exists x y fx fy, derivable_pt_lim (fun s => TA.h x y s) 0 0 /\ derivable_pt_lim (fun s => TA.h s y 0 * TA.vx s y 0) x fx /\
  derivable_pt_lim (fun s => TA.h x s 0 * TA.vy x s 0) y fy /\ 0 + fx + fy <> 0.
Proof.
  exists (1 / 4), 0. do 2 eexists. split; [unfold TA.h; apply D_const|]. split; [unfold TA.h, TA.vx; der; reflexivity|].
  split; [unfold TA.h, TA.vy; der; reflexivity|].
  replace (2 * PI * (1 / 4) / TA.lx) with (PI / 2) by (unfold TA.lx; field). rewrite sin_PI2, cos_PI2, exp_0. unfold TA.lx.
  pose proof PI_RGT_0. lra.
Qed.

Lemma C58_operator_test_formulas_proof :
  forall Lx Ly : R, 0 < Lx -> 0 < Ly -> forall x y : R,
  derivable_pt_lim (fun s => OC.phi Lx Ly s y) x (OC.grad_x Lx Ly x y) /\ derivable_pt_lim (fun s => OC.phi Lx Ly x s) y (OC.grad_y Lx Ly x y) /\
  (exists ux vy, derivable_pt_lim (fun s => OC.v_x Lx Ly s y) x ux /\ derivable_pt_lim (fun s => OC.v_y Lx Ly x s) y vy /\ OC.exact_div Lx Ly x y = ux + vy) /\
  (exists uy vx, derivable_pt_lim (fun s => OC.v_x Lx Ly x s) y uy /\ derivable_pt_lim (fun s => OC.v_y Lx Ly s y) x vx /\ OC.exact_curl Lx Ly x y = vx - uy) /\
  (forall f, In f [OC.phi; OC.grad_x; OC.grad_y; OC.v_x; OC.v_y; OC.exact_div; OC.exact_curl] ->
     f Lx Ly (x + Lx) y = f Lx Ly x y /\ f Lx Ly x (y + Ly) = f Lx Ly x y).
Proof.
  intros Lx Ly HL1 HL2 x y. split; [|split; [|split; [|split]]].
  - unfold OC.phi, OC.grad_x. der. field. lra.
  - unfold OC.phi, OC.grad_y. der. field. lra.
  - do 2 eexists. split; [unfold OC.v_x; der; reflexivity|]. split; [unfold OC.v_y; der; reflexivity|]. unfold OC.exact_div. field. lra.
  - do 2 eexists. split; [unfold OC.v_x; der; reflexivity|]. split; [unfold OC.v_y; der; reflexivity|]. unfold OC.exact_curl. field. lra.
  - intros f Hf.
    assert (E1 : 2 * PI * (x + Lx) / Lx = 2 * PI * x / Lx + 2 * INR 1 * PI) by (cbn; field; lra).
    assert (E2 : 2 * PI * (y + Ly) / Ly = 2 * PI * y / Ly + 2 * INR 1 * PI) by (cbn; field; lra).
    cbn [In] in Hf. repeat (destruct Hf as [<-|Hf]); try contradiction;
      unfold OC.phi, OC.grad_x, OC.grad_y, OC.v_x, OC.v_y, OC.exact_div, OC.exact_curl; rewrite E1, E2, ?sin_period, ?cos_period; auto.
Qed.

