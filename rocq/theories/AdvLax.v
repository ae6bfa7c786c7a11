(** Consistency and stability imply convergence, over many steps; the coefficients of the steppers; Taylor's theorem in
    time; the error constants of a flow. *)
From Coq Require Import ZArith Reals List Bool Lia Lra.
From Verif Require Import Arith Arrays Prog Conc Launch Mesh Model Driver Deriv Stencil Taylor Accur Frozen Cplx WaveRun Diffuse AdvNum AdvThms LinStep LinEnergy LaxAbs UTaylor.
Import ListNotations.
Open Scope R_scope.

Lemma exp_mono a b : a <= b -> exp a <= exp b.
Proof. intros [H | ->]; [left; now apply exp_increasing|lra]. Qed.

Section Run.
Context {X : Type} (V : X -> Prop) (dot : (X -> R) -> (X -> R) -> R).
Context (dext : forall f f' g, (forall x, V x -> f x = f' x) -> dot f g = dot f' g).
Context (dsym : forall f g, dot f g = dot g f).
Context (dlin : forall a b f f' g, dot (fun x => a * f x + b * f' x) g = a * dot f g + b * dot f' g).
Context (dpos : forall f, 0 <= dot f f).
Context (T K : (X -> R) -> X -> R).
Context (Tlin : forall a b f g x, V x -> T (fun x => a * f x + b * g x) x = a * T f x + b * T g x).
Context (Text : forall f g x, (forall x, V x -> f x = g x) -> V x -> T f x = T g x).
Context (L gam : R) (L1 : 1 <= L) (G0 : 0 <= gam).
Context (bT : forall f, nrm dot (T f) <= L * nrm dot f) (bK : forall f, nrm dot (K f) <= L * nrm dot f) (bD : forall f, nrm dot (fun x => T f x - K f x) <= gam * nrm dot f).
Context (g1 g2 g3 g4 g5 dt Y : R) (D0 : 0 <= dt) (HY : dt * L <= Y).
Context (eps : R) (E1 : Rabs (g1 - 1) <= eps) (E2 : Rabs (g2 - 1 / 2) <= eps) (E3 : Rabs (g3 - 1 / 6) <= eps) (E4 : Rabs (g4 - 1 / 24) <= eps) (E5 : Rabs g5 <= 1) (Ee : eps <= 1 / 2).
Context (B1 : Rabs g1 <= 2) (sig : R) (Sg : 0 <= sig) (stab : forall f, nrm dot (pol g1 g2 g3 g4 g5 dt K f) <= (1 + sig) * nrm dot f).
Context (rho M : R) (R0 : 0 <= rho) (M0 : 0 <= M) (Te : R).
Lemma lax_run (N : nat) (z : nat -> X -> R) (w : nat -> nat -> X -> R) :
  INR N * dt <= Te -> INR N * sig <= 1 ->
  (forall x, V x -> z 0%nat x = w 0%nat 0%nat x) ->
  (forall n x, (n < N)%nat -> V x -> z (S n) x = pol g1 g2 g3 g4 g5 dt T (z n) x) ->
  (forall n i, (n < N)%nat -> (i <= 4)%nat -> nrm dot (fun x => w n (S i) x - T (w n i) x) <= rho) ->
  (forall n i, (n < N)%nat -> (1 <= i <= 5)%nat -> nrm dot (w n i) <= M) ->
  (forall n, (n < N)%nat -> nrm dot (fun x => (w n 0%nat x + dt * w n 1%nat x + dt ^ 2 / 2 * w n 2%nat x + dt ^ 3 / 6 * w n 3%nat x + dt ^ 4 / 24 * w n 4%nat x) - w (S n) 0%nat x) <= M * dt ^ 5) ->
  nrm dot (fun x => z N x - w N 0%nat x) <= Te * (BY Y * rho + 2 * M * dt ^ 4 + (1 + Te + Te ^ 2 + Te ^ 3) * M * eps) * exp (1 + Te * BY Y * gam).
Proof.
  intros HT HS Z0 Zs Hr HM Ht.
  assert (Y0 : 0 <= Y) by (apply Rle_trans with (dt * L); [apply Rmult_le_pos; lra|exact HY]).
  assert (PB : 0 <= BY Y) by (unfold BY; pose proof (pow_le Y 2 Y0); pose proof (pow_le Y 3 Y0); pose proof (pow_le Y 4 Y0); lra).
  remember (BY Y) as B eqn:EB.
  assert (Pe : 0 <= eps) by (eapply Rle_trans; [apply Rabs_pos|exact E1]).
  destruct N as [|N'].
  { cbn [INR] in HT. assert (Te0 : 0 <= Te) by lra.
    rewrite (nrm_ext V dot dext dsym _ (fun x => 0 * z 0%nat x)) by (intros x Hx; rewrite Z0 by exact Hx; ring).
    eapply Rle_trans; [apply (nrm_scal V dot dext dsym dlin dpos)|]. rewrite Rabs_R0, Rmult_0_l.
    apply Rmult_le_pos; [|left; apply exp_pos]. apply Rmult_le_pos; [exact Te0|].
    assert (0 <= dt ^ 4) by now apply pow_le. pose proof (pow_le Te 2 Te0). pose proof (pow_le Te 3 Te0).
    repeat apply Rplus_le_le_0_compat; repeat apply Rmult_le_pos; lra. }
  set (N := S N') in *. assert (PN : 1 <= INR N) by (unfold N; rewrite S_INR; pose proof (pos_INR N'); lra).
  assert (Te0 : 0 <= Te) by (eapply Rle_trans; [|exact HT]; apply Rmult_le_pos; lra).
  assert (dT : dt <= Te). { eapply Rle_trans; [|exact HT]. rewrite <- (Rmult_1_l dt) at 1. apply Rmult_le_compat_r; lra. }
  set (a := sig + dt * B * gam). set (b := dt * B * rho + M * dt ^ 5 + (eps * (dt + dt ^ 2 + dt ^ 3 + dt ^ 4) + Rabs g5 * dt ^ 5) * M).
  assert (A0 : 0 <= a) by (unfold a; apply Rplus_le_le_0_compat; [exact Sg|repeat apply Rmult_le_pos; lra]).
  pose proof (pow_le dt 2 D0) as P2. pose proof (pow_le dt 3 D0) as P3. pose proof (pow_le dt 4 D0) as P4. pose proof (pow_le dt 5 D0) as P5. pose proof (Rabs_pos g5) as Pg.
  assert (B0 : 0 <= b).
  { unfold b. repeat apply Rplus_le_le_0_compat; repeat apply Rmult_le_pos; try lra. apply Rplus_le_le_0_compat; apply Rmult_le_pos; lra. }
  pose proof (gronwall (fun n => nrm dot (fun x => z n x - w n 0%nat x)) a b N A0 B0) as G. cbv beta in G.
  assert (Gr : nrm dot (fun x => z N x - w N 0%nat x) <= INR N * b * (1 + a) ^ N).
  { apply G.
    - rewrite (nrm_ext V dot dext dsym _ (fun x => 0 * z 0%nat x)) by (intros x Hx; rewrite Z0 by exact Hx; ring).
      apply Rle_antisym; [|apply nrm_pos]. eapply Rle_trans; [apply (nrm_scal V dot dext dsym dlin dpos)|]. rewrite Rabs_R0. lra.
    - intros i Hi. rewrite (nrm_ext V dot dext dsym _ (fun x => pol g1 g2 g3 g4 g5 dt T (z i) x - w (S i) 0%nat x)) by (intros x Hx; now rewrite Zs).
      replace (1 + a) with (1 + sig + dt * B * gam) by (unfold a; ring). unfold b. rewrite EB.
      apply (one_step V dot dext dsym dlin dpos T K Tlin Text L gam L1 G0 bT bK bD g1 g2 g3 g4 g5 dt Y D0 HY eps E1 E2 E3 E4 E5 Ee B1 sig stab (z i) (w i) (w (S i) 0%nat) rho M (M * dt ^ 5) R0 M0); auto. }
  eapply Rle_trans; [exact Gr|].
  assert (X1 : (1 + a) ^ N <= exp (1 + Te * B * gam)).
  { eapply Rle_trans; [now apply pow_exp|]. apply exp_mono. unfold a. rewrite Rmult_plus_distr_l.
    assert (INR N * (dt * B * gam) <= Te * B * gam); [|lra].
    replace (INR N * (dt * B * gam)) with (INR N * dt * (B * gam)) by ring. rewrite (Rmult_assoc Te). apply Rmult_le_compat_r; [apply Rmult_le_pos; lra|exact HT]. }
  assert (X2 : INR N * b <= Te * (B * rho + 2 * M * dt ^ 4 + (1 + Te + Te ^ 2 + Te ^ 3) * M * eps)).
  { assert (Eb : b = dt * (B * rho + (1 + Rabs g5) * (M * dt ^ 4) + (1 + dt + dt ^ 2 + dt ^ 3) * (M * eps))) by (unfold b; ring).
    rewrite Eb, <- Rmult_assoc. apply Rmult_le_compat; [apply Rmult_le_pos; lra| |exact HT|].
    - repeat apply Rplus_le_le_0_compat; repeat apply Rmult_le_pos; lra.
    - assert ((1 + Rabs g5) * (M * dt ^ 4) <= 2 * (M * dt ^ 4)) by (apply Rmult_le_compat_r; [apply Rmult_le_pos|]; lra).
      assert ((1 + dt + dt ^ 2 + dt ^ 3) * (M * eps) <= (1 + Te + Te ^ 2 + Te ^ 3) * (M * eps)); [|lra].
      apply Rmult_le_compat_r; [apply Rmult_le_pos; lra|]. assert (dt ^ 2 <= Te ^ 2) by (apply pow_incr; lra). assert (dt ^ 3 <= Te ^ 3) by (apply pow_incr; lra). lra. }
  apply Rmult_le_compat; [apply Rmult_le_pos; lra|apply pow_le; lra|exact X2|exact X1].
Qed.
End Run.

(** ** The coefficients of the steppers *)
Definition coeffs (st : stepper) (g1 g2 g3 g4 g5 : R) : Prop :=
  (forall (L : (Z -> R) -> Z -> R) dt f c, zpol L (gst st) dt f c = pol g1 g2 g3 g4 g5 dt L f c).
Lemma st_coeffs st slack : st = RK4 /\ slack = 0 \/ st = LSRK 5 /\ slack = 1 / 10 ^ 25 ->
  exists g1 g2 g3 g4 g5, coeffs st g1 g2 g3 g4 g5 /\
    Rabs (g1 - 1) <= slack /\ Rabs (g2 - 1 / 2) <= slack /\ Rabs (g3 - 1 / 6) <= slack /\ Rabs (g4 - 1 / 24) <= slack /\ Rabs g5 <= 1 /\ Rabs g1 <= 2 /\
    (forall (X : Type) (V : X -> Prop) (L : (X -> R) -> X -> R) (dot : (X -> R) -> (X -> R) -> R),
      (forall f f' g, (forall x, V x -> f x = f' x) -> dot f g = dot f' g) -> (forall f g, dot f g = dot g f) ->
      (forall a b f f' g, dot (fun x => a * f x + b * f' x) g = a * dot f g + b * dot f' g) ->
      (forall f g, dot (L f) g = - dot f (L g)) -> forall K, (forall f, dot (L f) (L f) <= K * dot f f) -> (forall f, 0 <= dot f f) ->
      forall dt, dt ^ 2 * K <= 8 -> forall f, nrm dot (pol g1 g2 g3 g4 g5 dt L f) <= (1 + 1 / 10 ^ 22) * nrm dot f).
Proof.
  assert (Sq : forall {X} (dot : (X -> R) -> (X -> R) -> R) (z f : X -> R), (forall f, 0 <= dot f f) -> dot z z <= (1 + 1 / 10 ^ 22) * dot f f -> nrm dot z <= (1 + 1 / 10 ^ 22) * nrm dot f).
  { intros X dot z f P Q. unfold nrm. set (s := 1 / 10 ^ 22) in *. assert (S0 : 0 < s) by (unfold s; apply Rdiv_lt_0_compat; [lra|apply pow_lt; lra]). clearbody s.
    rewrite <- (sqrt_pow2 (1 + s)) by lra. rewrite <- sqrt_mult by (apply pow2_ge_0 || apply P). apply sqrt_le_1; [apply P|apply Rmult_le_pos; [apply pow2_ge_0|apply P]|].
    eapply Rle_trans; [exact Q|]. apply Rmult_le_compat_r; [apply P|]. assert (0 <= s * s) by (apply Rmult_le_pos; lra). replace ((1 + s) ^ 2) with (1 + s + s + s * s) by ring. lra. }
  intros [[-> ->] | [-> ->]].
  - exists 1, (1 / 2), (1 / 6), (1 / 24), 0. repeat split; try (rewrite Rminus_diag_eq by reflexivity; rewrite Rabs_R0; lra); try (rewrite ?Rabs_R0, ?Rabs_R1; lra).
    + intros L dt f c. unfold zpol, pol. cbn [gst]. unfold g_rk4. cbn [zpow xpow]. field.
    + intros X V L dot dext dsym dlin skew K bd dpos dt HK f. apply Sq; [exact dpos|].
      apply Rle_trans with (dot f f).
      * assert (E : forall x, V x -> pol 1 (1 / 2) (1 / 6) (1 / 24) 0 dt L f x = opolyx L [1; 1; 1 / 2; 1 / 6; 1 / 24] dt f x) by (intros x _; unfold pol; cbn [opolyx xpow]; ring).
        rewrite (dext _ (opolyx L [1; 1; 1 / 2; 1 / 6; 1 / 24] dt f) _ E), dsym, (dext _ (opolyx L [1; 1; 1 / 2; 1 / 6; 1 / 24] dt f) _ E).
        apply (rk4_stable V L dot dext dsym dlin skew K bd dpos f dt HK).
      * rewrite <- (Rmult_1_l (dot f f)) at 1. apply Rmult_le_compat_r; [apply dpos|]. assert (0 < 1 / 10 ^ 22) by (apply Rdiv_lt_0_compat; [lra|apply pow_lt; lra]). lra.
  - pose proof g5_order as (H0 & G1 & G2 & G3 & G4 & G5).
    exists (g_lsrk5 1), (g_lsrk5 2), (g_lsrk5 3), (g_lsrk5 4), (g_lsrk5 5). split; [|split; [exact G1|split; [exact G2|split; [exact G3|split; [exact G4|split; [rewrite Rabs_pos_eq; lra|split]]]]]].
    + intros L dt f c. unfold zpol, pol. cbn [gst Z.eqb Pos.eqb]. rewrite H0. cbn [zpow xpow]. generalize (g_lsrk5 1) (g_lsrk5 2) (g_lsrk5 3) (g_lsrk5 4) (g_lsrk5 5). intros. ring.
    + apply Rabs_le. apply abs_inv in G1. assert (1 / 10 ^ 25 <= 1) by lra. generalize dependent (1 / 10 ^ 25). intros. lra.
    + intros X V L dot dext dsym dlin skew K bd dpos dt HK f. apply Sq; [exact dpos|].
      pose proof (lsrk5_stable V L dot dext dsym dlin skew K bd dpos f (g_lsrk5 1) (g_lsrk5 2) (g_lsrk5 3) (g_lsrk5 4) (g_lsrk5 5) dt G1 G2 G3 G4 G5 HK) as Q. cbv zeta in Q.
      assert (E : forall x, V x -> pol (g_lsrk5 1) (g_lsrk5 2) (g_lsrk5 3) (g_lsrk5 4) (g_lsrk5 5) dt L f x = opolyx L [1; g_lsrk5 1; g_lsrk5 2; g_lsrk5 3; g_lsrk5 4; g_lsrk5 5] dt f x).
      { intros x _. unfold pol. cbn [opolyx xpow]. generalize (g_lsrk5 1) (g_lsrk5 2) (g_lsrk5 3) (g_lsrk5 4) (g_lsrk5 5). intros. ring. }
      rewrite (dext _ _ _ E), dsym, (dext _ _ _ E). exact Q.
Qed.

(** ** Taylor's theorem on an interval *)
Lemma growi (f f' : R -> R) D M n : (forall s, 0 <= s <= D -> derivable_pt_lim f s (f' s)) -> f 0 = 0 -> 0 <= M ->
  (forall s, 0 <= s <= D -> Rabs (f' s) <= M * s ^ n) -> forall s, 0 <= s <= D -> Rabs (f s) <= M * s ^ S n.
Proof.
  intros H E HM B s Hs. destruct (Req_dec s 0) as [-> | Ns]; [rewrite E, Rabs_R0; apply Rmult_le_pos; [exact HM|apply pow_le; lra]|].
  destruct (MVT_cor2 f f' 0 s ltac:(lra)) as (c & E2 & Hc); [intros; apply H; lra|]. rewrite E, !Rminus_0_r in E2.
  rewrite E2, Rabs_mult, (Rabs_pos_eq s) by lra. cbn [pow]. rewrite (Rmult_comm s), <- Rmult_assoc. apply Rmult_le_compat_r; [lra|].
  eapply Rle_trans; [apply B; lra|]. apply Rmult_le_compat_l; [exact HM|]. apply pow_incr. lra.
Qed.
Lemma taylor5 (v : nat -> R -> R) D M : 0 <= M -> (forall j s, (j <= 4)%nat -> 0 <= s <= D -> derivable_pt_lim (v j) s (v (S j) s)) ->
  (forall s, 0 <= s <= D -> Rabs (v 5%nat s) <= M) -> 0 <= D ->
  Rabs (v 0%nat D - (v 0%nat 0 + D * v 1%nat 0 + D ^ 2 / 2 * v 2%nat 0 + D ^ 3 / 6 * v 3%nat 0 + D ^ 4 / 24 * v 4%nat 0)) <= M * D ^ 5.
Proof.
  intros M0 H B D0.
  assert (A4 : forall s, 0 <= s <= D -> Rabs (v 4%nat s - v 4%nat 0) <= M * s ^ 1).
  { apply (growi (fun s => v 4%nat s - v 4%nat 0) (v 5%nat) D M 0); auto; [|ring|intros; rewrite pow_O, Rmult_1_r; auto].
    intros s Hs. eapply D_eq; [apply D_minus; [apply (H 4%nat); [lia|exact Hs]|apply D_const]|ring]. }
  assert (A3 : forall s, 0 <= s <= D -> Rabs (v 3%nat s - (v 3%nat 0 + s * v 4%nat 0)) <= M * s ^ 2).
  { apply (growi (fun s => v 3%nat s - (v 3%nat 0 + s * v 4%nat 0)) (fun s => v 4%nat s - v 4%nat 0) D M 1); auto; [|ring].
    intros s Hs. eapply D_eq; [apply D_minus; [apply (H 3%nat); [lia|exact Hs]|apply D_plus; [apply D_const|apply D_mult; [apply D_id|apply D_const]]]|cbv beta; ring]. }
  assert (A2 : forall s, 0 <= s <= D -> Rabs (v 2%nat s - (v 2%nat 0 + s * v 3%nat 0 + s * s / 2 * v 4%nat 0)) <= M * s ^ 3).
  { apply (growi (fun s => v 2%nat s - (v 2%nat 0 + s * v 3%nat 0 + s * s / 2 * v 4%nat 0)) (fun s => v 3%nat s - (v 3%nat 0 + s * v 4%nat 0)) D M 2); auto; [|field].
    intros s Hs. eapply D_eq; [apply D_minus; [apply (H 2%nat); [lia|exact Hs]|apply D_plus; [apply D_plus; [apply D_const|apply D_mult; [apply D_id|apply D_const]]|apply D_mult; [apply D_divc, D_mult; apply D_id|apply D_const]]]|cbv beta; field]. }
  assert (A1 : forall s, 0 <= s <= D -> Rabs (v 1%nat s - (v 1%nat 0 + s * v 2%nat 0 + s * s / 2 * v 3%nat 0 + s * (s * s) / 6 * v 4%nat 0)) <= M * s ^ 4).
  { apply (growi (fun s => v 1%nat s - (v 1%nat 0 + s * v 2%nat 0 + s * s / 2 * v 3%nat 0 + s * (s * s) / 6 * v 4%nat 0)) (fun s => v 2%nat s - (v 2%nat 0 + s * v 3%nat 0 + s * s / 2 * v 4%nat 0)) D M 3); auto; [|field].
    intros s Hs. eapply D_eq; [apply D_minus; [apply (H 1%nat); [lia|exact Hs]|apply D_plus; [apply D_plus; [apply D_plus; [apply D_const|apply D_mult; [apply D_id|apply D_const]]|apply D_mult; [apply D_divc, D_mult; apply D_id|apply D_const]]|apply D_mult; [apply D_divc, D_mult; [apply D_id|apply D_mult; apply D_id]|apply D_const]]]|cbv beta; field]. }
  assert (A0 : forall s, 0 <= s <= D -> Rabs (v 0%nat s - (v 0%nat 0 + s * v 1%nat 0 + s * s / 2 * v 2%nat 0 + s * (s * s) / 6 * v 3%nat 0 + s * (s * (s * s)) / 24 * v 4%nat 0)) <= M * s ^ 5).
  { apply (growi (fun s => v 0%nat s - (v 0%nat 0 + s * v 1%nat 0 + s * s / 2 * v 2%nat 0 + s * (s * s) / 6 * v 3%nat 0 + s * (s * (s * s)) / 24 * v 4%nat 0)) (fun s => v 1%nat s - (v 1%nat 0 + s * v 2%nat 0 + s * s / 2 * v 3%nat 0 + s * (s * s) / 6 * v 4%nat 0)) D M 4); auto; [|field].
    intros s Hs. eapply D_eq; [apply D_minus; [apply (H 0%nat); [lia|exact Hs]|apply D_plus; [apply D_plus; [apply D_plus; [apply D_plus; [apply D_const|apply D_mult; [apply D_id|apply D_const]]|apply D_mult; [apply D_divc, D_mult; apply D_id|apply D_const]]|apply D_mult; [apply D_divc, D_mult; [apply D_id|apply D_mult; apply D_id]|apply D_const]]|apply D_mult; [apply D_divc, D_mult; [apply D_id|apply D_mult; [apply D_id|apply D_mult; apply D_id]]|apply D_const]]]|cbv beta; field]. }
  specialize (A0 D ltac:(lra)).
  replace (v 0%nat 0 + D * v 1%nat 0 + D ^ 2 / 2 * v 2%nat 0 + D ^ 3 / 6 * v 3%nat 0 + D ^ 4 / 24 * v 4%nat 0) with (v 0%nat 0 + D * v 1%nat 0 + D * D / 2 * v 2%nat 0 + D * (D * D) / 6 * v 3%nat 0 + D * (D * (D * D)) / 24 * v 4%nat 0) by field.
  exact A0.
Qed.

(** ** The constants of a flow *)
Section Flow.
Context (h U V : fn2) (us FX FY : nat -> R -> fn2) (hmin Te : R).
Context (Sh : smooth 5 h) (SU : smooth 5 U) (SV : smooth 5 V) (Pm : 0 < hmin) (Hm : forall x y, hmin <= h x y).
Context (Su : forall j, (j <= 5)%nat -> usmooth 5 (fun t : {t : R | 0 <= t <= Te} => us j (proj1_sig t))).
Context (HX : forall j t, (j <= 4)%nat -> 0 <= t <= Te -> is_dx (fun x y => us j t x y * U x y) (FX j t)).
Context (HY : forall j t, (j <= 4)%nat -> 0 <= t <= Te -> is_dy (fun x y => us j t x y * V x y) (FY j t)).
Context (Eq : forall j t x y, (j <= 4)%nat -> 0 <= t <= Te -> us (S j) t x y = - (FX j t x y + FY j t x y)).
Lemma upto (P : nat -> R -> Prop) n : (forall j C C', C <= C' -> P j C -> P j C') -> (forall j, (j <= n)%nat -> exists C, 0 <= C /\ P j C) -> exists C, 0 <= C /\ forall j, (j <= n)%nat -> P j C.
Proof.
  intros Mo. induction n as [|n IH]; intros H.
  - destruct (H 0%nat ltac:(lia)) as (C & C0 & HC). exists C. split; [exact C0|]. intros j Hj. assert (j = 0%nat) by lia. now subst.
  - destruct IH as (C & C0 & HC); [intros; apply H; lia|]. destruct (H (S n) ltac:(lia)) as (C' & C0' & HC').
    exists (C + C'). split; [lra|]. intros j Hj. assert (Q : (j <= n)%nat \/ j = S n) by lia. destruct Q as [Q | ->]; [apply (Mo j C); [lra|auto]|apply (Mo (S n) C'); [lra|auto]].
Qed.
Lemma flow_bounded : exists C, 0 <= C /\ forall d x y, d <> 0 -> Rabs (Ou d (fun q x y => Me d h q x y * nvec U V q x y) x y) <= C.
Proof.
  destruct (uadv_bounded (fun _ : unit => h) (fun _ => U) (fun _ => V) (fun _ _ _ => 1) (usmooth_const _ _ Sh) (usmooth_const _ _ SU) (usmooth_const _ _ SV) (usmooth_const _ _ (smooth_cst 5 1))) as (C & C0 & B).
  exists C. split; [exact C0|]. intros d x y Hd. specialize (B tt x y d Hd).
  replace (Ou d (fun q x y => Me d h q x y * nvec U V q x y) x y) with (Ou d (aflux (fun _ => h) (fun _ => U) (fun _ => V) (fun _ _ _ => 1) d tt) x y); [exact B|].
  unfold Ou, Df, aflux. unfold Me at 2 4 6 8 10 12. replace ((1 + 1) / 2) with 1 by field. ring.
Qed.
Lemma field_bounded : exists C, 0 <= C /\ forall j t x y, (j <= 5)%nat -> 0 <= t <= Te -> Rabs (us j t x y) <= C.
Proof.
  destruct (upto (fun j C => forall t x y, 0 <= t <= Te -> Rabs (us j t x y) <= C) 5) as (C & C0 & B).
  - intros j C C' L H t x y Ht. specialize (H t x y Ht). lra.
  - intros j Hj. destruct (usmooth_bounded _ _ (Su j Hj)) as [M B]. exists (Rabs M). split; [apply Rabs_pos|]. intros t x y Ht.
    eapply Rle_trans; [apply (B (exist _ t Ht))|apply Rle_abs].
  - exists C. split; [exact C0|]. intros j t x y Hj Ht. now apply B.
Qed.
Lemma flow_consistent : exists C, 0 <= C /\ forall j t d x y, (j <= 4)%nat -> 0 <= t <= Te -> d <> 0 ->
  Rabs (us (S j) t x y + Ou d (fun q x y => Me d h q x y * nvec U V q x y * Me d (fun x y => us j t x y / h x y) q x y) x y) <= C * d ^ 2.
Proof.
  destruct (upto (fun j C => forall t d x y, 0 <= t <= Te -> d <> 0 -> Rabs (us (S j) t x y + Ou d (fun q x y => Me d h q x y * nvec U V q x y * Me d (fun x y => us j t x y / h x y) q x y) x y) <= C * d ^ 2) 4) as (C & C0 & B).
  - intros j C C' L H t d x y Ht Hd. specialize (H t d x y Ht Hd). pose proof (pow2_ge_0 d). assert (C * d ^ 2 <= C' * d ^ 2) by (apply Rmult_le_compat_r; lra). lra.
  - intros j Hj.
    pose (r := fun (t : {t : R | 0 <= t <= Te}) x y => us j (proj1_sig t) x y * / h x y).
    assert (Sr : usmooth 5 r).
    { unfold r. apply (usmooth_mult 5 (fun t : {t : R | 0 <= t <= Te} => us j (proj1_sig t)) (fun _ x y => / h x y)); [apply Su; lia|].
      apply (usmooth_inv 5 (fun _ => h) hmin Pm); [intros; apply Hm|now apply usmooth_const]. }
    assert (Nz : forall x y, h x y <> 0) by (intros x y; specialize (Hm x y); lra).
    destruct (uadv_appr (fun _ : {t : R | 0 <= t <= Te} => h) (fun _ => U) (fun _ => V) r (usmooth_const _ _ Sh) (usmooth_const _ _ SU) (usmooth_const _ _ SV) Sr (fun t => FX j (proj1_sig t)) (fun t => FY j (proj1_sig t))) as (C & C0 & B).
    + intros [t Ht]. cbn [proj1_sig]. eapply is_dx_ext; [|apply (HX j t); [lia|exact Ht]]. intros x y. unfold r. cbn [proj1_sig]. field. apply Nz.
    + intros [t Ht]. cbn [proj1_sig]. eapply is_dy_ext; [|apply (HY j t); [lia|exact Ht]]. intros x y. unfold r. cbn [proj1_sig]. field. apply Nz.
    + exists C. split; [exact C0|]. intros t d x y Ht Hd. specialize (B (exist _ t Ht) x y d Hd). cbn [proj1_sig] in B. rewrite pow2_abs in B.
      rewrite (Eq j t x y) by assumption. unfold aflux, r in B. cbn [proj1_sig] in B.
      match goal with |- Rabs (- ?a + ?b) <= _ => replace (- a + b) with (b - a) by ring end. exact B.
  - exists C. split; [exact C0|]. intros. now apply B.
Qed.
End Flow.
