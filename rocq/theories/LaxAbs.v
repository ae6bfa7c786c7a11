(** Consistency and stability imply convergence: one step of a Runge Kutta method applied to a linear operator that is
    the sum of a skew operator and a bounded one. *)
From Coq Require Import ZArith Reals List Lia Lra.
From Verif Require Import LinStep.
Import ListNotations.
Open Scope R_scope.

Section Norm.
Context {X : Type} (V : X -> Prop) (dot : (X -> R) -> (X -> R) -> R).
Context (dext : forall f f' g, (forall x, V x -> f x = f' x) -> dot f g = dot f' g).
Context (dsym : forall f g, dot f g = dot g f).
Context (dlin : forall a b f f' g, dot (fun x => a * f x + b * f' x) g = a * dot f g + b * dot f' g).
Context (dpos : forall f, 0 <= dot f f).
Definition nrm (f : X -> R) : R := sqrt (dot f f).
Lemma nrm_pos f : 0 <= nrm f. Proof. apply sqrt_pos. Qed.
Lemma nrm_sq f : nrm f * nrm f = dot f f. Proof. apply sqrt_sqrt, dpos. Qed.
Lemma nrm_ext f g : (forall x, V x -> f x = g x) -> nrm f = nrm g.
Proof. intros E. unfold nrm. f_equal. rewrite (dext f g f E), dsym. now apply dext. Qed.
Lemma dself2 a b f g : dot (fun x => a * f x + b * g x) (fun x => a * f x + b * g x) = a * a * dot f f + 2 * a * b * dot f g + b * b * dot g g.
Proof. rewrite dlin, (dsym f), (dsym g), !dlin, (dsym g f). ring. Qed.
Lemma schwarz_sq f g : dot f g * dot f g <= dot f f * dot g g.
Proof.
  pose proof (fun t => dpos (fun x => 1 * f x + t * g x)) as Q.
  assert (Q' : forall t, 0 <= dot f f + 2 * t * dot f g + t * t * dot g g) by (intros t; specialize (Q t); rewrite dself2 in Q; lra). clear Q.
  pose proof (dpos f) as Pa. pose proof (dpos g) as Pc.
  generalize dependent (dot f f). generalize dependent (dot g g). generalize (dot f g). intros b c Pc a Q Pa.
  destruct (Req_dec c 0) as [-> | Nc].
  - destruct (Req_dec b 0) as [-> | Nb]; [lra|]. exfalso. specialize (Q (- (a + 1) / (2 * b))).
    replace (a + 2 * (- (a + 1) / (2 * b)) * b + - (a + 1) / (2 * b) * (- (a + 1) / (2 * b)) * 0) with (-1) in Q by (field; exact Nb). lra.
  - specialize (Q (- b / c)). replace (a + 2 * (- b / c) * b + - b / c * (- b / c) * c) with ((a * c - b * b) / c) in Q by (field; exact Nc).
    assert (0 <= (a * c - b * b) / c * c) by (apply Rmult_le_pos; lra). replace ((a * c - b * b) / c * c) with (a * c - b * b) in H by (field; exact Nc). lra.
Qed.
Lemma schwarz f g : Rabs (dot f g) <= nrm f * nrm g.
Proof.
  apply Rsqr_incr_0_var; [|apply Rmult_le_pos; apply nrm_pos]. rewrite <- Rsqr_abs. unfold Rsqr.
  replace (nrm f * nrm g * (nrm f * nrm g)) with ((nrm f * nrm f) * (nrm g * nrm g)) by ring. rewrite !nrm_sq. apply schwarz_sq.
Qed.
Lemma nrm_lin a b f g : nrm (fun x => a * f x + b * g x) <= Rabs a * nrm f + Rabs b * nrm g.
Proof.
  pose proof (nrm_pos f). pose proof (nrm_pos g). pose proof (Rabs_pos a). pose proof (Rabs_pos b).
  apply Rsqr_incr_0_var; [|apply Rplus_le_le_0_compat; now apply Rmult_le_pos]. unfold Rsqr. rewrite nrm_sq, dself2.
  replace ((Rabs a * nrm f + Rabs b * nrm g) * (Rabs a * nrm f + Rabs b * nrm g)) with ((Rabs a * Rabs a) * (nrm f * nrm f) + 2 * (Rabs a * Rabs b * (nrm f * nrm g)) + (Rabs b * Rabs b) * (nrm g * nrm g)) by ring.
  rewrite !nrm_sq. rewrite <- !Rabs_mult. rewrite (Rabs_pos_eq (a * a)), (Rabs_pos_eq (b * b)) by (apply Rle_0_sqr).
  assert (a * b * dot f g <= Rabs (a * b) * (nrm f * nrm g)); [|lra].
  eapply Rle_trans; [apply Rle_abs|]. rewrite Rabs_mult. apply Rmult_le_compat_l; [apply Rabs_pos|apply schwarz].
Qed.
Lemma nrm_plus f g : nrm (fun x => f x + g x) <= nrm f + nrm g.
Proof. pose proof (nrm_lin 1 1 f g) as H. rewrite Rabs_R1 in H. rewrite (nrm_ext _ (fun x => 1 * f x + 1 * g x)) by (intros; ring). lra. Qed.
Lemma nrm_scal a f : nrm (fun x => a * f x) <= Rabs a * nrm f.
Proof. pose proof (nrm_lin a 0 f f) as H. rewrite Rabs_R0 in H. rewrite (nrm_ext _ (fun x => a * f x + 0 * f x)) by (intros; ring). lra. Qed.
Lemma nrm_scal_le a M f N : Rabs a <= M -> nrm f <= N -> nrm (fun x => a * f x) <= M * N.
Proof. intros A B. eapply Rle_trans; [apply nrm_scal|]. apply Rmult_le_compat; auto using Rabs_pos, nrm_pos. Qed.

(** ** Powers of the operator *)
Context (T K : (X -> R) -> X -> R).
Context (Tlin : forall a b f g x, V x -> T (fun x => a * f x + b * g x) x = a * T f x + b * T g x).
Context (Text : forall f g x, (forall x, V x -> f x = g x) -> V x -> T f x = T g x).
Context (L gam : R) (L1 : 1 <= L) (G0 : 0 <= gam).
Context (bT : forall f, nrm (T f) <= L * nrm f) (bK : forall f, nrm (K f) <= L * nrm f) (bD : forall f, nrm (fun x => T f x - K f x) <= gam * nrm f).
Lemma Tsub f g x : V x -> T f x - T g x = T (fun x => f x - g x) x.
Proof. intros Hx. rewrite (Text (fun x => f x - g x) (fun x => 1 * f x + (-1) * g x)) by (exact Hx || (intros; ring)). rewrite Tlin by exact Hx. ring. Qed.
Lemma powK j f : nrm (xpow K j f) <= L ^ j * nrm f.
Proof.
  induction j; cbn [xpow pow]; [lra|]. eapply Rle_trans; [apply bK|]. rewrite Rmult_assoc. apply Rmult_le_compat_l; [lra|exact IHj].
Qed.
Lemma diffpow j f : nrm (fun x => xpow T (S j) f x - xpow K (S j) f x) <= INR (S j) * L ^ j * (gam * nrm f).
Proof.
  induction j as [|j IH].
  - cbn [xpow pow]. replace (INR 1 * 1 * (gam * nrm f)) with (gam * nrm f) by (cbn [INR]; ring). apply bD.
  - rewrite (nrm_ext _ (fun x => T (fun x => xpow T (S j) f x - xpow K (S j) f x) x + (T (xpow K (S j) f) x - K (xpow K (S j) f) x))).
    2:{ intros x Hx. change (xpow T (S (S j)) f x) with (T (xpow T (S j) f) x). change (xpow K (S (S j)) f x) with (K (xpow K (S j) f) x).
        rewrite <- Tsub by exact Hx. ring. }
    eapply Rle_trans; [apply nrm_plus|]. eapply Rle_trans; [apply Rplus_le_compat; [apply bT|apply bD]|].
    assert (A : L * nrm (fun x => xpow T (S j) f x - xpow K (S j) f x) <= L * (INR (S j) * L ^ j * (gam * nrm f))) by (apply Rmult_le_compat_l; [lra|exact IH]).
    assert (B : gam * nrm (xpow K (S j) f) <= gam * (L ^ S j * nrm f)) by (apply Rmult_le_compat_l; [lra|apply powK]).
    rewrite (S_INR (S j)). replace ((INR (S j) + 1) * L ^ S j * (gam * nrm f)) with (L * (INR (S j) * L ^ j * (gam * nrm f)) + gam * (L ^ S j * nrm f)) by (cbn [pow]; ring). lra.
Qed.
Lemma diffsamp (w : nat -> X -> R) rho j : 0 <= rho -> (forall i, (i <= j)%nat -> nrm (fun x => w (S i) x - T (w i) x) <= rho) ->
  nrm (fun x => xpow T (S j) (w 0%nat) x - w (S j) x) <= INR (S j) * L ^ j * rho.
Proof.
  intros R0 H. induction j as [|j IH].
  - cbn [xpow pow]. replace (INR 1 * 1 * rho) with (1 * rho) by (cbn [INR]; ring).
    rewrite (nrm_ext _ (fun x => (-1) * (w 1%nat x - T (w 0%nat) x))) by (intros; ring). apply nrm_scal_le; [|now apply H].
    rewrite Rabs_left; lra.
  - rewrite (nrm_ext _ (fun x => T (fun x => xpow T (S j) (w 0%nat) x - w (S j) x) x + (-1) * (w (S (S j)) x - T (w (S j)) x))).
    2:{ intros x Hx. change (xpow T (S (S j)) (w 0%nat) x) with (T (xpow T (S j) (w 0%nat)) x). rewrite <- Tsub by exact Hx. ring. }
    eapply Rle_trans; [apply nrm_plus|].
    assert (A : nrm (T (fun x => xpow T (S j) (w 0%nat) x - w (S j) x)) <= L * (INR (S j) * L ^ j * rho)).
    { eapply Rle_trans; [apply bT|]. apply Rmult_le_compat_l; [lra|]. apply IH. intros i Hi. apply H. lia. }
    assert (B : nrm (fun x => (-1) * (w (S (S j)) x - T (w (S j)) x)) <= 1 * rho) by (apply nrm_scal_le; [rewrite Rabs_left; lra|now apply H]).
    assert (P : 1 <= L ^ S j) by (now apply pow_R1_Rle). assert (P2 : 1 * rho <= L ^ S j * rho) by (now apply Rmult_le_compat_r).
    rewrite (S_INR (S j)). replace ((INR (S j) + 1) * L ^ S j * rho) with (L * (INR (S j) * L ^ j * rho) + L ^ S j * rho) by (cbn [pow]; ring). lra.
Qed.

(** ** The polynomial of a step *)
Context (g1 g2 g3 g4 g5 dt Y : R) (D0 : 0 <= dt) (HY : dt * L <= Y).
Context (eps : R) (E1 : Rabs (g1 - 1) <= eps) (E2 : Rabs (g2 - 1 / 2) <= eps) (E3 : Rabs (g3 - 1 / 6) <= eps) (E4 : Rabs (g4 - 1 / 24) <= eps) (E5 : Rabs g5 <= 1) (Ee : eps <= 1 / 2).
Context (B1 : Rabs g1 <= 2).
Definition pol (O : (X -> R) -> X -> R) (f : X -> R) (x : X) : R :=
  f x + (g1 * dt * xpow O 1 f x + (g2 * dt ^ 2 * xpow O 2 f x + (g3 * dt ^ 3 * xpow O 3 f x + (g4 * dt ^ 4 * xpow O 4 f x + g5 * dt ^ 5 * xpow O 5 f x)))).
Definition BY : R := 2 * (1 + 2 * Y + 3 * Y ^ 2 + 4 * Y ^ 3 + 5 * Y ^ 4).
Lemma g_le : Rabs g1 <= 2 /\ Rabs g2 <= 2 /\ Rabs g3 <= 2 /\ Rabs g4 <= 2 /\ Rabs g5 <= 2.
Proof.
  assert (A : forall g c, Rabs (g - c) <= eps -> 0 <= c <= 1 -> Rabs g <= 2).
  { intros g c Hg Hc. replace g with ((g - c) + c) by ring. eapply Rle_trans; [apply Rabs_triang|]. rewrite (Rabs_pos_eq c) by lra. lra. }
  repeat split; [exact B1|apply (A _ (1/2))|apply (A _ (1/6))|apply (A _ (1/24))|]; auto; lra.
Qed.
Lemma dtL j : 0 <= dt ^ j * L ^ j <= Y ^ j.
Proof.
  rewrite <- Rpow_mult_distr. assert (0 <= dt * L) by (apply Rmult_le_pos; lra). split; [now apply pow_le|]. apply pow_incr. lra.
Qed.
Lemma sum5 (c : R) (a1 a2 a3 a4 a5 : R) (f1 f2 f3 f4 f5 : X -> R) : 0 <= c -> Rabs a1 <= 2 -> Rabs a2 <= 2 -> Rabs a3 <= 2 -> Rabs a4 <= 2 -> Rabs a5 <= 2 ->
  nrm f1 <= INR 1 * L ^ 0 * c -> nrm f2 <= INR 2 * L ^ 1 * c -> nrm f3 <= INR 3 * L ^ 2 * c -> nrm f4 <= INR 4 * L ^ 3 * c -> nrm f5 <= INR 5 * L ^ 4 * c ->
  nrm (fun x => a1 * dt * f1 x + (a2 * dt ^ 2 * f2 x + (a3 * dt ^ 3 * f3 x + (a4 * dt ^ 4 * f4 x + a5 * dt ^ 5 * f5 x)))) <= dt * BY * c.
Proof.
  intros C0 A1 A2 A3 A4 A5 F1 F2 F3 F4 F5.
  assert (Q : forall a j f, Rabs a <= 2 -> nrm f <= INR (S j) * L ^ j * c -> nrm (fun x => a * dt ^ S j * f x) <= 2 * INR (S j) * (dt * c * Y ^ j)).
  { intros a j f Ha Hf. eapply Rle_trans; [apply nrm_scal|]. rewrite Rabs_mult. rewrite (Rabs_pos_eq (dt ^ S j)) by (now apply pow_le).
    assert (P : 0 <= dt ^ S j) by (now apply pow_le). pose proof (pos_INR (S j)) as PI. destruct (dtL j) as [l1 l2].
    apply Rle_trans with (2 * dt ^ S j * (INR (S j) * L ^ j * c)).
    - apply Rmult_le_compat; [apply Rmult_le_pos; [apply Rabs_pos|exact P]|apply nrm_pos|now apply Rmult_le_compat_r|exact Hf].
    - replace (2 * dt ^ S j * (INR (S j) * L ^ j * c)) with (2 * INR (S j) * (dt * c * (dt ^ j * L ^ j))) by (cbn [pow]; ring).
      apply Rmult_le_compat_l; [lra|]. apply Rmult_le_compat_l; [now apply Rmult_le_pos|exact l2]. }
  pose proof (Q a1 0%nat f1 A1 F1) as Q1. pose proof (Q a2 1%nat f2 A2 F2) as Q2. pose proof (Q a3 2%nat f3 A3 F3) as Q3. pose proof (Q a4 3%nat f4 A4 F4) as Q4. pose proof (Q a5 4%nat f5 A5 F5) as Q5.
  rewrite pow_1 in Q1.
  eapply Rle_trans; [apply nrm_plus|]. eapply Rle_trans; [apply Rplus_le_compat_l, nrm_plus|]. eapply Rle_trans; [apply Rplus_le_compat_l, Rplus_le_compat_l, nrm_plus|].
  eapply Rle_trans; [apply Rplus_le_compat_l, Rplus_le_compat_l, Rplus_le_compat_l, nrm_plus|].
  assert (I5 : INR 5 = 5) by (cbn [INR]; lra). assert (I4 : INR 4 = 4) by (cbn [INR]; lra). assert (I3 : INR 3 = 3) by (cbn [INR]; lra). assert (I2 : INR 2 = 2) by (cbn [INR]; lra). assert (I1 : INR 1 = 1) by reflexivity.
  rewrite I5 in Q5. rewrite I4 in Q4. rewrite I3 in Q3. rewrite I2 in Q2. rewrite I1 in Q1.
  unfold BY. replace (dt * (2 * (1 + 2 * Y + 3 * Y ^ 2 + 4 * Y ^ 3 + 5 * Y ^ 4)) * c) with (2 * 1 * (dt * c * Y ^ 0) + (2 * 2 * (dt * c * Y ^ 1) + (2 * 3 * (dt * c * Y ^ 2) + (2 * 4 * (dt * c * Y ^ 3) + 2 * 5 * (dt * c * Y ^ 4))))) by ring.
  repeat apply Rplus_le_compat; assumption.
Qed.
Context (sig : R) (stab : forall f, nrm (pol K f) <= (1 + sig) * nrm f).
Lemma stabT f : nrm (pol T f) <= (1 + sig + dt * BY * gam) * nrm f.
Proof.
  destruct g_le as (H1 & H2 & H3 & H4 & H5).
  set (dk := fun j x => xpow T j f x - xpow K j f x).
  rewrite (nrm_ext _ (fun x => pol K f x + (g1 * dt * dk 1%nat x + (g2 * dt ^ 2 * dk 2%nat x + (g3 * dt ^ 3 * dk 3%nat x + (g4 * dt ^ 4 * dk 4%nat x + g5 * dt ^ 5 * dk 5%nat x)))))).
  2:{ intros x Hx. unfold pol, dk. ring. }
  eapply Rle_trans; [apply nrm_plus|]. eapply Rle_trans; [apply Rplus_le_compat; [apply stab|]|].
  - apply (sum5 (gam * nrm f)); auto; [apply Rmult_le_pos; [lra|apply nrm_pos]|..]; apply diffpow.
  - right. ring.
Qed.
(** The error made in one step from the exact solution [w 0], whose derivatives are [w 1], ..., [w 5], to the exact solution [wn]. *)
Lemma local (w : nat -> X -> R) (wn : X -> R) rho M tau : 0 <= rho -> 0 <= M ->
  (forall i, (i <= 4)%nat -> nrm (fun x => w (S i) x - T (w i) x) <= rho) ->
  (forall i, (1 <= i <= 5)%nat -> nrm (w i) <= M) ->
  nrm (fun x => (w 0%nat x + dt * w 1%nat x + dt ^ 2 / 2 * w 2%nat x + dt ^ 3 / 6 * w 3%nat x + dt ^ 4 / 24 * w 4%nat x) - wn x) <= tau ->
  nrm (fun x => pol T (w 0%nat) x - wn x) <= dt * BY * rho + tau + (eps * (dt + dt ^ 2 + dt ^ 3 + dt ^ 4) + Rabs g5 * dt ^ 5) * M.
Proof.
  intros R0 M0 Hr Hw Ht. destruct g_le as (H1 & H2 & H3 & H4 & H5).
  set (dk := fun j x => xpow T j (w 0%nat) x - w j x).
  set (ta := fun x => (w 0%nat x + dt * w 1%nat x + dt ^ 2 / 2 * w 2%nat x + dt ^ 3 / 6 * w 3%nat x + dt ^ 4 / 24 * w 4%nat x) - wn x).
  rewrite (nrm_ext _ (fun x => (fun x => (g1 * dt * dk 1%nat x + (g2 * dt ^ 2 * dk 2%nat x + (g3 * dt ^ 3 * dk 3%nat x + (g4 * dt ^ 4 * dk 4%nat x + g5 * dt ^ 5 * dk 5%nat x))))) x
     + (fun x => ta x + (((g1 - 1) * dt) * w 1%nat x + (((g2 - 1 / 2) * dt ^ 2) * w 2%nat x + (((g3 - 1 / 6) * dt ^ 3) * w 3%nat x + (((g4 - 1 / 24) * dt ^ 4) * w 4%nat x + (g5 * dt ^ 5) * w 5%nat x))))) x)).
  2:{ intros x Hx. unfold pol, dk, ta. cbv beta. field. }
  eapply Rle_trans; [apply nrm_plus|].
  assert (S1 : nrm (fun x => (g1 * dt * dk 1%nat x + (g2 * dt ^ 2 * dk 2%nat x + (g3 * dt ^ 3 * dk 3%nat x + (g4 * dt ^ 4 * dk 4%nat x + g5 * dt ^ 5 * dk 5%nat x))))) <= dt * BY * rho).
  { apply (sum5 rho); auto; apply diffsamp; auto; intros; apply Hr; lia. }
  assert (Q : forall a e j n, Rabs a <= e -> (1 <= j <= 5)%nat -> nrm (fun x => a * dt ^ n * w j x) <= e * dt ^ n * M).
  { intros a e j n Ha Hj. apply nrm_scal_le; [|now apply Hw]. rewrite Rabs_mult, (Rabs_pos_eq (dt ^ n)) by (now apply pow_le).
    apply Rmult_le_compat_r; [now apply pow_le|exact Ha]. }
  pose proof (Q (g1 - 1) eps 1%nat 1%nat E1 ltac:(lia)) as Q1. rewrite pow_1 in Q1.
  pose proof (Q (g2 - 1/2) eps 2%nat 2%nat E2 ltac:(lia)) as Q2. pose proof (Q (g3 - 1/6) eps 3%nat 3%nat E3 ltac:(lia)) as Q3.
  pose proof (Q (g4 - 1/24) eps 4%nat 4%nat E4 ltac:(lia)) as Q4. pose proof (Q g5 (Rabs g5) 5%nat 5%nat (Rle_refl _) ltac:(lia)) as Q5.
  assert (S2 : nrm (fun x => ta x + (((g1 - 1) * dt) * w 1%nat x + (((g2 - 1 / 2) * dt ^ 2) * w 2%nat x + (((g3 - 1 / 6) * dt ^ 3) * w 3%nat x + (((g4 - 1 / 24) * dt ^ 4) * w 4%nat x + (g5 * dt ^ 5) * w 5%nat x)))))
     <= tau + (eps * dt * M + (eps * dt ^ 2 * M + (eps * dt ^ 3 * M + (eps * dt ^ 4 * M + Rabs g5 * dt ^ 5 * M))))).
  { repeat (eapply Rle_trans; [apply nrm_plus|]; apply Rplus_le_compat; [assumption|]). exact Q5. }
  eapply Rle_trans; [apply Rplus_le_compat; [exact S1|exact S2]|]. right. ring.
Qed.
Lemma pow_lin n a b f g x : V x -> xpow T n (fun x => a * f x + b * g x) x = a * xpow T n f x + b * xpow T n g x.
Proof.
  revert x. induction n; intros x Hx; [reflexivity|]. cbn [xpow].
  rewrite (Text _ (fun x => a * xpow T n f x + b * xpow T n g x)) by auto. now apply Tlin.
Qed.
Lemma pol_sub f g x : V x -> pol T f x - pol T g x = pol T (fun x => f x - g x) x.
Proof.
  intros Hx. unfold pol.
  assert (E : forall n, xpow T n (fun x => f x - g x) x = xpow T n f x - xpow T n g x).
  { intros n. transitivity (xpow T n (fun x => 1 * f x + (-1) * g x) x).
    - apply (xpow_ext V T); [exact Text|intros; ring|exact Hx].
    - rewrite pow_lin by exact Hx. ring. }
  rewrite !E. ring.
Qed.
Lemma one_step (z : X -> R) (w : nat -> X -> R) (wn : X -> R) rho M tau : 0 <= rho -> 0 <= M ->
  (forall i, (i <= 4)%nat -> nrm (fun x => w (S i) x - T (w i) x) <= rho) ->
  (forall i, (1 <= i <= 5)%nat -> nrm (w i) <= M) ->
  nrm (fun x => (w 0%nat x + dt * w 1%nat x + dt ^ 2 / 2 * w 2%nat x + dt ^ 3 / 6 * w 3%nat x + dt ^ 4 / 24 * w 4%nat x) - wn x) <= tau ->
  nrm (fun x => pol T z x - wn x) <= (1 + sig + dt * BY * gam) * nrm (fun x => z x - w 0%nat x)
    + (dt * BY * rho + tau + (eps * (dt + dt ^ 2 + dt ^ 3 + dt ^ 4) + Rabs g5 * dt ^ 5) * M).
Proof.
  intros R0 M0 Hr Hw Ht.
  rewrite (nrm_ext _ (fun x => pol T (fun x => z x - w 0%nat x) x + (pol T (w 0%nat) x - wn x))) by (intros x Hx; rewrite <- pol_sub by exact Hx; ring).
  eapply Rle_trans; [apply nrm_plus|]. apply Rplus_le_compat; [apply stabT|now apply local].
Qed.
End Norm.

(** ** Growth over many steps *)
Lemma gronwall (e : nat -> R) a b n : 0 <= a -> 0 <= b -> e 0%nat = 0 -> (forall i, (i < n)%nat -> e (S i) <= (1 + a) * e i + b) ->
  e n <= INR n * b * (1 + a) ^ n.
Proof.
  intros A B E0 H. induction n as [|n IH]; [rewrite E0; cbn [INR]; lra|].
  assert (Hn : e n <= INR n * b * (1 + a) ^ n) by (apply IH; intros; apply H; lia).
  pose proof (H n ltac:(lia)) as Hs. assert (P : 1 <= (1 + a) ^ S n) by (apply pow_R1_Rle; lra).
  assert (P1 : (1 + a) * e n <= (1 + a) * (INR n * b * (1 + a) ^ n)) by (apply Rmult_le_compat_l; lra).
  assert (P2 : b * 1 <= b * (1 + a) ^ S n) by (apply Rmult_le_compat_l; lra).
  rewrite S_INR. replace ((INR n + 1) * b * (1 + a) ^ S n) with ((1 + a) * (INR n * b * (1 + a) ^ n) + b * (1 + a) ^ S n) by (cbn [pow]; ring). lra.
Qed.
Lemma pow_exp a n : 0 <= a -> (1 + a) ^ n <= exp (INR n * a).
Proof.
  intros A. induction n as [|n IH]; [cbn [pow INR]; rewrite Rmult_0_l, exp_0; lra|].
  rewrite S_INR, Rmult_plus_distr_r, Rmult_1_l, exp_plus. cbn [pow]. rewrite Rmult_comm.
  apply Rmult_le_compat; [apply pow_le; lra|lra|exact IH|]. pose proof (exp_ineq1_le a). lra.
Qed.
