(** The mean over the six neighbours in the plane, for functions with bounded derivatives. *)
From Coq Require Import ZArith Reals Lia Lra.
From Verif Require Import Deriv Stencil Taylor HeatSpec.
Open Scope R_scope.

Lemma abs_sum a b A B : Rabs a <= A -> Rabs b <= B -> Rabs (a + b) <= A + B.
Proof. intros. eapply Rle_trans; [apply Rabs_triang|lra]. Qed.
Lemma abs_dif a b A B : Rabs a <= A -> Rabs b <= B -> Rabs (a - b) <= A + B.
Proof. intros. unfold Rminus. apply abs_sum; [assumption|now rewrite Rabs_Ropp]. Qed.
Lemma abs_mul a b A B : Rabs a <= A -> Rabs b <= B -> Rabs (a * b) <= A * B.
Proof. intros. rewrite Rabs_mult. apply Rmult_le_compat; auto using Rabs_pos. Qed.

(** ** One variable *)
(** A function with a derivative, mirrored. *)
Lemma D_mir f f' s : (forall s, derivable_pt_lim f s (f' s)) -> derivable_pt_lim (fun s => f (- s)) s (- f' (- s)).
Proof.
  intros H. eapply D_eq; [apply (derivable_pt_lim_comp (fun s => - s) f s (-1) (f' (- s)))|ring].
  - eapply D_eq; [apply D_opp, D_id|ring].
  - apply H.
Qed.
Lemma second2 (p p1 p2 : R -> R) M : (forall s, derivable_pt_lim p s (p1 s)) -> (forall s, derivable_pt_lim p1 s (p2 s)) -> (forall s, Rabs (p2 s) <= M) ->
  forall s, Rabs (p s + p (- s) - 2 * p 0) <= 2 * M * Rabs s ^ 2.
Proof.
  intros H1 H2 B s. assert (M0 : 0 <= M) by (eapply Rle_trans; [apply Rabs_pos|apply (B 0)]).
  apply (grow (fun s => p s + p (- s) - 2 * p 0) (fun s => p1 s - p1 (- s)) (2 * M) 1).
  - intros x. eapply D_eq; [apply D_minus; [apply D_plus; [apply H1|apply (D_mir p p1), H1]|apply D_const]|ring].
  - rewrite Ropp_0. ring.
  - lra.
  - intros x. eapply Rle_trans; [apply (lipschitz p1 p2 M H2 B)|]. right. replace (x - - x) with (2 * x) by ring. rewrite Rabs_mult, (Rabs_right 2) by lra. ring.
Qed.
Lemma second4 (p p1 p2 p3 p4 : R -> R) M : (forall s, derivable_pt_lim p s (p1 s)) -> (forall s, derivable_pt_lim p1 s (p2 s)) ->
  (forall s, derivable_pt_lim p2 s (p3 s)) -> (forall s, derivable_pt_lim p3 s (p4 s)) -> (forall s, Rabs (p4 s) <= M) ->
  forall s, Rabs (p s + p (- s) - 2 * p 0 - s * s * p2 0) <= 2 * M * Rabs s ^ 4.
Proof.
  intros H1 H2 H3 H4 B s. assert (M0 : 0 <= M) by (eapply Rle_trans; [apply Rabs_pos|apply (B 0)]).
  assert (A2 : forall s, Rabs (p2 s + p2 (- s) - 2 * p2 0) <= 2 * M * Rabs s ^ 2) by (now apply (second2 p2 p3 p4)).
  assert (A1 : forall s, Rabs (p1 s - p1 (- s) - 2 * s * p2 0) <= 2 * M * Rabs s ^ 3).
  { apply (grow (fun s => p1 s - p1 (- s) - 2 * s * p2 0) (fun s => p2 s + p2 (- s) - 2 * p2 0)); [|rewrite Ropp_0; ring|lra|exact A2].
    intros x. eapply D_eq; [apply D_minus; [apply D_minus; [apply H2|apply (D_mir p1 p2), H2]|apply D_mult; [apply D_cmult, D_id|apply D_const]]|cbv beta; ring]. }
  apply (grow (fun s => p s + p (- s) - 2 * p 0 - s * s * p2 0) (fun s => p1 s - p1 (- s) - 2 * s * p2 0)); [|rewrite Ropp_0; ring|lra|exact A1].
  intros x. eapply D_eq; [apply D_minus; [apply D_minus; [apply D_plus; [apply H1|apply (D_mir p p1), H1]|apply D_const]|apply D_mult; [apply D_mult; apply D_id|apply D_const]]|cbv beta; ring].
Qed.

(** ** Along a line *)
Section Line.
Context (G : nat -> nat -> fn2) (M : R).
Context (HD : forall i j, (i + j <= 4)%nat -> is_dx (G i j) (G (S i) j) /\ is_dy (G i j) (G i (S j))).
Context (HB : forall i j x y, (i + j <= 5)%nat -> Rabs (G i j x y) <= M).
Lemma M_pos : 0 <= M. Proof. eapply Rle_trans; [apply Rabs_pos|apply (HB 0 0 0 0)]. lia. Qed.
Section Dir.
Context (a b : R) (Hab : (Rabs a + Rabs b) * (Rabs a + Rabs b) <= 2).
(** Derivatives in the direction (a, b). *)
Fixpoint dd (n i j : nat) : fn2 := match n with O => G i j | S n => fun x y => a * dd n (S i) j x y + b * dd n i (S j) x y end.
Lemma dd_line n : forall i j x y s, (n + i + j <= 3)%nat ->
  derivable_pt_lim (fun s => dd n i j (x + a * s) (y + b * s)) s (dd (S n) i j (x + a * s) (y + b * s)).
Proof.
  induction n; intros i j x y s Hn.
  - cbn [dd]. apply (line (G i j) (G (S i) j) (G i (S j)) (G (S (S i)) j) (G (S i) (S j))); try (apply HD; lia); exists M; intros; apply HB; lia.
  - change (dd (S (S n)) i j) with (fun x y => a * dd (S n) (S i) j x y + b * dd (S n) i (S j) x y). cbv beta.
    change (dd (S n) i j) with (fun x y => a * dd n (S i) j x y + b * dd n i (S j) x y). cbv beta.
    apply D_plus; apply D_cmult; apply IHn; lia.
Qed.
Lemma dd_bound n : forall i j x y, (n + i + j <= 5)%nat -> Rabs (dd n i j x y) <= (Rabs a + Rabs b) ^ n * M.
Proof.
  induction n; intros i j x y Hn; cbn [dd pow]; [rewrite Rmult_1_l; apply HB; lia|].
  eapply Rle_trans; [apply abs_sum; (apply abs_mul; [apply Rle_refl|apply IHn; lia])|]. right. ring.
Qed.
Lemma dd_bound2 i j x y : (i + j <= 3)%nat -> Rabs (dd 2 i j x y) <= 2 * M.
Proof. intros. eapply Rle_trans; [apply dd_bound; lia|]. apply Rmult_le_compat_r; [apply M_pos|]. cbn [pow]. lra. Qed.
Lemma dd_bound4 i j x y : (i + j <= 1)%nat -> Rabs (dd 4 i j x y) <= 4 * M.
Proof.
  intros. eapply Rle_trans; [apply dd_bound; lia|]. apply Rmult_le_compat_r; [apply M_pos|].
  replace ((Rabs a + Rabs b) ^ 4) with (((Rabs a + Rabs b) * (Rabs a + Rabs b)) * ((Rabs a + Rabs b) * (Rabs a + Rabs b))) by ring.
  assert (0 <= (Rabs a + Rabs b) * (Rabs a + Rabs b)) by apply Rle_0_sqr. nra.
Qed.
Lemma line_second2 i j x y s : (i + j <= 2)%nat ->
  Rabs (G i j (x + a * s) (y + b * s) + G i j (x - a * s) (y - b * s) - 2 * G i j x y) <= 4 * M * s ^ 2.
Proof.
  intros H. pose proof (second2 (fun s => dd 0 i j (x + a * s) (y + b * s)) (fun s => dd 1 i j (x + a * s) (y + b * s)) (fun s => dd 2 i j (x + a * s) (y + b * s)) (2 * M)) as Q.
  specialize (Q ltac:(intros; apply dd_line; lia) ltac:(intros; apply dd_line; lia) ltac:(intros; apply dd_bound2; lia) s).
  cbn [dd] in Q. rewrite !Rmult_0_r, !Rplus_0_r in Q. rewrite pow2_abs in Q. replace (x + a * - s) with (x - a * s) in Q by ring. replace (y + b * - s) with (y - b * s) in Q by ring.
  eapply Rle_trans; [exact Q|right; ring].
Qed.
Lemma line_second4 x y s :
  Rabs (G 0%nat 0%nat (x + a * s) (y + b * s) + G 0%nat 0%nat (x - a * s) (y - b * s) - 2 * G 0%nat 0%nat x y
    - s * s * (a * a * G 2%nat 0%nat x y + 2 * a * b * G 1%nat 1%nat x y + b * b * G 0%nat 2%nat x y)) <= 8 * M * s ^ 4.
Proof.
  pose proof (second4 (fun s => dd 0 0 0 (x + a * s) (y + b * s)) (fun s => dd 1 0 0 (x + a * s) (y + b * s)) (fun s => dd 2 0 0 (x + a * s) (y + b * s))
    (fun s => dd 3 0 0 (x + a * s) (y + b * s)) (fun s => dd 4 0 0 (x + a * s) (y + b * s)) (4 * M)) as Q.
  specialize (Q ltac:(intros; apply dd_line; lia) ltac:(intros; apply dd_line; lia) ltac:(intros; apply dd_line; lia) ltac:(intros; apply dd_line; lia) ltac:(intros; apply dd_bound4; lia) s).
  cbn [dd] in Q. rewrite !Rmult_0_r, !Rplus_0_r in Q. replace (Rabs s ^ 4) with (s ^ 4) in Q by (rewrite RPow_abs, Rabs_right; [reflexivity|]; replace (s ^ 4) with ((s * s) * (s * s)) by ring; apply Rle_ge, Rle_0_sqr).
  replace (x + a * - s) with (x - a * s) in Q by ring. replace (y + b * - s) with (y - b * s) in Q by ring.
  match type of Q with Rabs ?u <= _ => match goal with |- Rabs ?v <= _ => replace v with u by ring end end. eapply Rle_trans; [exact Q|right; ring].
Qed.
End Dir.

(** ** The mean over the neighbours *)
Lemma dir_norm q : (Rabs (cq q) + Rabs (sq q)) * (Rabs (cq q) + Rabs (sq q)) <= 2.
Proof.
  assert (S3 : sqrt 3 * sqrt 3 = 3) by (apply sqrt_sqrt; lra). assert (P3 : 0 <= sqrt 3) by apply sqrt_pos.
  assert (A : (1 / 2 + sqrt 3 / 2) * (1 / 2 + sqrt 3 / 2) <= 2) by nra.
  unfold cq, sq. destruct (q =? 0)%Z; [rewrite Rabs_R0, Rabs_R1; lra|]. rewrite (Rabs_right (sqrt 3 / 2)) by lra.
  destruct (q =? 1)%Z; [rewrite Rabs_right by lra; exact A|]. rewrite Rabs_left by lra. replace (- - (1 / 2)) with (1 / 2) by ring. exact A.
Qed.
End Line.

(** Second difference in one of the three directions, and the mean over the neighbours. *)
Definition sd (d : R) (f : fn2) (q : Z) : fn2 := fun x y => f (x + cq q * d) (y + sq q * d) + f (x - cq q * d) (y - sq q * d) - 2 * f x y.
Definition hd (d : R) (f : fn2) : fn2 := fun x y => (sd d f 0 x y + sd d f 1 x y + sd d f 2 x y) / 6.
Lemma Ou_Gr d f x y : d <> 0 -> Ou d (Gr d f) x y = 4 / (d * d) * hd d f x y.
Proof.
  intros Hd. unfold Ou, Df, Gr, hd, sd.
  assert (P : forall q, x + d / 2 * cq q + d / 2 * cq q = x + cq q * d /\ y + d / 2 * sq q + d / 2 * sq q = y + sq q * d /\
    x + d / 2 * cq q - d / 2 * cq q = x /\ y + d / 2 * sq q - d / 2 * sq q = y /\ x - d / 2 * cq q + d / 2 * cq q = x /\ y - d / 2 * sq q + d / 2 * sq q = y /\
    x - d / 2 * cq q - d / 2 * cq q = x - cq q * d /\ y - d / 2 * sq q - d / 2 * sq q = y - sq q * d) by (intros; repeat split; field).
  destruct (P 0%Z) as (-> & -> & -> & -> & -> & -> & -> & ->). destruct (P 1%Z) as (-> & -> & -> & -> & -> & -> & -> & ->). destruct (P 2%Z) as (-> & -> & -> & -> & -> & -> & -> & ->).
  field. exact Hd.
Qed.
Lemma hd_lin d a b f g x y : hd d (fun x y => a * f x y + b * g x y) x y = a * hd d f x y + b * hd d g x y.
Proof. unfold hd, sd. field. Qed.
Lemma hd_ext d f g x y : (forall x y, f x y = g x y) -> hd d f x y = hd d g x y.
Proof. intros E. unfold hd, sd. now rewrite !E. Qed.
Lemma hd_small d f B : (forall x y, Rabs (f x y) <= B) -> forall x y, Rabs (hd d f x y) <= 2 * B.
Proof.
  intros H x y. unfold hd. assert (K : forall q, Rabs (sd d f q x y) <= 4 * B).
  { intros q. unfold sd. eapply Rle_trans; [apply abs_dif; [apply abs_sum; apply H|apply (abs_mul 2 _ 2 B); [rewrite Rabs_right; lra|apply H]]|lra]. }
  unfold Rdiv. rewrite Rabs_mult, (Rabs_right (/ 6)) by lra. pose proof (abs_sum _ _ _ _ (abs_sum _ _ _ _ (K 0%Z) (K 1%Z)) (K 2%Z)). lra.
Qed.

Section Mean.
Context (G : nat -> nat -> fn2) (M : R).
Context (HD : forall i j, (i + j <= 4)%nat -> is_dx (G i j) (G (S i) j) /\ is_dy (G i j) (G i (S j))).
Context (HB : forall i j x y, (i + j <= 5)%nat -> Rabs (G i j x y) <= M).
Definition lapl : fn2 := fun x y => G 2%nat 0%nat x y + G 0%nat 2%nat x y.
Lemma hd_2 d i j x y : (i + j <= 2)%nat -> Rabs (hd d (G i j) x y) <= 2 * M * d ^ 2.
Proof.
  intros H. unfold hd. assert (K : forall q, Rabs (sd d (G i j) q x y) <= 4 * M * d ^ 2).
  { intros q. apply (line_second2 G M HD HB); [apply dir_norm|exact H]. }
  unfold Rdiv. rewrite Rabs_mult, (Rabs_right (/ 6)) by lra. pose proof (abs_sum _ _ _ _ (abs_sum _ _ _ _ (K 0%Z) (K 1%Z)) (K 2%Z)). lra.
Qed.
Lemma hd_4 d x y : Rabs (hd d (G 0%nat 0%nat) x y - d ^ 2 / 4 * lapl x y) <= 4 * M * d ^ 4.
Proof.
  assert (K : forall q, Rabs (sd d (G 0%nat 0%nat) q x y - d * d * (cq q * cq q * G 2%nat 0%nat x y + 2 * cq q * sq q * G 1%nat 1%nat x y + sq q * sq q * G 0%nat 2%nat x y)) <= 8 * M * d ^ 4).
  { intros q. apply (line_second4 G M HD HB). apply dir_norm. }
  pose proof (abs_sum _ _ _ _ (abs_sum _ _ _ _ (K 0%Z) (K 1%Z)) (K 2%Z)) as Q.
  match type of Q with Rabs ?u <= _ => replace (hd d (G 0%nat 0%nat) x y - d ^ 2 / 4 * lapl x y) with (u / 6) end.
  - unfold Rdiv. rewrite Rabs_mult, (Rabs_right (/ 6)) by lra. lra.
  - unfold hd, lapl. generalize (sd d (G 0%nat 0%nat) 0 x y), (sd d (G 0%nat 0%nat) 1 x y), (sd d (G 0%nat 0%nat) 2 x y). intros s0 s1 s2.
    unfold cq, sq. cbn [Z.eqb Pos.eqb]. assert (S3 : sqrt 3 * sqrt 3 = 3) by (apply sqrt_sqrt; lra).
    replace (sqrt 3 / 2 * (sqrt 3 / 2)) with (3 / 4) by (replace (sqrt 3 / 2 * (sqrt 3 / 2)) with (sqrt 3 * sqrt 3 / 4) by field; rewrite S3; reflexivity). field.
Qed.
(** The discrete Laplacian is consistent; its square is bounded. *)
Lemma lap_consistent d x y : d <> 0 -> Rabs (4 / (d * d) * hd d (G 0%nat 0%nat) x y - lapl x y) <= 16 * M * d ^ 2.
Proof.
  intros Hd. assert (D2 : 0 < d * d) by nra. pose proof (hd_4 d x y) as Q.
  replace (4 / (d * d) * hd d (G 0%nat 0%nat) x y - lapl x y) with (4 / (d * d) * (hd d (G 0%nat 0%nat) x y - d ^ 2 / 4 * lapl x y)) by (field; exact Hd).
  rewrite Rabs_mult, (Rabs_right (4 / (d * d))) by (apply Rle_ge, Rlt_le, Rdiv_lt_0_compat; lra).
  apply Rle_trans with (4 / (d * d) * (4 * M * d ^ 4)); [|right; field; exact Hd]. apply Rmult_le_compat_l; [apply Rlt_le, Rdiv_lt_0_compat; lra|exact Q].
Qed.
Lemma lap_small d x y : d <> 0 -> Rabs (4 / (d * d) * hd d (G 0%nat 0%nat) x y) <= 8 * M.
Proof.
  intros Hd. assert (D2 : 0 < d * d) by nra. rewrite Rabs_mult, (Rabs_right (4 / (d * d))) by (apply Rle_ge, Rlt_le, Rdiv_lt_0_compat; lra).
  apply Rle_trans with (4 / (d * d) * (2 * M * d ^ 2)); [|right; field; exact Hd]. apply Rmult_le_compat_l; [apply Rlt_le, Rdiv_lt_0_compat; lra|apply hd_2; lia].
Qed.
Lemma hd_hd d x y : Rabs (hd d (hd d (G 0%nat 0%nat)) x y) <= 9 * M * d ^ 4.
Proof.
  rewrite (hd_ext d _ (fun x y => 1 * (hd d (G 0%nat 0%nat) x y - d ^ 2 / 4 * lapl x y) + d ^ 2 / 4 * lapl x y)) by (intros; ring).
  rewrite (hd_lin d 1 (d ^ 2 / 4) (fun x y => hd d (G 0%nat 0%nat) x y - d ^ 2 / 4 * lapl x y) lapl).
  pose proof (hd_small d (fun x y => hd d (G 0%nat 0%nat) x y - d ^ 2 / 4 * lapl x y) _ (hd_4 d) x y) as A.
  assert (B : Rabs (hd d lapl x y) <= 4 * M * d ^ 2).
  { rewrite (hd_ext d lapl (fun x y => 1 * G 2%nat 0%nat x y + 1 * G 0%nat 2%nat x y)) by (intros; unfold lapl; ring). rewrite hd_lin, !Rmult_1_l.
    eapply Rle_trans; [apply abs_sum; apply hd_2; lia|right; ring]. }
  rewrite Rmult_1_l. eapply Rle_trans; [apply abs_sum; [exact A|apply abs_mul; [rewrite Rabs_right; [apply Rle_refl|]|exact B]]|right; field].
  pose proof (pow2_ge_0 d). lra.
Qed.
End Mean.

(** ** In time *)
Lemma time_taylor kappa Te M D t dt x y : heat kappa Te M D -> 0 <= kappa -> 0 <= t -> 0 <= dt -> t + dt <= Te ->
  Rabs (D (t + dt) 0%nat 0%nat x y - D t 0%nat 0%nat x y - dt * (kappa * lapl (D t) x y)) <= 4 * kappa * kappa * M * dt * dt.
Proof.
  intros H K0 T0 D0 HT. destruct (Req_dec dt 0) as [-> |N].
  { rewrite Rplus_0_r, !Rmult_0_l, Rmult_0_r, Rminus_0_r, Rminus_diag_eq, Rabs_R0 by reflexivity. lra. }
  assert (P : 0 < dt) by lra.
  destruct (MVT_cor2 (fun s => D s 0%nat 0%nat x y) (fun s => kappa * lapl (D s) x y) t (t + dt) ltac:(lra)) as (c & E & Hc).
  { intros s Hs. destruct (H s ltac:(lra)) as (_ & _ & A). apply A. }
  rewrite E. replace (kappa * lapl (D c) x y * (t + dt - t) - dt * (kappa * lapl (D t) x y)) with (kappa * dt * (lapl (D c) x y - lapl (D t) x y)) by ring.
  destruct (MVT_cor2 (fun s => lapl (D s) x y) (fun s => kappa * (D s 4%nat 0%nat x y + 2 * D s 2%nat 2%nat x y + D s 0%nat 4%nat x y)) t c ltac:(lra)) as (s & E2 & Hs).
  { intros r Hr. destruct (H r ltac:(lra)) as (_ & _ & A). apply A. }
  rewrite E2. destruct (H s ltac:(lra)) as (_ & B & _). assert (KD : 0 <= kappa * dt) by (apply Rmult_le_pos; lra).
  rewrite Rabs_mult, (Rabs_right (kappa * dt)) by lra. rewrite Rabs_mult, (Rabs_right (c - t)) by lra. rewrite Rabs_mult, (Rabs_right kappa) by lra.
  assert (B4 : Rabs (D s 4%nat 0%nat x y + 2 * D s 2%nat 2%nat x y + D s 0%nat 4%nat x y) <= 4 * M).
  { eapply Rle_trans; [apply abs_sum; [apply abs_sum; [apply B; lia|apply (abs_mul 2 _ 2 M); [rewrite Rabs_right; lra|apply B; lia]]|apply B; lia]|lra]. }
  assert (M0 : 0 <= M) by (eapply Rle_trans; [apply Rabs_pos|apply (B 0%nat 0%nat x y); lia]).
  replace (4 * kappa * kappa * M * dt * dt) with (kappa * dt * (kappa * (4 * M) * dt)) by ring. apply Rmult_le_compat_l; [exact KD|].
  apply Rmult_le_compat; [apply Rmult_le_pos; [lra|apply Rabs_pos]|lra|apply Rmult_le_compat_l; lra|lra].
Qed.
