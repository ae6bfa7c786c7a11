(** The discrete Laplacian applied several times to functions with bounded derivatives. *)
From Coq Require Import ZArith Reals Lia Lra.
From Verif Require Import Deriv Stencil Taylor HeatSpec HeatPlane HyperSpec.
Open Scope R_scope.

(** Families of derivatives up to order [n], bounded by [M]. *)
Definition fam (n : nat) (G : nat -> nat -> fn2) (M : R) : Prop :=
  (forall i j, (i + j < n)%nat -> is_dx (G i j) (G (S i) j) /\ is_dy (G i j) (G i (S j))) /\
  (forall i j x y, (i + j <= n)%nat -> Rabs (G i j x y) <= M).
Lemma fam_le n n' G M : (n' <= n)%nat -> fam n G M -> fam n' G M.
Proof. intros H [A B]. split; intros; [apply A|apply B]; lia. Qed.
Lemma fam5 G M : fam 5 G M -> (forall i j, (i + j <= 4)%nat -> is_dx (G i j) (G (S i) j) /\ is_dy (G i j) (G i (S j))) /\ (forall i j x y, (i + j <= 5)%nat -> Rabs (G i j x y) <= M).
Proof. intros [A B]. split; intros; [apply A|apply B]; lia. Qed.
Lemma fam_pos n G M : fam n G M -> 0 <= M.
Proof. intros [_ B]. eapply Rle_trans; [apply Rabs_pos|apply (B 0%nat 0%nat 0 0)]. lia. Qed.
Lemma fam_shift p q n G M : fam (p + q + n) G M -> fam n (fun i j => G (p + i)%nat (q + j)%nat) M.
Proof.
  intros [A B]. split; intros; [|apply B; lia]. rewrite <- !plus_n_Sm. apply A. lia.
Qed.
Lemma fam_plus n G G' M M' : fam n G M -> fam n G' M' -> fam n (fun i j x y => G i j x y + G' i j x y) (M + M').
Proof.
  intros [A B] [A' B']. split; [|intros; apply abs_sum; auto]. intros i j H. destruct (A i j H) as [A1 A2]. destruct (A' i j H) as [A3 A4].
  split; intros x y; apply D_plus; [apply A1|apply A3|apply A2|apply A4].
Qed.
Lemma fam_minus n G G' M : fam n G M -> fam n G' M -> forall B, (forall i j x y, (i + j <= n)%nat -> Rabs (G i j x y - G' i j x y) <= B) -> fam n (fun i j x y => G i j x y - G' i j x y) B.
Proof.
  intros [A _] [A' _] B H. split; [|exact H]. intros i j Hij. destruct (A i j Hij) as [A1 A2]. destruct (A' i j Hij) as [A3 A4].
  split; intros x y; apply D_minus; [apply A1|apply A3|apply A2|apply A4].
Qed.
Lemma fam_weak n G M M' : M <= M' -> fam n G M -> fam n G M'.
Proof. intros H [A B]. split; [exact A|]. intros. eapply Rle_trans; [now apply B|exact H]. Qed.

(** The Laplacian, and the discrete Laplacian. *)
Definition Lp (G : nat -> nat -> fn2) (i j : nat) : fn2 := fun x y => G (2 + i)%nat (0 + j)%nat x y + G (0 + i)%nat (2 + j)%nat x y.
Definition LA (d : R) (f : fn2) : fn2 := fun x y => 4 / (d * d) * hd d f x y.
Lemma fam_Lp n G M : fam (2 + n) G M -> fam n (Lp G) (M + M).
Proof. intros H. unfold Lp. apply (fam_plus n (fun i j => G (2 + i)%nat (0 + j)%nat) (fun i j => G (0 + i)%nat (2 + j)%nat)); apply fam_shift; exact H. Qed.

Lemma D_shift f f' a x : (forall s, derivable_pt_lim f s (f' s)) -> derivable_pt_lim (fun s => f (s + a)) x (f' (x + a)).
Proof.
  intros H. eapply D_eq; [apply (derivable_pt_lim_comp (fun s => s + a) f x 1 (f' (x + a)))|ring].
  - eapply D_eq; [apply D_plus; [apply D_id|apply D_const]|ring].
  - apply H.
Qed.
Section Lap.
Context (d : R) (Hd : d <> 0).
Lemma dx_sd f f' q : is_dx f f' -> is_dx (sd d f q) (sd d f' q).
Proof.
  intros H x y. unfold sd. apply D_minus; [apply D_plus|].
  - apply (D_shift (fun s => f s (y + sq q * d)) (fun s => f' s (y + sq q * d))). intros. apply H.
  - apply (D_shift (fun s => f s (y - sq q * d)) (fun s => f' s (y - sq q * d))). intros. apply H.
  - apply D_cmult, H.
Qed.
Lemma dy_sd f f' q : is_dy f f' -> is_dy (sd d f q) (sd d f' q).
Proof.
  intros H x y. unfold sd. apply D_minus; [apply D_plus|].
  - apply (D_shift (fun s => f (x + cq q * d) s) (fun s => f' (x + cq q * d) s)). intros. apply H.
  - apply (D_shift (fun s => f (x - cq q * d) s) (fun s => f' (x - cq q * d) s)). intros. apply H.
  - apply D_cmult, H.
Qed.
Lemma dx_LA f f' : is_dx f f' -> is_dx (LA d f) (LA d f').
Proof.
  intros H x y. unfold LA, hd. apply D_cmult. eapply D_eq; [apply (D_mult (fun s => sd d f 0 s y + sd d f 1 s y + sd d f 2 s y) (fun _ => / 6)); [|apply D_const]|].
  - apply D_plus; [apply D_plus|]; apply (dx_sd f f'); exact H.
  - cbv beta. unfold Rdiv. ring.
Qed.
Lemma dy_LA f f' : is_dy f f' -> is_dy (LA d f) (LA d f').
Proof.
  intros H x y. unfold LA, hd. apply D_cmult. eapply D_eq; [apply (D_mult (fun s => sd d f 0 x s + sd d f 1 x s + sd d f 2 x s) (fun _ => / 6)); [|apply D_const]|].
  - apply D_plus; [apply D_plus|]; apply (dy_sd f f'); exact H.
  - cbv beta. unfold Rdiv. ring.
Qed.
Lemma LA_lin a b f g x y : LA d (fun x y => a * f x y + b * g x y) x y = a * LA d f x y + b * LA d g x y.
Proof. unfold LA. rewrite hd_lin. ring. Qed.
Lemma LA_ext f g x y : (forall x y, f x y = g x y) -> LA d f x y = LA d g x y.
Proof. intros E. unfold LA. now rewrite (hd_ext d f g). Qed.
Lemma LA_small f B : (forall x y, Rabs (f x y) <= B) -> forall x y, Rabs (LA d f x y) <= 8 / (d * d) * B.
Proof.
  intros H x y. assert (D2 : 0 < d * d) by nra. unfold LA. rewrite Rabs_mult, (Rabs_right (4 / (d * d))) by (apply Rle_ge, Rlt_le, Rdiv_lt_0_compat; lra).
  apply Rle_trans with (4 / (d * d) * (2 * B)); [|right; field; exact Hd]. apply Rmult_le_compat_l; [apply Rlt_le, Rdiv_lt_0_compat; lra|now apply hd_small].
Qed.
(** Consistency and boundedness for every member of a family. *)
Lemma LA_bound G M i j x y : fam (5 + (i + j)) G M -> Rabs (LA d (G i j) x y) <= 8 * M.
Proof.
  intros H. assert (F : fam 5 (fun a b => G (i + a)%nat (j + b)%nat) M) by (apply fam_shift; eapply fam_le; [|exact H]; lia).
  apply fam5 in F. destruct F as [A B]. pose proof (lap_small _ M A B d x y Hd) as Q. cbv beta in Q. rewrite !Nat.add_0_r in Q. exact Q.
Qed.
Lemma LA_consistent G M i j x y : fam (5 + (i + j)) G M -> Rabs (LA d (G i j) x y - Lp G i j x y) <= 16 * M * d ^ 2.
Proof.
  intros H. assert (F : fam 5 (fun a b => G (i + a)%nat (j + b)%nat) M) by (apply fam_shift; eapply fam_le; [|exact H]; lia).
  apply fam5 in F. destruct F as [A B]. pose proof (lap_consistent _ M A B d x y Hd) as Q. cbv beta in Q. unfold lapl in Q. rewrite !Nat.add_0_r in Q.
  rewrite (Nat.add_comm i 2), (Nat.add_comm j 2) in Q. exact Q.
Qed.
Lemma fam_LA n G M : fam (5 + n) G M -> fam n (fun i j => LA d (G i j)) (8 * M).
Proof.
  intros H. split.
  - intros i j Hij. destruct H as [A _]. destruct (A i j) as [A1 A2]; [lia|]. split; [now apply dx_LA|now apply dy_LA].
  - intros i j x y Hij. apply (LA_bound G). eapply fam_le; [|exact H]. lia.
Qed.
Lemma fam_rest n G M : fam (5 + n) G M -> fam n (fun i j x y => LA d (G i j) x y - Lp G i j x y) (16 * M * d ^ 2).
Proof.
  intros H. pose proof (fam_pos _ _ _ H) as M0. apply (fam_minus n (fun i j => LA d (G i j)) (Lp G) (8 * M)).
  - now apply fam_LA.
  - apply (fam_weak n _ (M + M)); [lra|]. apply fam_Lp. eapply fam_le; [|exact H]. lia.
  - intros i j x y Hij. apply LA_consistent. eapply fam_le; [|exact H]. lia.
Qed.

(** The square of the discrete Laplacian is consistent with the square of the Laplacian. *)
Section Two.
Context (G : nat -> nat -> fn2) (M : R) (HG : fam 10 G M).
Lemma M0 : 0 <= M. Proof. exact (fam_pos _ _ _ HG). Qed.
Definition u : fn2 := G 0%nat 0%nat.
Definition bil : fn2 := Lp (Lp G) 0 0.
Lemma LL_small x y : Rabs (LA d (LA d u) x y) <= 64 * M.
Proof. pose proof (LA_bound (fun i j => LA d (G i j)) (8 * M) 0 0 x y (fam_LA 5 G M HG)) as Q. unfold u. cbv beta in Q. lra. Qed.
Lemma LL_consistent x y : Rabs (LA d (LA d u) x y - bil x y) <= 160 * M * d ^ 2.
Proof.
  pose proof (LA_bound _ _ 0 0 x y (fam_rest 5 G M HG)) as Q1. cbv beta in Q1.
  assert (F7 : fam 7 G M) by (eapply fam_le; [|exact HG]; lia).
  pose proof (LA_consistent (Lp G) (M + M) 0 0 x y (fam_Lp 5 G M F7)) as Q2. fold bil in Q2.
  rewrite (LA_ext (fun x y => LA d (G 0%nat 0%nat) x y - Lp G 0 0 x y) (fun x y => 1 * LA d u x y + (-1) * Lp G 0 0 x y) x y) in Q1 by (intros; unfold u; ring).
  rewrite LA_lin in Q1.
  replace (LA d (LA d u) x y - bil x y) with ((1 * LA d (LA d u) x y + -1 * LA d (Lp G 0 0) x y) + (LA d (Lp G 0 0) x y - bil x y)) by ring.
  eapply Rle_trans; [apply abs_sum; [exact Q1|exact Q2]|]. right. ring.
Qed.
(** The fourth power grows at most like 1/d^2 (in fact it is bounded, but not within ten derivatives). *)
Lemma LLLL_small x y : Rabs (LA d (LA d (LA d (LA d u))) x y) <= 10496 * M / (d * d).
Proof.
  assert (F9 : fam 9 G M) by (eapply fam_le; [|exact HG]; lia).
  pose proof (fun x y => LA_bound (Lp (Lp G)) (M + M + (M + M)) 0 0 x y (fam_Lp 5 _ _ (fam_Lp 7 G M F9))) as Q1.
  pose proof (LA_small (LA d bil) _ Q1 x y) as Q2.
  pose proof (LA_small _ _ (LA_small (fun x y => LA d (LA d u) x y - bil x y) _ LL_consistent) x y) as Q3.
  rewrite (LA_ext (LA d (LA d (LA d u))) (fun x y => 1 * LA d (fun x y => LA d (LA d u) x y - bil x y) x y + 1 * LA d bil x y)).
  - rewrite LA_lin, !Rmult_1_l. eapply Rle_trans; [apply abs_sum; [exact Q3|exact Q2]|]. right. field. exact Hd.
  - intros x' y'. rewrite (LA_ext (fun x y => LA d (LA d u) x y - bil x y) (fun x y => 1 * LA d (LA d u) x y + (-1) * bil x y)) by (intros; ring). rewrite LA_lin. ring.
Qed.
End Two.
End Lap.

(** ** In time *)
Lemma hyper_fam kappa Te M D t : hyper kappa Te M D -> 0 <= t <= Te -> fam 10 (D t) M.
Proof. intros H Ht. destruct (H t Ht) as (A & B & _). split; intros; [apply A|apply B]; lia. Qed.
Lemma bil_eq G x y : bil G x y = G 4%nat 0%nat x y + 2 * G 2%nat 2%nat x y + G 0%nat 4%nat x y.
Proof. unfold bil, Lp. cbn [Nat.add]. ring. Qed.
Lemma hyper_taylor kappa Te M D t dt x y : hyper kappa Te M D -> 0 <= kappa -> 0 <= t -> 0 <= dt -> t + dt <= Te ->
  Rabs (D (t + dt) 0%nat 0%nat x y - D t 0%nat 0%nat x y + dt * (kappa * bil (D t) x y)) <= 16 * kappa * kappa * M * dt * dt.
Proof.
  intros H K0 T0 D0 HT. destruct (Req_dec dt 0) as [-> |N].
  { rewrite Rplus_0_r, !Rmult_0_l, Rmult_0_r, Rplus_0_r, Rminus_diag_eq, Rabs_R0 by reflexivity. lra. }
  assert (P : 0 < dt) by lra.
  destruct (MVT_cor2 (fun s => D s 0%nat 0%nat x y) (fun s => - kappa * bil (D s) x y) t (t + dt) ltac:(lra)) as (c & E & Hc).
  { intros s Hs. destruct (H s ltac:(lra)) as (_ & _ & A). rewrite bil_eq. apply A. }
  rewrite E. replace (- kappa * bil (D c) x y * (t + dt - t) + dt * (kappa * bil (D t) x y)) with (kappa * dt * - (bil (D c) x y - bil (D t) x y)) by ring.
  destruct (MVT_cor2 (fun s => bil (D s) x y) (fun s => - kappa * (D s 8%nat 0%nat x y + 4 * D s 6%nat 2%nat x y + 6 * D s 4%nat 4%nat x y + 4 * D s 2%nat 6%nat x y + D s 0%nat 8%nat x y)) t c ltac:(lra)) as (s & E2 & Hs).
  { intros r Hr. destruct (H r ltac:(lra)) as (_ & _ & A). eapply D_ext; [|apply A]. intros. apply bil_eq. }
  rewrite E2. destruct (H s ltac:(lra)) as (_ & B & _). assert (KD : 0 <= kappa * dt) by (apply Rmult_le_pos; lra).
  rewrite Rabs_mult, (Rabs_right (kappa * dt)) by lra. rewrite Rabs_Ropp, Rabs_mult, (Rabs_right (c - t)) by lra. rewrite Rabs_mult, Rabs_Ropp, (Rabs_right kappa) by lra.
  assert (BK : forall a i j, 0 <= a -> (i + j <= 8)%nat -> Rabs (a * D s i j x y) <= a * M) by (intros; apply abs_mul; [rewrite Rabs_right; lra|apply B; lia]).
  assert (B8 : Rabs (D s 8%nat 0%nat x y + 4 * D s 6%nat 2%nat x y + 6 * D s 4%nat 4%nat x y + 4 * D s 2%nat 6%nat x y + D s 0%nat 8%nat x y) <= 16 * M).
  { eapply Rle_trans; [apply abs_sum; [apply abs_sum; [apply abs_sum; [apply abs_sum|]|]|]; [apply B; lia|apply BK; [lra|lia]|apply BK; [lra|lia]|apply BK; [lra|lia]|apply B; lia]|lra]. }
  assert (M0 : 0 <= M) by (eapply Rle_trans; [apply Rabs_pos|apply (B 0%nat 0%nat x y); lia]).
  replace (16 * kappa * kappa * M * dt * dt) with (kappa * dt * (kappa * (16 * M) * dt)) by ring. apply Rmult_le_compat_l; [exact KD|].
  apply Rmult_le_compat; [apply Rmult_le_pos; [lra|apply Rabs_pos]|lra|apply Rmult_le_compat_l; lra|lra].
Qed.
