(** Finite sums of reals over index ranges. *)
From Coq Require Import ZArith Reals List Bool Lia Lra Permutation.
From Verif Require Import Conc.
Import ListNotations.

(** Sum of [f] over a list, and over [0, ..., n-1]. *)
Definition Rsum {X : Type} (l : list X) (f : X -> R) : R := fold_right (fun x a => (f x + a)%R) 0%R l.
Definition rsum (n : Z) (f : Z -> R) : R := Rsum (zseq n) f.

Open Scope R_scope.

Section Rsum.
Context {X : Type}.
Implicit Types (l : list X) (f g : X -> R).

Lemma Rsum_ext l f g : (forall x, In x l -> f x = g x) -> Rsum l f = Rsum l g.
Proof.
  induction l as [|x l IH]; cbn; intros H; [reflexivity|]. fold (Rsum l f). fold (Rsum l g).
  rewrite IH by auto. rewrite H by auto. reflexivity.
Qed.
Lemma Rsum_app l l' f : Rsum (l ++ l') f = Rsum l f + Rsum l' f.
Proof. induction l as [|x l IH]; unfold Rsum in *; cbn [fold_right app map]; [lra|]. rewrite IH. lra. Qed.
Lemma Rsum_plus l f g : Rsum l (fun x => f x + g x) = Rsum l f + Rsum l g.
Proof. induction l as [|x l IH]; unfold Rsum in *; cbn [fold_right app map]; [lra|]. rewrite IH. lra. Qed.
Lemma Rsum_opp l f : Rsum l (fun x => - f x) = - Rsum l f.
Proof. induction l as [|x l IH]; unfold Rsum in *; cbn [fold_right app map]; [lra|]. rewrite IH. lra. Qed.
Lemma Rsum_minus l f g : Rsum l (fun x => f x - g x) = Rsum l f - Rsum l g.
Proof. induction l as [|x l IH]; unfold Rsum in *; cbn [fold_right app map]; [lra|]. rewrite IH. lra. Qed.
Lemma Rsum_scal l a f : Rsum l (fun x => a * f x) = a * Rsum l f.
Proof. induction l as [|x l IH]; unfold Rsum in *; cbn [fold_right app map]; [lra|]. rewrite IH. lra. Qed.
Lemma Rsum_scal_r l a f : Rsum l (fun x => f x * a) = Rsum l f * a.
Proof. induction l as [|x l IH]; unfold Rsum in *; cbn [fold_right app map]; [lra|]. rewrite IH. lra. Qed.
Lemma Rsum_zero l f : (forall x, In x l -> f x = 0) -> Rsum l f = 0.
Proof.
  intros H. induction l as [|x l IH]; cbn; [reflexivity|]. fold (Rsum l f). rewrite IH; [|intros; apply H; now right].
  rewrite H by now left. lra.
Qed.
Lemma Rsum_const l a : Rsum l (fun _ => a) = INR (length l) * a.
Proof.
  induction l as [|x l IH]; [cbn; lra|]. change (a + Rsum l (fun _ => a) = INR (S (length l)) * a).
  rewrite IH, S_INR. lra.
Qed.
Lemma Rsum_perm l l' f : Permutation l l' -> Rsum l f = Rsum l' f.
Proof. induction 1; cbn; unfold Rsum in *; lra. Qed.
Lemma Rsum_le l f g : (forall x, In x l -> f x <= g x) -> Rsum l f <= Rsum l g.
Proof.
  intros H. induction l as [|x l IH]; cbn; [lra|]. fold (Rsum l f). fold (Rsum l g).
  assert (f x <= g x) by (apply H; now left). assert (Rsum l f <= Rsum l g) by (apply IH; intros; apply H; now right). lra.
Qed.
Lemma Rsum_nonneg l f : (forall x, In x l -> 0 <= f x) -> 0 <= Rsum l f.
Proof. intros H. rewrite <- (Rsum_zero l (fun _ => 0)) by auto. now apply Rsum_le. Qed.
End Rsum.

Lemma Rsum_map {X Y} (l : list X) (g : X -> Y) f : Rsum (map g l) f = Rsum l (fun x => f (g x)).
Proof. induction l as [|x l IH]; cbn; [reflexivity|]. unfold Rsum in IH. now rewrite IH. Qed.
Lemma Rsum_swap {X Y} (l : list X) (l' : list Y) f :
  Rsum l (fun x => Rsum l' (fun y => f x y)) = Rsum l' (fun y => Rsum l (fun x => f x y)).
Proof.
  induction l as [|x l IH].
  - cbn. symmetry. now apply Rsum_zero.
  - change (Rsum l' (fun y => f x y) + Rsum l (fun x => Rsum l' (fun y => f x y)) =
            Rsum l' (fun y => f x y + Rsum l (fun x => f x y))).
    now rewrite IH, Rsum_plus.
Qed.

Open Scope Z_scope.
Lemma rsum_ext n f g : (forall i, 0 <= i < n -> f i = g i) -> rsum n f = rsum n g.
Proof. intros H. apply Rsum_ext. intros i Hi. apply H. now apply in_zseq. Qed.
Lemma rsum_zero n f : (forall i, 0 <= i < n -> f i = 0%R) -> rsum n f = 0%R.
Proof. intros H. apply Rsum_zero. intros i Hi. apply H. now apply in_zseq. Qed.
Lemma rsum_le n f g : (forall i, 0 <= i < n -> (f i <= g i)%R) -> (rsum n f <= rsum n g)%R.
Proof. intros H. apply Rsum_le. intros i Hi. apply H. now apply in_zseq. Qed.
Lemma rsum_nonneg n f : (forall i, 0 <= i < n -> (0 <= f i)%R) -> (0 <= rsum n f)%R.
Proof. intros H. apply Rsum_nonneg. intros i Hi. apply H. now apply in_zseq. Qed.
Lemma rsum_const n a : 0 <= n -> rsum n (fun _ => a) = (IZR n * a)%R.
Proof.
  intros Hn. unfold rsum. rewrite Rsum_const, length_zseq, INR_IZR_INZ, Z2Nat.id by lia. reflexivity.
Qed.
Lemma rsum_succ n f : 0 <= n -> rsum (n + 1) f = (rsum n f + f n)%R.
Proof. intros Hn. unfold rsum. rewrite zseq_succ by lia. rewrite Rsum_app. cbn. lra. Qed.
Lemma rsum_0 f : rsum 0 f = 0%R. Proof. reflexivity. Qed.
Lemma rsum_neg n f : n <= 0 -> rsum n f = 0%R.
Proof. intros Hn. unfold rsum, zseq. replace (Z.to_nat n) with 0%nat by lia. reflexivity. Qed.

Lemma rsum_plus n f g : rsum n (fun i => (f i + g i)%R) = (rsum n f + rsum n g)%R. Proof. apply Rsum_plus. Qed.
Lemma rsum_minus n f g : rsum n (fun i => (f i - g i)%R) = (rsum n f - rsum n g)%R. Proof. apply Rsum_minus. Qed.
Lemma rsum_opp n f : rsum n (fun i => (- f i)%R) = (- rsum n f)%R. Proof. apply Rsum_opp. Qed.
Lemma rsum_scal n a f : rsum n (fun i => (a * f i)%R) = (a * rsum n f)%R. Proof. apply Rsum_scal. Qed.
Lemma rsum_scal_r n a f : rsum n (fun i => (f i * a)%R) = (rsum n f * a)%R. Proof. apply Rsum_scal_r. Qed.
Lemma rsum_swap n n' f : rsum n (fun i => rsum n' (fun j => f i j)) = rsum n' (fun j => rsum n (fun i => f i j)).
Proof. apply Rsum_swap. Qed.

Lemma NoDup_map_on {X Y} (g : X -> Y) l :
  (forall x y, In x l -> In y l -> g x = g y -> x = y) -> NoDup l -> NoDup (map g l).
Proof.
  intros H N. induction N as [|x l Hx N IH]; cbn; constructor.
  - intros Hin. apply in_map_iff in Hin. destruct Hin as (y & E & Hy). apply Hx.
    rewrite <- (H y x); [exact Hy|now right|now left|exact E].
  - apply IH. intros a b Ha Hb. apply H; now right.
Qed.

(** Reindexing by an injection of the range into itself. *)
Lemma rsum_bij n g f :
  (forall i, 0 <= i < n -> 0 <= g i < n) ->
  (forall i j, 0 <= i < n -> 0 <= j < n -> g i = g j -> i = j) ->
  rsum n (fun i => f (g i)) = rsum n f.
Proof.
  intros H1 H2. unfold rsum. rewrite <- Rsum_map. apply Rsum_perm.
  apply NoDup_Permutation_bis.
  - apply NoDup_map_on; [|apply NoDup_zseq].
    intros i j Hi Hj E. apply in_zseq in Hi, Hj. now apply H2.
  - now rewrite map_length.
  - intros y Hy. apply in_map_iff in Hy. destruct Hy as (i & <- & Hi). apply in_zseq in Hi. apply in_zseq. auto.
Qed.

Lemma rsum_split3 n f : 0 <= n -> rsum (3 * n) f = rsum n (fun c => (f (3 * c)%Z + f (3 * c + 1)%Z + f (3 * c + 2)%Z)%R).
Proof.
  revert n. apply natlike_ind; [reflexivity|]. intros n Hn IH.
  replace (3 * Z.succ n) with (3 * n + 1 + 1 + 1) by lia. replace (Z.succ n) with (n + 1) by lia.
  rewrite !rsum_succ by lia. rewrite IH. replace (3 * n + 1 + 1) with (3 * n + 2) by lia. lra.
Qed.
Lemma rsum_split2 n f : 0 <= n -> rsum (2 * n) f = rsum n (fun c => (f (2 * c)%Z + f (2 * c + 1)%Z)%R).
Proof.
  revert n. apply natlike_ind; [reflexivity|]. intros n Hn IH.
  replace (2 * Z.succ n) with (2 * n + 1 + 1) by lia. replace (Z.succ n) with (n + 1) by lia.
  rewrite !rsum_succ by lia. rewrite IH. lra.
Qed.
Lemma rsum_small3 f : rsum 3 f = (f 0%Z + f 1%Z + f 2%Z)%R. 
Proof. unfold rsum. change (zseq 3) with [0; 1; 2]. unfold Rsum. cbn [fold_right]. lra. Qed.
Lemma rsum_small2 f : rsum 2 f = (f 0%Z + f 1%Z)%R. 
Proof. unfold rsum. change (zseq 2) with [0; 1]. unfold Rsum. cbn [fold_right]. lra. Qed.
Lemma rsum_small6 f : rsum 6 f = (f 0%Z + f 1%Z + f 2%Z + f 3%Z + f 4%Z + f 5%Z)%R. 
Proof. unfold rsum. change (zseq 6) with [0; 1; 2; 3; 4; 5]. unfold Rsum. cbn [fold_right]. lra. Qed.
Lemma rsum_small10 f : rsum 10 f = (f 0%Z + f 1%Z + f 2%Z + f 3%Z + f 4%Z + f 5%Z + f 6%Z + f 7%Z + f 8%Z + f 9%Z)%R. 
Proof. unfold rsum. change (zseq 10) with [0; 1; 2; 3; 4; 5; 6; 7; 8; 9]. unfold Rsum. cbn [fold_right]. lra. Qed.
