(** The results of the operator test: the reductions, and the errors in exact arithmetic. *)
From Coq Require Import ZArith Reals List Bool Lia Lra Permutation.
From Verif Require Import Arith Arrays Prog Conc Launch Mesh Model Hex RSum Spec MeshProof MeshMem MeshFacts MeshR Over KernBase TendFn StepFn Stencil Accur Sample ConsistThms Diag OpTest OpTestFn OpNum OpNum2.
Import ListNotations.
Open Scope Z_scope.

(** ** Reductions *)
Section AnyA.
Context {A : Arith} (D : dims) (m : mem A) (a : rarr).
Definition mbody (i : Z) (accum : F A) : prog A (F A) := x <- rdr a [i] ;; Ret (fmax x accum).
Lemma mbody_run i (x : F A) : validb D (LR a [i]) = true -> run D (mbody i x) m = Some (fmax (mr m a [i]) x, m).
Proof. intros H. unfold mbody, rdr. cbn [bind run]. now rewrite H. Qed.
Lemma max_some l r : (forall i, In i l -> validb D (LR a [i]) = true) -> max_reduces D m mbody l r -> exists x, r = Some x.
Proof.
  intros Hv H. induction H as [l r H|l1 l2 r1 r2 H1 IH1 H2 IH2|l l' r H1 H2 IH].
  - subst r. generalize (@lowest A). induction l as [|i l IH]; intros x; cbn [fold_left]; [eauto|].
    rewrite mbody_run by (apply Hv; now left). apply IH. intros. apply Hv. now right.
  - destruct IH1 as [x ->]; [intros; apply Hv, in_or_app; auto|]. destruct IH2 as [y ->]; [intros; apply Hv, in_or_app; auto|]. eauto.
  - apply IH. intros. apply Hv. eapply Permutation_in; eauto.
Qed.
Lemma max_ex l : exists r, max_reduces D m mbody l r. Proof. eexists. now apply mred_leaf. Qed.
End AnyA.

Definition rmaxl (lo : R) (f : Z -> R) (l : list Z) : R := fold_right (fun i x => Rmax (f i) x) lo l.
Lemma fmax_R (x y : R) : fmax (A:=RA) x y = Rmax x y.
Proof. unfold fmax. cbn [flt RA]. unfold Rmax. destruct (Rlt_dec x y), (Rle_dec x y); cbn [F RA] in *; lra. Qed.
Section Low.
Context (lo : R).
Local Notation rmaxl := (rmaxl lo).
Lemma rmaxl_low f l : (lo <= rmaxl f l)%R.
Proof. induction l; cbn; [lra|]. eapply Rle_trans; [exact IHl|apply Rmax_r]. Qed.
Lemma rmaxl_app f l1 l2 : rmaxl f (l1 ++ l2) = Rmax (rmaxl f l1) (rmaxl f l2).
Proof.
  induction l1 as [|i l IH]; cbn.
  - symmetry. apply Rmax_right, rmaxl_low.
  - unfold OpRun.rmaxl in *. rewrite IH. now rewrite Rmax_assoc.
Qed.
Lemma rmaxl_perm f l l' : Permutation l l' -> rmaxl f l = rmaxl f l'.
Proof.
  induction 1; unfold OpRun.rmaxl in *; cbn [fold_right]; try congruence.
  - now rewrite !Rmax_assoc, (Rmax_comm (f y)).
Qed.
Lemma rmaxl_ext f g l : (forall i, In i l -> f i = g i) -> rmaxl f l = rmaxl g l.
Proof. induction l; intros H; cbn; [reflexivity|]. rewrite H by now left. f_equal. apply IHl. intros. apply H. now right. Qed.
Lemma rmaxl_up f l U : (lo <= U)%R -> (forall i, In i l -> (f i <= U)%R) -> (rmaxl f l <= U)%R.
Proof. intros H0 H. induction l; cbn; [exact H0|]. apply Rmax_lub; [apply H; now left|]. apply IHl. intros. apply H. now right. Qed.
Lemma rmaxl_lo f l i : In i l -> (f i <= rmaxl f l)%R.
Proof. induction l as [|j l IH]; intros []; cbn; [subst; apply Rmax_l|]. eapply Rle_trans; [now apply IH|apply Rmax_r]. Qed.
Lemma rmax_acc (m : mem RA) a l x y : Rmax x (fold_right (fun i y => Rmax (mr m a [i]) y) y l) = fold_right (fun i y => Rmax (mr m a [i]) y) (Rmax x y) l.
Proof. induction l as [|j l IH]; cbn; [reflexivity|]. rewrite <- IH. rewrite !Rmax_assoc. f_equal. apply Rmax_comm. Qed.
End Low.
Lemma fold_val D (m : mem RA) a l (x : F RA) : (forall i, In i l -> validb D (LR a [i]) = true) ->
  fold_left (fun acc i => match acc with
        | Some x => match run D (mbody a i x) m with Some (y, _) => Some y | None => None end
        | None => None end) l (Some x) = Some (rmaxl x (fun i => mr m a [i]) l).
Proof.
  revert x. induction l as [|i l IH]; intros x Hv; cbn [fold_left]; [reflexivity|].
  rewrite mbody_run by (apply Hv; now left). rewrite IH by (intros; apply Hv; now right). f_equal. rewrite fmax_R.
  unfold rmaxl. cbn [fold_right]. now rewrite rmax_acc.
Qed.
Lemma max_val D (m : mem RA) a l r : (forall i, In i l -> validb D (LR a [i]) = true) ->
  max_reduces D m (mbody a) l r -> r = Some (rmaxl (lowest (A:=RA)) (fun i => mr m a [i]) l).
Proof.
  intros Hv H. induction H as [l r H|l1 l2 r1 r2 H1 IH1 H2 IH2|l l' r H1 H2 IH].
  - subst r. now apply fold_val.
  - rewrite IH1, IH2 by (intros; apply Hv, in_or_app; auto). f_equal. rewrite rmaxl_app. apply fmax_R.
  - rewrite IH by (intros; apply Hv; eapply Permutation_in; eauto). f_equal. now apply rmaxl_perm.
Qed.
Lemma low_neg : (lowest (A:=RA) <= 0)%R.
Proof.
  unfold lowest. cbn [fopp fofZ RA]. assert (H : (0 <= (2 ^ 53 - 1) * 2 ^ 971)%Z) by (vm_compute; discriminate).
  apply IZR_le in H. apply Ropp_le_contravar in H. rewrite Ropp_0 in H. exact H.
Qed.

(** The result of a reduction over nonnegative values. *)
Lemma max_of_val cf (h : hexargs RA) a n (m : mem RA) (f : Z -> R) U i0 : rext (dims_of cf h 0) a = [n] ->
  (forall i, 0 <= i < n -> mr m a [i] = f i) -> (0 <= U)%R -> (forall i, 0 <= i < n -> (f i <= U)%R) -> 0 <= i0 < n ->
  exists e : R, (f i0 <= e <= U)%R /\ forall r, max_of cf h a n m r <-> r = Some e.
Proof.
  intros Hx Hf HU Hu Hi. exists (rmaxl (lowest (A:=RA)) f (zseq n)). split; [split|].
  - apply rmaxl_lo. now apply in_zseq.
  - apply rmaxl_up; [pose proof low_neg as L; eapply Rle_trans; [exact L|exact HU]|]. intros i H. apply Hu. now apply in_zseq.
  - assert (Hv : forall i, In i (zseq n) -> validb (dims_of cf h 0) (LR a [i]) = true).
    { intros i H. cbn [validb]. rewrite Hx. apply inb1. now apply in_zseq. }
    assert (E : rmaxl (lowest (A:=RA)) (fun i => mr m a [i]) (zseq n) = rmaxl (lowest (A:=RA)) f (zseq n)).
    { apply rmaxl_ext. intros i H. apply Hf. now apply in_zseq. }
    assert (V : forall r, max_of cf h a n m r -> r = Some (rmaxl (lowest (A:=RA)) f (zseq n))).
    { intros r H. rewrite <- E. eapply max_val; [exact Hv|exact H]. }
    intros r. split; [apply V|]. intros ->. destruct (max_ex (dims_of cf h 0) m a (zseq n)) as [r H].
    rewrite <- (V r H). exact H.
Qed.
