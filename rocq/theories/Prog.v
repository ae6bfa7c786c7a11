(** Memory, kernel programs, their execution in isolation, and the proof rules for them. *)
From Coq Require Import ZArith List Bool Lia.
From Verif Require Import Arith Arrays.
Import ListNotations.
Open Scope Z_scope.

(** Contents of all views. *)
Record mem (A : Arith) : Type := Mem { mi : iarr -> list Z -> Z; mr : rarr -> list Z -> F A }.
Arguments Mem {_} _ _.
Arguments mi {_} _ _ _.
Arguments mr {_} _ _ _.

(** Kokkos views are zero initialised on construction (all constructors in /repo use the
    labelled, initialising form). *)
Definition mzero (A : Arith) : mem A := Mem (fun _ _ => 0) (fun _ _ => fofZ 0).

Definition wri {A} (m : mem A) (a : iarr) (ix : list Z) (v : Z) : mem A :=
  Mem (fun a' ix' => if iarr_eq_dec a a' then if ix_eq_dec ix ix' then v else mi m a' ix' else mi m a' ix')
      (mr m).
Definition wrr {A} (m : mem A) (a : rarr) (ix : list Z) (v : F A) : mem A :=
  Mem (mi m)
      (fun a' ix' => if rarr_eq_dec a a' then if ix_eq_dec ix ix' then v else mr m a' ix' else mr m a' ix').

(** A kernel body: a tree of single loads and stores; [Ub] is undefined behaviour. *)
Inductive prog (A : Arith) (X : Type) : Type :=
| Ret (x : X)
| RdI (a : iarr) (ix : list Z) (k : Z -> prog A X)
| RdR (a : rarr) (ix : list Z) (k : F A -> prog A X)
| WrI (a : iarr) (ix : list Z) (v : Z) (k : prog A X)
| WrR (a : rarr) (ix : list Z) (v : F A) (k : prog A X)
| Ub.
Arguments Ret {_ _} _.
Arguments RdI {_ _} _ _ _.
Arguments RdR {_ _} _ _ _.
Arguments WrI {_ _} _ _ _ _.
Arguments WrR {_ _} _ _ _ _.
Arguments Ub {_ _}.

Fixpoint bind {A X Y} (p : prog A X) (f : X -> prog A Y) : prog A Y :=
  match p with
  | Ret x => f x
  | RdI a ix k => RdI a ix (fun v => bind (k v) f)
  | RdR a ix k => RdR a ix (fun v => bind (k v) f)
  | WrI a ix v k => WrI a ix v (bind k f)
  | WrR a ix v k => WrR a ix v (bind k f)
  | Ub => Ub
  end.

Declare Scope prog_scope.
Delimit Scope prog_scope with prog.
Notation "x <- p ;; q" := (bind p (fun x => q)) (at level 61, p at next level, right associativity) : prog_scope.
Notation "p ;;; q" := (bind p (fun _ => q)) (at level 61, right associativity) : prog_scope.
Open Scope prog_scope.

Definition rdi {A} (a : iarr) (ix : list Z) : prog A Z := RdI a ix Ret.
Definition rdr {A} (a : rarr) (ix : list Z) : prog A (F A) := RdR a ix Ret.
Definition sti {A} (a : iarr) (ix : list Z) (v : Z) : prog A unit := WrI a ix v (Ret tt).
Definition str {A} (a : rarr) (ix : list Z) (v : F A) : prog A unit := WrR a ix v (Ret tt).

(** [for (Int i = 0; i < n; ++i) s = body(i, s)]; [s] collects the local variables. *)
Fixpoint forN {A S} (n : nat) (i : Z) (s : S) (body : Z -> S -> prog A S) : prog A S :=
  match n with
  | O => Ret s
  | Datatypes.S n' => bind (body i s) (fun s' => forN n' (i + 1) s' body)
  end.
Definition for_ {A S} (n : Z) (s : S) (body : Z -> S -> prog A S) : prog A S :=
  forN (Z.to_nat n) 0 s body.
Definition for_u {A} (n : Z) (body : Z -> prog A unit) : prog A unit :=
  for_ n tt (fun i _ => body i).
(** A loop over a table of statements. *)
Fixpoint forL {A X} (l : list X) (body : X -> prog A unit) : prog A unit :=
  match l with
  | [] => Ret tt
  | x :: l' => bind (body x) (fun _ => forL l' body)
  end.

(** [Int] is a 32 bit signed integer (/repo/src/common.hpp l.12); overflow is undefined. *)
Definition INT_MAX : Z := 2147483647.
Definition INT_MIN : Z := -2147483648.
Definition in_int (z : Z) : bool := (INT_MIN <=? z) && (z <=? INT_MAX).
Definition chk {A} (z : Z) : prog A Z := if in_int z then Ret z else Ub.
Definition iadd {A} (x y : Z) : prog A Z := chk (x + y).
Definition isub {A} (x y : Z) : prog A Z := chk (x - y).
Definition imul {A} (x y : Z) : prog A Z := chk (x * y).

(** Execution of one thread in isolation. *)
Fixpoint run {A X} (D : dims) (p : prog A X) (m : mem A) : option (X * mem A) :=
  match p with
  | Ret x => Some (x, m)
  | RdI a ix k => if validb D (LI a ix) then run D (k (mi m a ix)) m else None
  | RdR a ix k => if validb D (LR a ix) then run D (k (mr m a ix)) m else None
  | WrI a ix v k => if validb D (LI a ix) then run D k (wri m a ix v) else None
  | WrR a ix v k => if validb D (LR a ix) then run D k (wrr m a ix v) else None
  | Ub => None
  end.

(** ** Proof rules *)

(** Pointwise equality of memories. *)
Definition meq {A} (m m' : mem A) : Prop :=
  (forall a ix, mi m a ix = mi m' a ix) /\ (forall a ix, mr m a ix = mr m' a ix).

(** Contents of a location. *)
Definition mget {A} (m : mem A) (l : loc) : Z + F A :=
  match l with LI a ix => inl (mi m a ix) | LR a ix => inr (mr m a ix) end.

Section Safe.
Context {A : Arith} (D : dims).

(** [safe p m R W Q]: run from [m], [p] only makes legal accesses, reads only locations in [R],
    writes only locations in [W], and ends in a result satisfying [Q]. *)
Fixpoint safe {X} (p : prog A X) (m : mem A) (R W : loc -> Prop) (Q : X -> mem A -> Prop) : Prop :=
  match p with
  | Ret x => Q x m
  | RdI a ix k => validb D (LI a ix) = true /\ R (LI a ix) /\ safe (k (mi m a ix)) m R W Q
  | RdR a ix k => validb D (LR a ix) = true /\ R (LR a ix) /\ safe (k (mr m a ix)) m R W Q
  | WrI a ix v k => validb D (LI a ix) = true /\ W (LI a ix) /\ safe k (wri m a ix v) R W Q
  | WrR a ix v k => validb D (LR a ix) = true /\ W (LR a ix) /\ safe k (wrr m a ix v) R W Q
  | Ub => False
  end.

Lemma safe_bind {X Y} (p : prog A X) (f : X -> prog A Y) m R W Q :
  safe p m R W (fun x m' => safe (f x) m' R W Q) -> safe (bind p f) m R W Q.
Proof. revert m; induction p as [x|a ix k IH|a ix k IH|a ix v k IH|a ix v k IH|]; cbn; intros m H; intuition. Qed.

Lemma safe_mono {X} (p : prog A X) m (R W R' W' : loc -> Prop) (Q Q' : X -> mem A -> Prop) :
  (forall l, R l -> R' l) -> (forall l, W l -> W' l) -> (forall x m', Q x m' -> Q' x m') ->
  safe p m R W Q -> safe p m R' W' Q'.
Proof.
  intros HR HW HQ; revert m; induction p as [x|a ix k IH|a ix k IH|a ix v k IH|a ix v k IH|]; cbn; intros m H; intuition.
Qed.

Lemma safe_post {X} (p : prog A X) m (R W : loc -> Prop) (Q Q' : X -> mem A -> Prop) :
  safe p m R W Q -> (forall x m', Q x m' -> Q' x m') -> safe p m R W Q'.
Proof. intros H HQ; eapply safe_mono; eauto. Qed.

Lemma safe_conj {X} (p : prog A X) m (R W : loc -> Prop) (Q Q' : X -> mem A -> Prop) :
  safe p m R W Q -> safe p m R W Q' -> safe p m R W (fun x m' => Q x m' /\ Q' x m').
Proof. revert m; induction p as [x|a ix k IH|a ix k IH|a ix v k IH|a ix v k IH|]; cbn; intros m H H'; intuition. Qed.

Lemma safe_run {X} (p : prog A X) m R W Q :
  safe p m R W Q -> exists x m', run D p m = Some (x, m') /\ Q x m'.
Proof.
  revert m; induction p as [x|a ix k IH|a ix k IH|a ix v k IH|a ix v k IH|]; cbn [safe run]; intros m H.
  - eauto.
  - destruct H as (Hv & _ & H). rewrite Hv. eauto.
  - destruct H as (Hv & _ & H). rewrite Hv. eauto.
  - destruct H as (Hv & _ & H). rewrite Hv. eauto.
  - destruct H as (Hv & _ & H). rewrite Hv. eauto.
  - destruct H.
Qed.

Lemma wri_same (m : mem A) a ix v : mi (wri m a ix v) a ix = v.
Proof. cbn. destruct (iarr_eq_dec a a); [|congruence]. destruct (ix_eq_dec ix ix); congruence. Qed.
Lemma wri_arr (m : mem A) a ix v a' ix' : a <> a' -> mi (wri m a ix v) a' ix' = mi m a' ix'.
Proof. intros; cbn. destruct (iarr_eq_dec a a'); congruence. Qed.
Lemma wri_ix (m : mem A) a ix v a' ix' : ix <> ix' -> mi (wri m a ix v) a' ix' = mi m a' ix'.
Proof. intros; cbn. destruct (iarr_eq_dec a a'); [|congruence]. destruct (ix_eq_dec ix ix'); congruence. Qed.
Lemma wrr_same (m : mem A) a ix v : mr (wrr m a ix v) a ix = v.
Proof. cbn. destruct (rarr_eq_dec a a); [|congruence]. destruct (ix_eq_dec ix ix); congruence. Qed.
Lemma wrr_arr (m : mem A) a ix v a' ix' : a <> a' -> mr (wrr m a ix v) a' ix' = mr m a' ix'.
Proof. intros; cbn. destruct (rarr_eq_dec a a'); congruence. Qed.
Lemma wrr_ix (m : mem A) a ix v a' ix' : ix <> ix' -> mr (wrr m a ix v) a' ix' = mr m a' ix'.
Proof. intros; cbn. destruct (rarr_eq_dec a a'); [|congruence]. destruct (ix_eq_dec ix ix'); congruence. Qed.
Lemma mi_wrr (m : mem A) a ix v a' ix' : mi (wrr m a ix v) a' ix' = mi m a' ix'.
Proof. reflexivity. Qed.
Lemma mr_wri (m : mem A) a ix v a' ix' : mr (wri m a ix v) a' ix' = mr m a' ix'.
Proof. reflexivity. Qed.

Lemma mget_wri_ne (m : mem A) a ix v l : l <> LI a ix -> mget (wri m a ix v) l = mget m l.
Proof.
  intros H; destruct l as [a' ix'|a' ix']; cbn; [|reflexivity].
  destruct (iarr_eq_dec a a'); [|reflexivity]. destruct (ix_eq_dec ix ix'); [|reflexivity]. subst; congruence.
Qed.
Lemma mget_wrr_ne (m : mem A) a ix v l : l <> LR a ix -> mget (wrr m a ix v) l = mget m l.
Proof.
  intros H; destruct l as [a' ix'|a' ix']; cbn; [reflexivity|].
  destruct (rarr_eq_dec a a'); [|reflexivity]. destruct (ix_eq_dec ix ix'); [|reflexivity]. subst; congruence.
Qed.
Lemma mget_wri_eq (m : mem A) a ix v : mget (wri m a ix v) (LI a ix) = inl v.
Proof. unfold mget. now rewrite wri_same. Qed.
Lemma mget_wrr_eq (m : mem A) a ix v : mget (wrr m a ix v) (LR a ix) = inr v.
Proof. unfold mget. now rewrite wrr_same. Qed.

Lemma meq_mget (m m' : mem A) : meq m m' <-> forall l, mget m l = mget m' l.
Proof.
  split.
  - intros [Hi Hr] [a ix|a ix]; cbn; congruence.
  - intros H; split; intros a ix.
    + specialize (H (LI a ix)); cbn in H; congruence.
    + specialize (H (LR a ix)); cbn in H; congruence.
Qed.
Lemma meq_refl (m : mem A) : meq m m. Proof. split; reflexivity. Qed.
Lemma meq_sym (m m' : mem A) : meq m m' -> meq m' m. Proof. intros [H H']; split; congruence. Qed.
Lemma meq_trans (m m' m'' : mem A) : meq m m' -> meq m' m'' -> meq m m''.
Proof. intros [H H'] [K K']; split; congruence. Qed.

Lemma meq_wri (m m' : mem A) a ix v : meq m m' -> meq (wri m a ix v) (wri m' a ix v).
Proof. intros [H H']; split; intros b jx; cbn; [|auto]. destruct (iarr_eq_dec a b); auto. destruct (ix_eq_dec ix jx); auto. Qed.
Lemma meq_wrr (m m' : mem A) a ix v : meq m m' -> meq (wrr m a ix v) (wrr m' a ix v).
Proof. intros [H H']; split; intros b jx; cbn; [auto|]. destruct (rarr_eq_dec a b); auto. destruct (ix_eq_dec ix jx); auto. Qed.

Lemma safe_meq {X} (p : prog A X) m m' R W (Q Q' : X -> mem A -> Prop) :
  meq m m' -> (forall x n n', meq n n' -> Q x n -> Q' x n') ->
  safe p m R W Q -> safe p m' R W Q'.
Proof.
  intros Hm HQ; revert m m' Hm; induction p as [x|a ix k IH|a ix k IH|a ix v k IH|a ix v k IH|];
    cbn; intros m m' Hm H.
  - eauto.
  - destruct H as (Hv & HR & H). rewrite <- (proj1 Hm). eauto.
  - destruct H as (Hv & HR & H). rewrite <- (proj2 Hm). eauto.
  - destruct H as (Hv & HR & H). eauto using meq_wri.
  - destruct H as (Hv & HR & H). eauto using meq_wrr.
  - destruct H.
Qed.

(** *** Statement rules *)
Lemma safe_rdi a ix m (R W : loc -> Prop) (Q : Z -> mem A -> Prop) :
  validb D (LI a ix) = true -> R (LI a ix) -> Q (mi m a ix) m -> safe (rdi a ix) m R W Q.
Proof. cbn; auto. Qed.
Lemma safe_rdr a ix m (R W : loc -> Prop) (Q : F A -> mem A -> Prop) :
  validb D (LR a ix) = true -> R (LR a ix) -> Q (mr m a ix) m -> safe (rdr a ix) m R W Q.
Proof. cbn; auto. Qed.
Lemma safe_sti a ix v m (R W : loc -> Prop) (Q : unit -> mem A -> Prop) :
  validb D (LI a ix) = true -> W (LI a ix) -> Q tt (wri m a ix v) -> safe (sti a ix v) m R W Q.
Proof. cbn; auto. Qed.
Lemma safe_str a ix v m (R W : loc -> Prop) (Q : unit -> mem A -> Prop) :
  validb D (LR a ix) = true -> W (LR a ix) -> Q tt (wrr m a ix v) -> safe (str a ix v) m R W Q.
Proof. cbn; auto. Qed.
Lemma safe_ret {X} (x : X) m (R W : loc -> Prop) (Q : X -> mem A -> Prop) : Q x m -> safe (Ret x) m R W Q.
Proof. cbn; auto. Qed.
Lemma safe_chk z m (R W : loc -> Prop) (Q : Z -> mem A -> Prop) :
  INT_MIN <= z <= INT_MAX -> Q z m -> safe (chk z) m R W Q.
Proof.
  intros Hz HQ. unfold chk, in_int.
  replace (INT_MIN <=? z) with true by (symmetry; apply Z.leb_le; lia).
  replace (z <=? INT_MAX) with true by (symmetry; apply Z.leb_le; lia). exact HQ.
Qed.
Lemma safe_iadd x y m (R W : loc -> Prop) (Q : Z -> mem A -> Prop) :
  INT_MIN <= x + y <= INT_MAX -> Q (x + y) m -> safe (iadd x y) m R W Q.
Proof. apply safe_chk. Qed.
Lemma safe_isub x y m (R W : loc -> Prop) (Q : Z -> mem A -> Prop) :
  INT_MIN <= x - y <= INT_MAX -> Q (x - y) m -> safe (isub x y) m R W Q.
Proof. apply safe_chk. Qed.
Lemma safe_imul x y m (R W : loc -> Prop) (Q : Z -> mem A -> Prop) :
  INT_MIN <= x * y <= INT_MAX -> Q (x * y) m -> safe (imul x y) m R W Q.
Proof. apply safe_chk. Qed.

(** General loop rule. *)
Lemma safe_forN {S} n (i : Z) (s : S) body m (R W : loc -> Prop) (I : Z -> S -> mem A -> Prop) (Q : S -> mem A -> Prop) :
  I i s m ->
  (forall j s' m', i <= j < i + Z.of_nat n -> I j s' m' ->
     safe (body j s') m' R W (fun s'' m'' => I (j + 1) s'' m'')) ->
  (forall s' m', I (i + Z.of_nat n) s' m' -> Q s' m') ->
  safe (forN n i s body) m R W Q.
Proof.
  revert i s m; induction n as [|n IH]; intros i s m HI Hb HQ.
  - cbn. apply HQ. now replace (i + Z.of_nat 0) with i by lia.
  - cbn [forN]. apply safe_bind. eapply safe_post; [apply Hb; [lia|exact HI]|].
    intros s' m' HI'. apply IH; [exact HI'| |].
    + intros j s2 m2 Hj; apply Hb; lia.
    + intros s2 m2 HI2. apply HQ. now replace (i + Z.of_nat (Datatypes.S n)) with (i + 1 + Z.of_nat n) by lia.
Qed.

Lemma safe_for {S} n (s : S) body m (R W : loc -> Prop) (I : Z -> S -> mem A -> Prop) (Q : S -> mem A -> Prop) :
  0 <= n ->
  I 0 s m ->
  (forall j s' m', 0 <= j < n -> I j s' m' ->
     safe (body j s') m' R W (fun s'' m'' => I (j + 1) s'' m'')) ->
  (forall s' m', I n s' m' -> Q s' m') ->
  safe (for_ n s body) m R W Q.
Proof.
  intros Hn HI Hb HQ. unfold for_. apply safe_forN with (I := I); [exact HI| |].
  - intros j s' m' Hj. apply Hb. lia.
  - intros s' m'. replace (0 + Z.of_nat (Z.to_nat n)) with n by lia. apply HQ.
Qed.
End Safe.

(** [iterZ n g s] performs [s := g i s] for [i = 0 .. n-1]. *)
Fixpoint iterN {S} (n : nat) (i : Z) (g : Z -> S -> S) (s : S) : S :=
  match n with
  | O => s
  | Datatypes.S n' => iterN n' (i + 1) g (g i s)
  end.
Definition iterZ {S} (n : Z) (g : Z -> S -> S) (s : S) : S := iterN (Z.to_nat n) 0 g s.

Lemma iterN_inv {S} (I : Z -> S -> Prop) n i g (s : S) :
  I i s -> (forall j s', i <= j < i + Z.of_nat n -> I j s' -> I (j + 1) (g j s')) ->
  I (i + Z.of_nat n) (iterN n i g s).
Proof.
  revert i s; induction n as [|n IH]; intros i s H0 Hs.
  - cbn. now replace (i + 0) with i by lia.
  - cbn [iterN]. replace (i + Z.of_nat (Datatypes.S n)) with (i + 1 + Z.of_nat n) by lia.
    apply IH; [apply Hs; [lia|exact H0]|]. intros j s' Hj. apply Hs; lia.
Qed.
Lemma iterZ_inv {S} (I : Z -> S -> Prop) n g (s : S) :
  0 <= n -> I 0 s -> (forall j s', 0 <= j < n -> I j s' -> I (j + 1) (g j s')) -> I n (iterZ n g s).
Proof.
  intros Hn H0 Hs. unfold iterZ. replace n with (0 + Z.of_nat (Z.to_nat n)) at 1 by lia.
  apply iterN_inv; [exact H0|]. intros j s' Hj; apply Hs; lia.
Qed.
Lemma iterN_rel {S T} (Rel : S -> T -> Prop) n i g h (s : S) (t : T) :
  Rel s t -> (forall j s' t', i <= j < i + Z.of_nat n -> Rel s' t' -> Rel (g j s') (h j t')) ->
  Rel (iterN n i g s) (iterN n i h t).
Proof.
  revert i s t; induction n as [|n IH]; intros i s t H0 Hs; [exact H0|].
  cbn [iterN]. apply IH; [apply Hs; [lia|exact H0]|]. intros j s' t' Hj; apply Hs; lia.
Qed.
Lemma iterZ_rel {S T} (Rel : S -> T -> Prop) n g h (s : S) (t : T) :
  Rel s t -> (forall j s' t', 0 <= j < n -> Rel s' t' -> Rel (g j s') (h j t')) ->
  Rel (iterZ n g s) (iterZ n h t).
Proof. intros H0 Hs. unfold iterZ. apply (iterN_rel Rel); [exact H0|]. intros j s' t' Hj; apply Hs; lia. Qed.
Lemma iterZ_ext {S} n (g h : Z -> S -> S) s :
  (forall j s', 0 <= j < n -> g j s' = h j s') -> iterZ n g s = iterZ n h s.
Proof. intros H. apply (iterZ_rel eq); [reflexivity|]. intros j s' t' Hj ->. auto. Qed.
Lemma iterN_S {S} n i g (s : S) : iterN (Datatypes.S n) i g s = g (i + Z.of_nat n) (iterN n i g s).
Proof.
  revert i s; induction n as [|n IH]; intros i s.
  - cbn. now replace (i + 0) with i by lia.
  - change (iterN (Datatypes.S (Datatypes.S n)) i g s) with (iterN (Datatypes.S n) (i + 1) g (g i s)).
    rewrite IH. cbn [iterN]. now replace (i + 1 + Z.of_nat n) with (i + Z.of_nat (Datatypes.S n)) by lia.
Qed.
Lemma iterZ_succ {S} n g (s : S) : 0 <= n -> iterZ (n + 1) g s = g n (iterZ n g s).
Proof.
  intros Hn. unfold iterZ. replace (Z.to_nat (n + 1)) with (Datatypes.S (Z.to_nat n)) by lia.
  rewrite iterN_S. f_equal. lia.
Qed.
Lemma iterZ_0 {S} g (s : S) : iterZ 0 g s = s. Proof. reflexivity. Qed.

Section SafeRO.
Context {A : Arith} (D : dims).
(** Loop whose body does not change memory. *)
Lemma safe_for_ro {S} n (s : S) body m (R W : loc -> Prop) (Q : S -> mem A -> Prop) g :
  0 <= n ->
  (forall j s', 0 <= j < n ->
     safe D (body j s') m R W (fun s'' m'' => s'' = g j s' /\ m'' = m)) ->
  Q (iterZ n g s) m ->
  safe D (for_ n s body) m R W Q.
Proof.
  intros Hn Hb HQ. apply safe_for with (I := fun i s' m' => s' = iterZ i g s /\ m' = m); [exact Hn|split; reflexivity| |].
  - intros j s' m' Hj [-> ->]. eapply safe_post; [apply Hb; exact Hj|].
    cbn. intros s'' m'' [-> ->]. rewrite iterZ_succ by lia. split; reflexivity.
  - intros s' m' [-> ->]. exact HQ.
Qed.
End SafeRO.
