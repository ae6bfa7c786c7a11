(** Executions whose outputs start from different contents. *)
From Coq Require Import ZArith Reals List Bool Lia Lra.
From Verif Require Import Arith Arrays Prog Conc Launch Mesh AuxVars Tend Model Hex MeshProof MeshMem Over Formulas KernBase Terms KernAux KernTend TendFn StepFn Ready Rel RelRun Relate TendVal StepVal StepRun.
Import ListNotations.
Open Scope Z_scope.

Section Take.
Context {A : Arith} (S : setup A) (Hok : setup_ok S).
Local Notation P := (par_of S).
Local Notation D := (sdims S).
Implicit Types (m : mem A).
(** The arrays of state [t] taken from [m']. *)
Definition take t m' m : mem A :=
  Mem (mi m) (fun a ix => match a with
    | HCell r | VnEdge r | TrCell r => if sid_eq_dec r t then mr m' a ix else mr m a ix
    | _ => mr m a ix end).
Lemma take_ready t m' m : ready S m -> ready S (take t m' m).
Proof. apply ready_frame. intros [x ix|x ix] Hx; [reflexivity|]. destruct x; try discriminate Hx; reflexivity. Qed.
Lemma take_hadv s t m' m c k x : s <> t -> t_hadv (aux_fn (cfg_of S) D s (take t m' m)) s c k x = t_hadv (aux_fn (cfg_of S) D s m) s c k x.
Proof. intros H. destruct s, t; try congruence; reflexivity. Qed.
Lemma take_vn s t m' m md e k x : s <> t ->
  g_vn S t s md (hyp_fn S (aux_fn (cfg_of S) D s (take t m' m))) e k x = g_vn S t s md (hyp_fn S (aux_fn (cfg_of S) D s m)) e k x.
Proof. intros H. unfold hyp_fn, g_vn. destruct (vel_hyperdiff_enabled P); destruct s, t; try congruence; reflexivity. Qed.
Lemma take_tr s t m' m md l c k x : s <> t ->
  g_tr S t s md (trdel2_fn S (aux_fn (cfg_of S) D s (take t m' m))) l c k x = g_tr S t s md (trdel2_fn S (aux_fn (cfg_of S) D s m)) l c k x.
Proof. intros H. unfold trdel2_fn, g_tr. destruct (tracer_hyperdiff_enabled P); destruct s, t; try congruence; reflexivity. Qed.
Lemma take_st s t m' m : s <> t -> state_eq S (allK S) s m (take t m' m).
Proof. intros H k Hk. repeat split; intros; cbn [take mr]; destruct (sid_eq_dec s t); congruence. Qed.
Lemma take_t t m' m : state_eq S (allK S) t m' (take t m' m).
Proof. intros k Hk. repeat split; intros; cbn [take mr]; destruct (sid_eq_dec t t); congruence. Qed.
Lemma state_trans K s m1 m2 m3 : state_eq S K s m1 m2 -> state_eq S K s m2 m3 -> state_eq S K s m1 m3.
Proof.
  intros H1 H2 k Hk. destruct (H1 k Hk) as (A1 & B1 & C1), (H2 k Hk) as (A2 & B2 & C2).
  repeat split; intros; [rewrite A1|rewrite B1|rewrite C1]; auto.
Qed.

(** Two executions from the same state and the same previous output agree. *)
Lemma take_det t s time md m1 m2 : s <> t -> ready S m1 -> ready S m2 -> state_eq S (allK S) s m1 m2 ->
  state_eq S (allK S) t (tendency_fn S t s time md m1) (tendency_fn S t s time md (take t m1 m2)).
Proof.
  intros Hs R1 R2 E. destruct (proj1 (eq3 S t m1 (take t m1 m2)) (take_t t m1 m2)) as (E1 & E2 & E3).
  apply tend_det; auto using take_ready. eapply state_trans; [exact E|now apply take_st].
Qed.
End Take.

