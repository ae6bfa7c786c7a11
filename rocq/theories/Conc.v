(** Concurrency: [parallel_for] launches, all interleavings, data races, and the theorem that an
    ownership discipline excludes undefined behaviour and makes the result schedule independent.

    /repo/src/common.hpp l.92-111: [omega_parallel_for] hands an index range to Kokkos, which may run
    the iterations in any order and concurrently. *)
From Coq Require Import ZArith List Bool Lia FinFun.
From Verif Require Import Arith Arrays Prog.
Import ListNotations.
Open Scope Z_scope.

(** Iteration index of a thread, e.g. [[irow; icol]]. *)
Definition tid := list Z.
Definition launch (A : Arith) := list (tid * prog A unit).

Section Machine.
Context {A : Arith} (D : dims).

(** The access a thread is about to make (true = store). *)
Definition nacc (p : prog A unit) : option (bool * loc) :=
  match p with
  | Ret _ | Ub => None
  | RdI a ix _ => Some (false, LI a ix)
  | RdR a ix _ => Some (false, LR a ix)
  | WrI a ix _ _ => Some (true, LI a ix)
  | WrR a ix _ _ => Some (true, LR a ix)
  end.

(** The thread is about to do something undefined. *)
Definition faults (p : prog A unit) : bool :=
  match p with
  | Ub => true
  | _ => match nacc p with Some (_, l) => negb (validb D l) | None => false end
  end.

(** One load or store. *)
Definition act (p : prog A unit) (m : mem A) : option (prog A unit * mem A) :=
  match p with
  | Ret _ | Ub => None
  | RdI a ix k => if validb D (LI a ix) then Some (k (mi m a ix), m) else None
  | RdR a ix k => if validb D (LR a ix) then Some (k (mr m a ix), m) else None
  | WrI a ix v k => if validb D (LI a ix) then Some (k, wri m a ix v) else None
  | WrR a ix v k => if validb D (LR a ix) then Some (k, wrr m a ix v) else None
  end.

Definition cfg : Type := launch A * mem A.

(** Any thread may make the next step. *)
Inductive pstep : cfg -> cfg -> Prop :=
| pstep_intro l1 t p l2 m p' m' :
    act p m = Some (p', m') -> pstep (l1 ++ (t, p) :: l2, m) (l1 ++ (t, p') :: l2, m').

(** Two different threads are about to access the same location, one of them writing. *)
Definition racy (ts : launch A) : Prop :=
  exists l1 t p l2 t' q l3 w w' l,
    ts = l1 ++ (t, p) :: l2 ++ (t', q) :: l3 /\
    nacc p = Some (w, l) /\ nacc q = Some (w', l) /\ w || w' = true.

Definition bad (ts : launch A) : Prop :=
  (exists t p, In (t, p) ts /\ faults p = true) \/ racy ts.

Inductive outcome : Type := OK (m : mem A) | UB.

(** Outcomes of one launch. *)
Inductive lexec : cfg -> outcome -> Prop :=
| lx_done ts m : (forall t p, In (t, p) ts -> p = Ret tt) -> lexec (ts, m) (OK m)
| lx_bad ts m : bad ts -> lexec (ts, m) UB
| lx_step c c' o : pstep c c' -> lexec c' o -> lexec c o.

(** Outcomes of a host program: launches run one after the other. *)
Inductive exec : list (launch A) -> mem A -> outcome -> Prop :=
| ex_nil m : exec [] m (OK m)
| ex_cons L Ls m m' o : lexec (L, m) (OK m') -> exec Ls m' o -> exec (L :: Ls) m o
| ex_ub L Ls m : lexec (L, m) UB -> exec (L :: Ls) m UB.

(** In every schedule: no undefined behaviour, and the final memory satisfies [Post];
    and some schedule does finish. *)
Definition always (Ls : list (launch A)) (m : mem A) (Post : mem A -> Prop) : Prop :=
  (forall o, exec Ls m o -> exists m', o = OK m' /\ Post m') /\ (exists m', exec Ls m (OK m')).

(** All schedules end in the same memory. *)
Definition deterministic (Ls : list (launch A)) (m : mem A) : Prop :=
  forall m1 m2, exec Ls m (OK m1) -> exec Ls m (OK m2) -> meq m1 m2.

(** ** Termination of every schedule *)
Inductive psub : prog A unit -> prog A unit -> Prop :=
| ps_rdi a ix k v : psub (k v) (RdI a ix k)
| ps_rdr a ix k v : psub (k v) (RdR a ix k)
| ps_wri a ix v k : psub k (WrI a ix v k)
| ps_wrr a ix v k : psub k (WrR a ix v k).

Lemma psub_wf p : Acc psub p.
Proof.
  induction p as [x|a ix k IH|a ix k IH|a ix v k IH|a ix v k IH|]; constructor; intros q Hq; inversion Hq; subst; auto.
Qed.

Inductive lsub : launch A -> launch A -> Prop :=
| ls_intro l1 t p p' l2 : psub p' p -> lsub (l1 ++ (t, p') :: l2) (l1 ++ (t, p) :: l2).

Lemma lsub_wf ts : Acc lsub ts.
Proof.
  induction ts as [|[t p] ts IH].
  - constructor. intros ts' H. inversion H as [l1 t p p' l2 Hp E1 E2]. destruct l1; discriminate.
  - revert ts IH. induction (psub_wf p) as [p _ IHp]. intros ts Hts. induction Hts as [ts Hts IHts].
    constructor. intros ts' H. inversion H as [l1 t0 p0 p' l2 Hp E1 E2]; subst ts'.
    destruct l1 as [|[t1 p1] l1]; cbn in E2; injection E2; intros; subst.
    + cbn. apply IHp; [assumption|]. constructor. exact Hts.
    + cbn. apply IHts. now constructor.
Qed.

Lemma act_psub p m p' m' : act p m = Some (p', m') -> psub p' p.
Proof.
  destruct p; cbn [act]; try discriminate;
    match goal with |- context [validb D ?l] => destruct (validb D l) end; intros H; inversion H; subst; constructor.
Qed.

(** No launch has an infinite execution. *)
Theorem pstep_terminates c : Acc (fun c' c => pstep c c') c.
Proof.
  destruct c as [ts m]. revert m. induction (lsub_wf ts) as [ts _ IH]. intros m.
  constructor. intros c' H. inversion H as [l1 t p l2 m0 p' m' Hact E1 E2]; subst.
  apply IH. constructor. eapply act_psub; eauto.
Qed.

(** ** Ownership discipline *)
Definition tids (L : launch A) : list tid := map fst L.

(** What thread [t] may read: everything no other thread owns. *)
Definition rdable (L : launch A) (W : tid -> loc -> Prop) (t : tid) (l : loc) : Prop :=
  forall t', In t' (tids L) -> t' <> t -> ~ W t' l.

Definition drf (L : launch A) (m : mem A) (W : tid -> loc -> Prop) (Q : tid -> mem A -> Prop) : Prop :=
  NoDup (tids L) /\
  (forall t t' l, In t (tids L) -> In t' (tids L) -> W t l -> W t' l -> t = t') /\
  (forall t p, In (t, p) L -> safe D p m (rdable L W t) (W t) (fun _ m' => Q t m')).

(** What is known of the memory after a disciplined launch. *)
Definition final_char (L : launch A) (m : mem A) (W : tid -> loc -> Prop) (Q : tid -> mem A -> Prop)
  (M : mem A) : Prop :=
  (forall t p, In (t, p) L ->
     exists mt, run D p m = Some (tt, mt) /\ Q t mt /\ (forall l, W t l -> mget M l = mget mt l)) /\
  (forall l, mget M l = mget m l \/ exists t, In t (tids L) /\ W t l).

Definition tinv (L : launch A) (m0 : mem A) W Q (M : mem A) (tp : tid * prog A unit) : Prop :=
  exists p0 mt, In (fst tp, p0) L /\ run D (snd tp) mt = run D p0 m0 /\
    safe D (snd tp) mt (rdable L W (fst tp)) (W (fst tp)) (fun _ m' => Q (fst tp) m') /\
    (forall l, rdable L W (fst tp) l -> mget M l = mget mt l).

Definition inv (L : launch A) (m0 : mem A) W Q (c : cfg) : Prop :=
  tids (fst c) = tids L /\
  (forall l, mget (snd c) l = mget m0 l \/ exists t, In t (tids L) /\ W t l) /\
  Forall (tinv L m0 W Q (snd c)) (fst c).

Lemma inv_init L m W Q : drf L m W Q -> inv L m W Q (L, m).
Proof.
  intros (HN & Hdis & Hs). split; [reflexivity|]. split; [left; reflexivity|].
  apply Forall_forall. intros [t p] Hin. exists p, m. cbn. auto.
Qed.

(** One thread's step inside the discipline. *)
Lemma act_step (p : prog A unit) p' M M' mt (R W : loc -> Prop) (Q : unit -> mem A -> Prop) :
  act p M = Some (p', M') -> safe D p mt R W Q ->
  (forall l, R l -> mget M l = mget mt l) -> (forall l, W l -> R l) ->
  exists mt', run D p' mt' = run D p mt /\ safe D p' mt' R W Q /\
    (forall l, R l -> mget M' l = mget mt' l) /\
    ((forall l, mget M' l = mget M l) \/ exists lw, W lw /\ forall l, l <> lw -> mget M' l = mget M l).
Proof.
  intros Ha Hs HR HWR. destruct p as [x|a ix k|a ix k|a ix v k|a ix v k|]; cbn [act] in Ha; try discriminate.
  - cbn in Hs. destruct Hs as (Hv & Hr & Hs). unfold validb in *. rewrite Hv in Ha. injection Ha as <- <-.
    exists mt. pose proof (HR _ Hr) as E. cbn in E. injection E as E. rewrite E.
    cbn [run]. unfold validb. rewrite Hv. auto 6.
  - cbn in Hs. destruct Hs as (Hv & Hr & Hs). unfold validb in *. rewrite Hv in Ha. injection Ha as <- <-.
    exists mt. pose proof (HR _ Hr) as E. cbn in E. injection E as E. rewrite E.
    cbn [run]. unfold validb. rewrite Hv. auto 6.
  - cbn in Hs. destruct Hs as (Hv & Hw & Hs). unfold validb in *. rewrite Hv in Ha. injection Ha as <- <-.
    exists (wri mt a ix v). cbn [run]. unfold validb. rewrite Hv.
    split; [reflexivity|]. split; [exact Hs|]. split.
    + intros l Hl. destruct (loc_eq_dec l (LI a ix)) as [->|Hne].
      * now rewrite !mget_wri_eq.
      * rewrite !mget_wri_ne by exact Hne. auto.
    + right. exists (LI a ix). split; [exact Hw|]. intros l Hl. now apply mget_wri_ne.
  - cbn in Hs. destruct Hs as (Hv & Hw & Hs). unfold validb in *. rewrite Hv in Ha. injection Ha as <- <-.
    exists (wrr mt a ix v). cbn [run]. unfold validb. rewrite Hv.
    split; [reflexivity|]. split; [exact Hs|]. split.
    + intros l Hl. destruct (loc_eq_dec l (LR a ix)) as [->|Hne].
      * now rewrite !mget_wrr_eq.
      * rewrite !mget_wrr_ne by exact Hne. auto.
    + right. exists (LR a ix). split; [exact Hw|]. intros l Hl. now apply mget_wrr_ne.
Qed.

Lemma inv_step L m W Q c c' : drf L m W Q -> inv L m W Q c -> pstep c c' -> inv L m W Q c'.
Proof.
  intros (HN & Hdis & Hs) (Ht & Hl & HF) Hp.
  inversion Hp as [l1 t p l2 M p' M' Hact E1 E2]; subst c c'. cbn [fst snd] in *.
  apply Forall_app in HF. destruct HF as [HF1 HF2]. apply Forall_cons_iff in HF2. destruct HF2 as [HFt HF2].
  assert (HtL : In t (tids L)).
  { rewrite <- Ht. unfold tids. rewrite map_app. apply in_or_app. right. left. reflexivity. }
  destruct HFt as (p0 & mt & Hin0 & Hrun & Hsafe & Hagree). cbn [fst snd] in *.
  assert (HWR : forall l, W t l -> rdable L W t l).
  { intros l Hw t' Ht' Hne Hw'. apply Hne. symmetry. exact (Hdis t t' l HtL Ht' Hw Hw'). }
  destruct (act_step _ _ _ _ _ _ _ _ Hact Hsafe Hagree HWR) as (mt' & Hrun' & Hsafe' & Hagree' & Hch).
  assert (Hother : forall u q, In (u, q) (l1 ++ l2) -> tinv L m W Q M (u, q) -> tinv L m W Q M' (u, q)).
  { intros u q Huq (q0 & mu & Hq0 & Hru & Hsu & Hau). exists q0, mu. cbn [fst snd] in *.
    repeat split; auto. intros l Hrl. rewrite <- (Hau _ Hrl).
    destruct Hch as [Hch|(lw & Hlw & Hch)]; [apply Hch|]. apply Hch. intros ->.
    assert (Hne : t <> u).
    { intros ->. assert (HND : NoDup (map fst (l1 ++ (u, p) :: l2))) by (unfold tids in Ht; rewrite Ht; exact HN).
      rewrite map_app in HND. cbn in HND. apply NoDup_remove_2 in HND. apply HND.
      rewrite <- map_app. apply in_map_iff. exists (u, q). auto. }
    exact (Hrl t HtL Hne Hlw). }
  split; [|split].
  - cbn. rewrite <- Ht. unfold tids. rewrite !map_app. reflexivity.
  - cbn. intros l. destruct Hch as [Hch|(lw & Hlw & Hch)]; [rewrite Hch; apply Hl|].
    destruct (loc_eq_dec l lw) as [->|Hne]; [right; eauto|]. rewrite (Hch _ Hne). apply Hl.
  - cbn. apply Forall_app. split; [|constructor].
    + apply Forall_forall. intros [u q] Huq. apply Hother; [apply in_or_app; auto|].
      rewrite Forall_forall in HF1. auto.
    + exists p0, mt'. cbn. rewrite Hrun'. auto.
    + apply Forall_forall. intros [u q] Huq. apply Hother; [apply in_or_app; auto|].
      rewrite Forall_forall in HF2. auto.
Qed.

Lemma safe_not_faults (p : prog A unit) m R W Q : safe D p m R W Q -> faults p = false.
Proof.
  destruct p; cbn; intros H; try reflexivity; try (destruct H as (Hv & _ & _); unfold validb in *; now rewrite Hv).
  destruct H.
Qed.

Lemma inv_not_bad L m W Q c : drf L m W Q -> inv L m W Q c -> ~ bad (fst c).
Proof.
  intros (HN & Hdis & Hs) (Ht & Hl & HF) [(t & p & Hin & Hf)|Hr].
  - rewrite Forall_forall in HF. destruct (HF _ Hin) as (p0 & mt & _ & _ & Hsafe & _).
    cbn in Hsafe. apply safe_not_faults in Hsafe. congruence.
  - destruct Hr as (l1 & t & p & l2 & t' & q & l3 & w & w' & l & E & Hp & Hq & Hw).
    rewrite E in *. rewrite Forall_forall in HF.
    assert (HND : NoDup (map fst (l1 ++ (t, p) :: l2 ++ (t', q) :: l3))) by (unfold tids in Ht; rewrite Ht; exact HN).
    assert (HtL : In t (tids L)).
    { rewrite <- Ht. unfold tids. apply in_map_iff. exists (t, p). split; [reflexivity|]. apply in_or_app. right. left. reflexivity. }
    assert (Hin' : In (t', q) (l1 ++ (t, p) :: l2 ++ (t', q) :: l3)).
    { apply in_or_app. right. right. apply in_or_app. right. left. reflexivity. }
    assert (Ht'L : In t' (tids L)).
    { rewrite <- Ht. unfold tids. apply in_map_iff. exists (t', q). auto. }
    assert (Hne : t <> t').
    { intros ->. rewrite map_app in HND. cbn in HND. apply NoDup_remove_2 in HND. apply HND.
      apply in_or_app. right. rewrite map_app. apply in_or_app. right. left. reflexivity. }
    destruct (HF (t, p)) as (p0 & mt & _ & _ & Hsp & _); [apply in_or_app; right; left; reflexivity|].
    destruct (HF (t', q) Hin') as (q0 & mu & _ & _ & Hsq & _). cbn [fst snd] in *.
    assert (Kp : (w = true -> W t l) /\ (w = false -> rdable L W t l)).
    { destruct p; cbn in Hp; try discriminate; injection Hp as <- <-; cbn in Hsp; destruct Hsp as (_ & K & _); split; intros; try discriminate; exact K. }
    assert (Kq : (w' = true -> W t' l) /\ (w' = false -> rdable L W t' l)).
    { destruct q; cbn in Hq; try discriminate; injection Hq as <- <-; cbn in Hsq; destruct Hsq as (_ & K & _); split; intros; try discriminate; exact K. }
    destruct w, w'; try discriminate.
    + apply Hne. exact (Hdis t t' l HtL Ht'L (proj1 Kp eq_refl) (proj1 Kq eq_refl)).
    + exact (proj2 Kq eq_refl t HtL Hne (proj1 Kp eq_refl)).
    + exact (proj2 Kp eq_refl t' Ht'L (not_eq_sym Hne) (proj1 Kq eq_refl)).
Qed.

Lemma inv_final L m W Q ts M :
  drf L m W Q -> inv L m W Q (ts, M) -> (forall t p, In (t, p) ts -> p = Ret tt) -> final_char L m W Q M.
Proof.
  intros (HN & Hdis & Hs) (Ht & Hl & HF) Hret. cbn [fst snd] in *. split; [|exact Hl].
  intros t p Hin.
  assert (Hts : In t (tids ts)) by (rewrite Ht; unfold tids; apply in_map_iff; exists (t, p); auto).
  unfold tids in Hts. apply in_map_iff in Hts. destruct Hts as ([t' q] & E & Hq). cbn in E. subst t'.
  rewrite Forall_forall in HF. destruct (HF _ Hq) as (p0 & mt & Hp0 & Hrun & Hsafe & Hag). cbn [fst snd] in *.
  rewrite (Hret _ _ Hq) in *. cbn in Hrun, Hsafe.
  assert (p0 = p).
  { assert (G : forall (l : launch A), NoDup (map fst l) -> In (t, p0) l -> In (t, p) l -> p0 = p).
    { intros l. induction l as [|[u r] l IH]; cbn; intros HND H1 H2; [destruct H1|].
      inversion HND as [|? ? Hni HND']; subst.
      destruct H1 as [H1|H1], H2 as [H2|H2].
      - congruence.
      - injection H1 as -> ->. destruct Hni. apply in_map_iff. exists (t, p). auto.
      - injection H2 as -> ->. destruct Hni. apply in_map_iff. exists (t, p0). auto.
      - auto. }
    exact (G L HN Hp0 Hin). }
  subst p0. exists mt. split; [symmetry; exact Hrun|]. split; [exact Hsafe|].
  intros l Hw. apply Hag. intros t' Ht' Hne Hw'. apply Hne.
  assert (HtL : In t (tids L)) by (unfold tids; apply in_map_iff; exists (t, p); auto).
  symmetry. exact (Hdis t t' l HtL Ht' Hw Hw').
Qed.

(** No schedule of a disciplined launch is undefined, and every final memory is characterised. *)
Lemma drf_lexec L m W Q o : drf L m W Q -> lexec (L, m) o -> exists M, o = OK M /\ final_char L m W Q M.
Proof.
  intros Hd Hx.
  assert (G : forall c, inv L m W Q c -> lexec c o -> exists M, o = OK M /\ final_char L m W Q M).
  { intros c Hi Hc. induction Hc as [ts M Hret|ts M Hbad|c c' o Hstep Hx' IH].
    - exists M. split; [reflexivity|]. eapply inv_final; eauto.
    - destruct (inv_not_bad L m W Q (ts, M) Hd Hi Hbad).
    - eauto using inv_step. }
  eapply G; eauto using inv_init.
Qed.

(** Every schedule can be continued to a final memory. *)
Lemma drf_progress L m W Q : drf L m W Q -> exists M, lexec (L, m) (OK M).
Proof.
  intros Hd. assert (G : forall c, inv L m W Q c -> exists M, lexec c (OK M)).
  { intros c. induction (pstep_terminates c) as [c _ IH]. intros Hi. destruct c as [ts M].
    assert (Hc : (forall t p, In (t, p) ts -> p = Ret tt) \/ exists l1 t p l2, ts = l1 ++ (t, p) :: l2 /\ p <> Ret tt).
    { clear. induction ts as [|[t p] ts IHts].
      - left. intros ? ? [].
      - destruct p as [[]|a ix k|a ix k|a ix v k|a ix v k|];
          try (right; eexists [], t, _, ts; split; [reflexivity|discriminate]).
        destruct IHts as [IHts|(l1 & t' & p & l2 & -> & Hp)].
        + left. intros t' p' [E|E]; [congruence|eauto].
        + right. exists ((t, Ret tt) :: l1), t', p, l2. auto. }
    destruct Hc as [Hc|(l1 & t & p & l2 & -> & Hp)].
    - exists M. now constructor.
    - assert (Hin : In (t, p) (l1 ++ (t, p) :: l2)) by (apply in_or_app; right; left; reflexivity).
      destruct Hi as (Ht & Hl & HF) eqn:EHi. pose proof HF as HF'. rewrite Forall_forall in HF'.
      destruct (HF' _ Hin) as (p0 & mt & _ & _ & Hsafe & _). cbn [fst snd] in *.
      assert (Ha : exists p' M', act p M = Some (p', M')).
      { destruct p as [[]|a ix k|a ix k|a ix v k|a ix v k|]; [congruence| | | | |destruct Hsafe];
          cbn in Hsafe; destruct Hsafe as (Hv & _ & _); cbn [act]; unfold validb; rewrite Hv; eauto. }
      destruct Ha as (p' & M' & Ha).
      assert (Hst : pstep (l1 ++ (t, p) :: l2, M) (l1 ++ (t, p') :: l2, M')) by (constructor; exact Ha).
      destruct (IH _ Hst) as (M2 & HM2); [eapply inv_step; eauto|].
      exists M2. econstructor; eauto. }
  apply G. now apply inv_init.
Qed.

Lemma final_char_det L m W Q M1 M2 :
  final_char L m W Q M1 -> final_char L m W Q M2 -> meq M1 M2.
Proof.
  intros [H1 K1] [H2 K2]. apply meq_mget. intros l.
  assert (G : forall t, In t (tids L) -> W t l -> mget M1 l = mget M2 l).
  { intros t Ht Hw. unfold tids in Ht. apply in_map_iff in Ht. destruct Ht as ([t' p] & E & Hin). cbn in E. subst t'.
    destruct (H1 _ _ Hin) as (a & Ea & _ & Ha). destruct (H2 _ _ Hin) as (b & Eb & _ & Hb).
    rewrite (Ha _ Hw), (Hb _ Hw). congruence. }
  destruct (K1 l) as [E1|(t & Ht & Hw)]; [|eauto].
  destruct (K2 l) as [E2|(t & Ht & Hw)]; [|eauto]. congruence.
Qed.

Lemma drf_meq L m m' W Q :
  drf L m W Q -> meq m m' -> drf L m' W (fun t n => exists n', meq n' n /\ Q t n').
Proof.
  intros (HN & Hdis & Hs) Hm. repeat split; auto. intros t p Hin.
  eapply safe_meq; [exact Hm| |apply Hs; exact Hin]. cbn. intros x n n' Hn HQ. eauto.
Qed.

Lemma run_meq {X} (p : prog A X) m m' : meq m m' ->
  match run D p m, run D p m' with
  | Some (x, n), Some (x', n') => x = x' /\ meq n n'
  | None, None => True
  | _, _ => False
  end.
Proof.
  revert m m'; induction p as [x|a ix k IH|a ix k IH|a ix v k IH|a ix v k IH|]; intros m m' Hm; cbn [run].
  - auto.
  - destruct (validb D (LI a ix)); [|auto]. rewrite (proj1 Hm). apply IH; exact Hm.
  - destruct (validb D (LR a ix)); [|auto]. rewrite (proj2 Hm). apply IH; exact Hm.
  - destruct (validb D (LI a ix)); [|auto]. apply IH. now apply meq_wri.
  - destruct (validb D (LR a ix)); [|auto]. apply IH. now apply meq_wrr.
  - auto.
Qed.

Lemma drf_det2 L m1 m2 W Q M1 M2 :
  drf L m1 W Q -> meq m1 m2 -> lexec (L, m1) (OK M1) -> lexec (L, m2) (OK M2) -> meq M1 M2.
Proof.
  intros Hd Hm H1 H2.
  destruct (drf_lexec _ _ _ _ _ Hd H1) as (N1 & E1 & [F1 K1]). injection E1 as <-.
  destruct (drf_lexec _ _ _ _ _ (drf_meq _ _ _ _ _ Hd Hm) H2) as (N2 & E2 & [F2 K2]). injection E2 as <-.
  apply meq_mget. intros l.
  assert (G : forall t, In t (tids L) -> W t l -> mget M1 l = mget M2 l).
  { intros t Ht Hw. unfold tids in Ht. apply in_map_iff in Ht. destruct Ht as ([t' p] & E & Hin). cbn in E. subst t'.
    destruct (F1 _ _ Hin) as (a & Ea & _ & Ha). destruct (F2 _ _ Hin) as (b & Eb & _ & Hb).
    rewrite (Ha _ Hw), (Hb _ Hw). pose proof (run_meq p _ _ Hm) as Hr. rewrite Ea, Eb in Hr.
    destruct Hr as [_ Hr]. rewrite meq_mget in Hr. apply Hr. }
  destruct (K1 l) as [Ea|(t & Ht & Hw)]; [|eauto].
  destruct (K2 l) as [Eb|(t & Ht & Hw)]; [|eauto].
  rewrite Ea, Eb. rewrite meq_mget in Hm. apply Hm.
Qed.

(** ** Host programs *)
Inductive hsafe : list (launch A) -> mem A -> (mem A -> Prop) -> Prop :=
| hs_nil m (Post : mem A -> Prop) : Post m -> hsafe [] m Post
| hs_cons L Ls m W Q (Post : mem A -> Prop) :
    drf L m W Q -> (forall M, final_char L m W Q M -> hsafe Ls M Post) -> hsafe (L :: Ls) m Post.

Theorem hsafe_always Ls m Post : hsafe Ls m Post -> always Ls m Post.
Proof.
  induction 1 as [m Post HP|L Ls m W Q Post Hd Hk IH].
  - split.
    + intros o Ho. inversion Ho; subst. eauto.
    + exists m. constructor.
  - split.
    + intros o Ho. inversion Ho as [|L0 Ls0 m0 m' o' Hl Hx|L0 Ls0 m0 Hl]; subst.
      * destruct (drf_lexec _ _ _ _ _ Hd Hl) as (M & E & HM). injection E as ->. exact (proj1 (IH _ HM) _ Hx).
      * destruct (drf_lexec _ _ _ _ _ Hd Hl) as (M & E & HM). discriminate.
    + destruct (drf_progress _ _ _ _ Hd) as (M & HM).
      destruct (drf_lexec _ _ _ _ _ Hd HM) as (M' & E & HM'). injection E as <-.
      destruct (proj2 (IH _ HM')) as (M2 & HM2). exists M2. econstructor; eauto.
Qed.

Lemma hsafe_det2 Ls m1 m2 P1 P2 : hsafe Ls m1 P1 -> hsafe Ls m2 P2 -> meq m1 m2 ->
  forall a b, exec Ls m1 (OK a) -> exec Ls m2 (OK b) -> meq a b.
Proof.
  intros H1. revert m2 P2. induction H1 as [m P HP|L Ls m W Q P Hd Hk IH]; intros m2 P2 H2 Hm a b Ha Hb.
  - inversion Ha; inversion Hb; subst. exact Hm.
  - inversion H2 as [|L' Ls' m2' W2 Q2 P2' Hd2 Hk2]; subst.
    inversion Ha as [|? ? ? Ma ? Hla Hxa|]; subst. inversion Hb as [|? ? ? Mb ? Hlb Hxb|]; subst.
    destruct (drf_lexec _ _ _ _ _ Hd Hla) as (Ma' & Ea & HMa). injection Ea as <-.
    destruct (drf_lexec _ _ _ _ _ Hd2 Hlb) as (Mb' & Eb & HMb). injection Eb as <-.
    refine (IH Ma HMa Mb _ (Hk2 _ HMb) _ a b Hxa Hxb).
    exact (drf_det2 _ _ _ _ _ _ _ Hd Hm Hla Hlb).
Qed.

Theorem hsafe_deterministic Ls m Post : hsafe Ls m Post -> deterministic Ls m.
Proof. intros H m1 m2 H1 H2. eapply hsafe_det2; eauto using meq_refl. Qed.

Lemma hsafe_app Ls1 Ls2 m (P Q : mem A -> Prop) :
  hsafe Ls1 m P -> (forall m', P m' -> hsafe Ls2 m' Q) -> hsafe (Ls1 ++ Ls2) m Q.
Proof.
  induction 1 as [m P HP|L Ls m W Qt P Hd Hk IH]; intros H2.
  - cbn. auto.
  - cbn. econstructor; [exact Hd|]. intros M HM. apply IH; auto.
Qed.

Lemma hsafe_post Ls m (P Q : mem A -> Prop) :
  hsafe Ls m P -> (forall m', P m' -> Q m') -> hsafe Ls m Q.
Proof.
  induction 1 as [m P HP|L Ls m W Qt P Hd Hk IH]; intros H2.
  - constructor; auto.
  - econstructor; [exact Hd|]. intros M HM. apply IH; auto.
Qed.

Lemma exec_app Ls1 Ls2 m o :
  exec (Ls1 ++ Ls2) m o <->
  (exists m', exec Ls1 m (OK m') /\ exec Ls2 m' o) \/ (o = UB /\ exec Ls1 m UB).
Proof.
  revert m; induction Ls1 as [|L Ls1 IH]; intros m; cbn.
  - split.
    + intros H. left. exists m. split; [constructor|exact H].
    + intros [(m' & H1 & H2)|[-> H]].
      { inversion H1; subst. exact H2. }
      { inversion H. }
  - split.
    + intros H. inversion H as [|? ? ? m1 ? Hl Hx|? ? ? Hl]; subst.
      * apply IH in Hx. destruct Hx as [(m' & H1 & H2)|[-> H1]].
        -- left. exists m'. split; [econstructor; eauto|exact H2].
        -- right. split; [reflexivity|]. econstructor; eauto.
      * right. split; [reflexivity|]. now constructor.
    + intros [(m' & H1 & H2)|[-> H1]].
      * inversion H1; subst. econstructor; [eassumption|]. apply IH. left. eauto.
      * inversion H1; subst.
        -- econstructor; [eassumption|]. apply IH. right. auto.
        -- now constructor.
Qed.
End Machine.
Arguments OK {_} _.
Arguments UB {_}.
Arguments cfg _ : clear implicits.
Arguments outcome _ : clear implicits.

(** ** Index ranges *)
Definition zseq (n : Z) : list Z := map Z.of_nat (seq 0 (Z.to_nat n)).

Lemma in_zseq n i : In i (zseq n) <-> 0 <= i < n.
Proof.
  unfold zseq. rewrite in_map_iff. split.
  - intros (k & <- & Hk). apply in_seq in Hk. lia.
  - intros Hi. exists (Z.to_nat i). rewrite in_seq. lia.
Qed.
Lemma NoDup_zseq n : NoDup (zseq n).
Proof. unfold zseq. apply Injective_map_NoDup; [|apply seq_NoDup]. intros x y; lia. Qed.
Lemma length_zseq n : length (zseq n) = Z.to_nat n.
Proof. unfold zseq. now rewrite map_length, seq_length. Qed.
Lemma zseq_succ n : 0 <= n -> zseq (n + 1) = zseq n ++ [n].
Proof.
  intros Hn. unfold zseq. replace (Z.to_nat (n + 1)) with (Z.to_nat n + 1)%nat by lia.
  rewrite seq_app, map_app. cbn. now replace (Z.of_nat (Z.to_nat n)) with n by lia.
Qed.

(** All index tuples of a rectangular range [0,n1) x [0,n2) x ... *)
Fixpoint box (ns : list Z) : list (list Z) :=
  match ns with
  | [] => [[]]
  | n :: ns' => flat_map (fun i => map (cons i) (box ns')) (zseq n)
  end.

Lemma in_box ns t : In t (box ns) <-> inb ns t = true.
Proof.
  revert t; induction ns as [|n ns IH]; intros t; cbn [box].
  - destruct t; cbn; split; intros H; try discriminate; auto. destruct H as [H|[]]; discriminate.
  - rewrite in_flat_map. split.
    + intros (i & Hi & Ht). apply in_map_iff in Ht. destruct Ht as (t' & <- & Ht').
      apply in_zseq in Hi. apply IH in Ht'. cbn. rewrite Ht'.
      replace (0 <=? i) with true by (symmetry; apply Z.leb_le; lia).
      replace (i <? n) with true by (symmetry; apply Z.ltb_lt; lia). reflexivity.
    + destruct t as [|i t]; cbn; [discriminate|]. rewrite !andb_true_iff, Z.leb_le, Z.ltb_lt. intros [[H1 H2] H3].
      exists i. rewrite in_zseq. split; [lia|]. apply in_map. now apply IH.
Qed.

Lemma NoDup_flat_map {X Y} (f : X -> list Y) l :
  NoDup l -> (forall x, In x l -> NoDup (f x)) ->
  (forall x x' y, In x l -> In x' l -> In y (f x) -> In y (f x') -> x = x') -> NoDup (flat_map f l).
Proof.
  induction l as [|x l IH]; intros HN Hf Hd; cbn; [constructor|].
  inversion HN as [|? ? Hni HN']; subst.
  assert (K : forall (l1 l2 : list Y), NoDup l1 -> NoDup l2 -> (forall y, In y l1 -> ~ In y l2) -> NoDup (l1 ++ l2)).
  { induction l1 as [|y l1 IH1]; intros l2 H1 H2 H3; cbn; [exact H2|].
    inversion H1; subst. constructor.
    - rewrite in_app_iff. intros [Hy|Hy]; [auto|]. apply (H3 y); cbn; auto.
    - apply IH1; auto. intros y' Hy'. apply H3. cbn; auto. }
  apply K.
  - apply Hf. now left.
  - apply IH; auto.
    + intros; apply Hf; now right.
    + intros a b y Ha Hb. apply Hd; now right.
  - intros y Hy Hy'. apply in_flat_map in Hy'. destruct Hy' as (x' & Hx' & Hy').
    assert (x = x') by (eapply Hd; eauto; cbn; auto). subst. auto.
Qed.

Lemma NoDup_box ns : NoDup (box ns).
Proof.
  induction ns as [|n ns IH]; cbn; [constructor; [intros []|constructor]|].
  apply NoDup_flat_map.
  - apply NoDup_zseq.
  - intros i _. apply Injective_map_NoDup; [|exact IH]. intros x y E. congruence.
  - intros x x' y _ _ Hy Hy'. apply in_map_iff in Hy. apply in_map_iff in Hy'.
    destruct Hy as (? & <- & _). destruct Hy' as (? & E & _). congruence.
Qed.

(** [omega_parallel_for({n1,...}, f)] (/repo/src/common.hpp l.92-111): one thread per index tuple. *)
Definition par {A} (ns : list Z) (body : tid -> prog A unit) : launch A :=
  map (fun t => (t, body t)) (box ns).
Definition par1 {A} (n : Z) (f : Z -> prog A unit) : launch A :=
  par [n] (fun t => match t with [i] => f i | _ => Ub end).
Definition par2 {A} (n1 n2 : Z) (f : Z -> Z -> prog A unit) : launch A :=
  par [n1; n2] (fun t => match t with [i; j] => f i j | _ => Ub end).
Definition par3 {A} (n1 n2 n3 : Z) (f : Z -> Z -> Z -> prog A unit) : launch A :=
  par [n1; n2; n3] (fun t => match t with [i; j; k] => f i j k | _ => Ub end).

Lemma tids_par {A} ns (body : tid -> prog A unit) : tids (par ns body) = box ns.
Proof. unfold tids, par. rewrite map_map. cbn. apply map_id. Qed.
Lemma in_par {A} ns (body : tid -> prog A unit) t p :
  In (t, p) (par ns body) <-> p = body t /\ inb ns t = true.
Proof.
  unfold par. rewrite in_map_iff, <- in_box. split.
  - intros (t' & E & H). injection E as <- <-. auto.
  - intros [-> H]. eauto.
Qed.
