(** Threads that make an invalid access on every path, whatever they read, and what a launch with
    such a thread can do. *)
From Coq Require Import ZArith List Bool Lia Relation_Operators.
From Verif Require Import Arith Arrays Prog Conc.
Import ListNotations.
Open Scope Z_scope.

Section Doomed.
Context {A : Arith} (D : dims).

(** Every path of [p] reaches an access outside the extents of a view. *)
Fixpoint doomed {X} (p : prog A X) : Prop :=
  match p with
  | Ret _ => False
  | RdI a ix k => validb D (LI a ix) = false \/ forall v, doomed (k v)
  | RdR a ix k => validb D (LR a ix) = false \/ forall v, doomed (k v)
  | WrI a ix v k => validb D (LI a ix) = false \/ doomed k
  | WrR a ix v k => validb D (LR a ix) = false \/ doomed k
  | Ub => False
  end.

Lemma doomed_bind_l {X Y} (p : prog A X) (f : X -> prog A Y) : doomed p -> doomed (bind p f).
Proof. induction p; cbn; intuition. Qed.

(** [p] has no path into undefined behaviour other than an invalid access. *)
Fixpoint nofail {X} (p : prog A X) (Q : X -> Prop) : Prop :=
  match p with
  | Ret x => Q x
  | RdI a ix k => forall v, nofail (k v) Q
  | RdR a ix k => forall v, nofail (k v) Q
  | WrI a ix v k => nofail k Q
  | WrR a ix v k => nofail k Q
  | Ub => False
  end.
Lemma doomed_bind_r {X Y} (p : prog A X) (f : X -> prog A Y) (Q : X -> Prop) :
  nofail p Q -> (forall x, Q x -> doomed (f x)) -> doomed (bind p f).
Proof. intros H Hf. induction p; cbn in *; intuition. Qed.
Lemma nofail_bind {X Y} (p : prog A X) (f : X -> prog A Y) P Q :
  nofail p P -> (forall x, P x -> nofail (f x) Q) -> nofail (bind p f) Q.
Proof. intros H Hf. induction p; cbn in *; intuition. Qed.
Lemma nofail_forN {S} n i (s : S) body :
  (forall j s, nofail (body j s) (fun _ => True)) -> nofail (forN n i s body) (fun _ => True).
Proof.
  intros Hb. revert i s. induction n as [|n IH]; intros i s; cbn; [exact I|].
  eapply nofail_bind; [apply Hb|]. intros; apply IH.
Qed.
Lemma nofail_for {S} n (s : S) body :
  (forall j s, nofail (body j s) (fun _ => True)) -> nofail (for_ n s body) (fun _ => True).
Proof. apply nofail_forN. Qed.

(** A launch with a doomed thread *)
Definition has_doomed (ts : launch A) : Prop := exists t p, In (t, p) ts /\ doomed p.

Lemma act_doomed (p p' : prog A unit) m m' : doomed p -> act D p m = Some (p', m') -> doomed p'.
Proof.
  destruct p as [x|a ix k|a ix k|a ix v k|a ix v k|]; cbn [doomed act]; intros H E; try discriminate;
    match type of E with context [validb D ?l] => destruct (validb D l) end; try discriminate;
    injection E as <- <-; destruct H as [H|H]; try discriminate; auto.
Qed.

Lemma pstep_doomed ts m ts' m' : has_doomed ts -> pstep D (ts, m) (ts', m') -> has_doomed ts'.
Proof.
  intros (t & p & Hin & Hp) Hs. inversion Hs as [l1 t1 p1 l2 m1 p1' m1' Ha E1 E2]; subst.
  apply in_app_iff in Hin. destruct Hin as [Hin|[Hin|Hin]].
  - exists t, p. split; [apply in_app_iff; now left|exact Hp].
  - injection Hin as -> ->. exists t, p1'. split; [apply in_app_iff; right; now left|].
    eapply act_doomed; eauto.
  - exists t, p. split; [apply in_app_iff; right; now right|exact Hp].
Qed.

Lemma lexec_doomed (c : @cfg A) o : lexec D c o -> has_doomed (fst c) -> o = UB.
Proof.
  induction 1 as [ts m Hd|ts m Hb|[ts m] [ts' m'] o Hs Hx IH]; cbn [fst]; intros H.
  - destruct H as (t & p & Hin & Hp). rewrite (Hd _ _ Hin) in Hp. destruct Hp.
  - reflexivity.
  - apply IH. eapply pstep_doomed; eauto.
Qed.

(** Every launch and every program has some outcome. *)
Lemma launch_cases (ts : launch A) m :
  (forall t p, In (t, p) ts -> p = Ret tt) \/ bad D ts \/ exists c', pstep D (ts, m) c'.
Proof.
  induction ts as [|[t p] ts IH]; [left; intros ? ? []|].
  destruct (act D p m) as [[p' m']|] eqn:E.
  - right; right. exists ([] ++ (t, p') :: ts, m'). now apply (pstep_intro D [] t p ts m p' m').
  - destruct p as [[]|a ix k|a ix k|a ix v k|a ix v k|].
    6: right; left; left; eexists t, _; split; [now left|reflexivity].
    2-5: right; left; left; eexists t, _; (split; [now left|]); cbn [act faults nacc] in E |- *;
         match type of E with context [validb D ?l] => destruct (validb D l) end; [discriminate|reflexivity].
    destruct IH as [H|[H|[c' H]]].
    + left. intros t' p' [Hp|Hp]; [now injection Hp as <- <-|eauto].
    + right; left. destruct H as [(t' & p' & Hin & Hf)|H].
      * left. exists t', p'. split; [now right|exact Hf].
      * right. destruct H as (l1 & t1 & p1 & l2 & t2 & q & l3 & w & w' & l & -> & H).
        exists ((t, Ret tt) :: l1), t1, p1, l2, t2, q, l3, w, w', l. split; [reflexivity|exact H].
    + right; right. inversion H as [l1 t1 p1 l2 m1 p1' m1' Ha E1 E2]; subst.
      exists (((t, Ret tt) :: l1) ++ (t1, p1') :: l2, m1'). now apply (pstep_intro D ((t, Ret tt) :: l1)).
Qed.
Lemma lexec_ex (c : @cfg A) : exists o, lexec D c o.
Proof.
  induction (pstep_terminates D c) as [[ts m] _ IH].
  destruct (launch_cases ts m) as [H|[H|[c' H]]].
  - exists (OK m). now constructor.
  - exists UB. now constructor.
  - destruct (IH c' H) as [o Ho]. exists o. eapply lx_step; eauto.
Qed.
Lemma exec_ex (Ls : list (launch A)) m : exists o, exec D Ls m o.
Proof.
  revert m. induction Ls as [|L Ls IH]; intros m; [exists (OK m); constructor|].
  destruct (lexec_ex (L, m)) as [[m'|] H].
  - destruct (IH m') as [o Ho]. exists o. econstructor; eauto.
  - exists UB. now apply ex_ub.
Qed.

(** A program with such a launch has undefined behaviour in every schedule. *)
Lemma exec_doomed (Ls : list (launch A)) L m : In L Ls -> has_doomed L ->
  (forall o, exec D Ls m o -> o = UB) /\ exec D Ls m UB.
Proof.
  intros HL Hd.
  assert (G : forall o, exec D Ls m o -> o = UB).
  { intros o Hx. revert HL. induction Hx as [m|L' Ls m m' o Hl Hx IH|]; intros HL; [destruct HL| |reflexivity].
    destruct HL as [->|HL]; [|now apply IH].
    now pose proof (lexec_doomed _ _ Hl Hd). }
  split; [exact G|]. destruct (exec_ex Ls m) as [o Ho]. now rewrite <- (G o Ho).
Qed.

(** Running the doomed thread alone leads to its invalid access. *)
Lemma doomed_reaches l1 t (p : prog A unit) l2 m : doomed p ->
  exists q m' w l, clos_refl_trans_1n _ (pstep D) (l1 ++ (t, p) :: l2, m) (l1 ++ (t, q) :: l2, m') /\
    nacc q = Some (w, l) /\ validb D l = false.
Proof.
  revert m. induction p as [x|a ix k IH|a ix k IH|a ix v k IH|a ix v k IH|]; intros m H; cbn [doomed] in H.
  - destruct H.
  - destruct (validb D (LI a ix)) eqn:E; [destruct H as [H|H]; [discriminate|]|exists (RdI a ix k), m, false, (LI a ix); split; [constructor|auto]].
    destruct (IH (mi m a ix) m (H _)) as (q & m' & w & l & R & Q). exists q, m', w, l. split; [|exact Q].
    eapply rt1n_trans; [|exact R]. constructor. cbn [act]. now rewrite E.
  - destruct (validb D (LR a ix)) eqn:E; [destruct H as [H|H]; [discriminate|]|exists (RdR a ix k), m, false, (LR a ix); split; [constructor|auto]].
    destruct (IH (mr m a ix) m (H _)) as (q & m' & w & l & R & Q). exists q, m', w, l. split; [|exact Q].
    eapply rt1n_trans; [|exact R]. constructor. cbn [act]. now rewrite E.
  - destruct (validb D (LI a ix)) eqn:E; [destruct H as [H|H]; [discriminate|]|exists (WrI a ix v k), m, true, (LI a ix); split; [constructor|auto]].
    destruct (IH (wri m a ix v) H) as (q & m' & w & l & R & Q). exists q, m', w, l. split; [|exact Q].
    eapply rt1n_trans; [|exact R]. constructor. cbn [act]. now rewrite E.
  - destruct (validb D (LR a ix)) eqn:E; [destruct H as [H|H]; [discriminate|]|exists (WrR a ix v k), m, true, (LR a ix); split; [constructor|auto]].
    destruct (IH (wrr m a ix v) H) as (q & m' & w & l & R & Q). exists q, m', w, l. split; [|exact Q].
    eapply rt1n_trans; [|exact R]. constructor. cbn [act]. now rewrite E.
  - destruct H.
Qed.
End Doomed.
