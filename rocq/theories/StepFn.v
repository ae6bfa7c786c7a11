(** The tendency hook, [compute_tendency] and the time steppers as functions on memories. *)
From Coq Require Import ZArith List Bool Lia.
From Verif Require Import Arith Arrays Prog Conc Launch Mesh AuxVars Tend Model Over Formulas KernBase Terms KernAux KernTend TendFn.
Import ListNotations.
Open Scope Z_scope.

Lemma only_aT a : only_a a a = true.
Proof. unfold only_a. destruct (rarr_eq_dec a a); congruence. Qed.

(** One thread per element, in arrays with two and with three indices. *)
Section Pt.
Context {A : Arith} (D : dims).
Lemma hs_pt2 a (m : mem A) n1 n2 (f : Z -> Z -> prog A unit) g :
  rext D a = [n1; n2] ->
  (forall i k T, 0 <= i < n1 -> 0 <= k < n2 ->
     safe D (f i k) (ov a m T) (Rd (own_pt a) [i; k]) (Wr (own_pt a) [i; k])
       (fun _ m' => m' = wrr (ov a m T) a [i; k] (g i k (old a m T [i; k])))) ->
  hsafe D [par2 n1 n2 f] m (fun M => meq M (upd D a m (on2 g))).
Proof.
  intros He H. apply hterm_set. unfold par2. rewrite <- He. apply hterm_pt.
  intros t T Ht. unfold ext in Ht. rewrite He in Ht.
  destruct t as [|i [|k [|z t]]]; try (cbn in Ht; rewrite ?andb_false_r in Ht; discriminate).
  apply inb2 in Ht. apply H; tauto.
Qed.
Lemma hs_pt3 a (m : mem A) n1 n2 n3 (f : Z -> Z -> Z -> prog A unit) g :
  rext D a = [n1; n2; n3] ->
  (forall l i k T, 0 <= l < n1 -> 0 <= i < n2 -> 0 <= k < n3 ->
     safe D (f l i k) (ov a m T) (Rd (own_pt a) [l; i; k]) (Wr (own_pt a) [l; i; k])
       (fun _ m' => m' = wrr (ov a m T) a [l; i; k] (g l i k (old a m T [l; i; k])))) ->
  hsafe D [par3 n1 n2 n3 f] m (fun M => meq M (upd D a m (on3 g))).
Proof.
  intros He H. apply hterm_set. unfold par3. rewrite <- He. apply hterm_pt.
  intros t T Ht. unfold ext in Ht. rewrite He in Ht.
  destruct t as [|l [|i [|k [|z t]]]]; try (cbn in Ht; rewrite ?andb_false_r in Ht; discriminate).
  apply inb3 in Ht. apply H; tauto.
Qed.
Lemma hs_fill a (m : mem A) v :
  hsafe D [deep_copy_r D a v] m (fun M => meq M (upd D a m (fun _ _ => v))).
Proof.
  apply hterm_set. unfold deep_copy_r. apply hterm_pt. intros t T Ht. apply safe_str; [exact Ht| |].
  - unfold Wr. cbn. destruct (rarr_eq_dec a a); [reflexivity|congruence].
  - reflexivity.
Qed.
Lemma hs_copy a b (m : mem A) :
  a <> b -> rext D a = rext D b ->
  hsafe D [deep_copy_rr D a b] m (fun M => meq M (upd D a m (fun ix _ => mr m b ix))).
Proof.
  intros Hne He. apply hterm_set. unfold deep_copy_rr. apply hterm_pt. intros t T Ht.
  apply safe_bind. apply safe_rdr.
  - cbn. rewrite <- He. exact Ht.
  - left. cbn. destruct (rarr_eq_dec a b); [congruence|reflexivity].
  - rewrite ov_other by congruence. apply safe_str; [exact Ht| |reflexivity].
    unfold Wr. cbn. destruct (rarr_eq_dec a a); [reflexivity|congruence].
Qed.
End Pt.

Section StepFn.
Context {A : Arith} (S : setup A).
Local Notation cf := (cfg_of S).
Local Notation P := (par_of S).
Local Notation D := (sdims S).
Context (Hd : wfd cf D) (Hntr : 0 <= ntracers P).
Implicit Types (m : mem A) (t s : sid) (md : add_mode).

Lemma d_ntr : d_ntracers D = ntracers P.
Proof. reflexivity. Qed.

Lemma hsafe_when (b : bool) (Ls : list (launch A)) m f :
  hsafe D Ls m (fun M => meq M (f m)) -> hsafe D (whenL b Ls) m (fun M => meq M (if b then f m else m)).
Proof. intros H. destruct b; [exact H|constructor; apply meq_refl]. Qed.

(** ** The hook *)
Definition hook_h fc time m (c k : Z) (x : F A) : F A :=
  (x + force_h fc (mr m XCell [c]) (mr m YCell [c]) time)%fp.
Definition hook_v fc time m (e k : Z) (x : F A) : F A :=
  (x + (fcos (mr m AngleEdge [e]) * force_vx fc (mr m XEdge [e]) (mr m YEdge [e]) time +
        fsin (mr m AngleEdge [e]) * force_vy fc (mr m XEdge [e]) (mr m YEdge [e]) time))%fp.
Definition hook_fn t time m : mem A :=
  match hook S with
  | None => m
  | Some fc =>
      let m := upd D (HCell t) m (on2 (hook_h fc time m)) in
      upd D (VnEdge t) m (on2 (hook_v fc time m))
  end.

Ltac pvld := cbn [validb rext iext]; rewrite ?d_ntr; first [apply inb1 | apply inb2 | apply inb3]; repeat split; (assumption || lia).
Ltac prok :=
  first [ left; reflexivity
        | right; cbn [own_pt]; destruct (rarr_eq_dec _ _); [reflexivity|congruence] ].
Ltac pwok := unfold Wr; cbn [own_pt]; destruct (rarr_eq_dec _ _); [reflexivity|congruence].
Ltac px :=
  repeat (cbv beta zeta;
    lazymatch goal with
    | |- safe _ (bind _ _) _ _ _ _ => apply safe_bind
    | |- safe _ (rdr _ _) _ _ _ _ => apply safe_rdr; [pvld | prok | ]
    | |- safe _ (str _ _ _) _ _ _ _ => apply safe_str; [pvld | pwok | ]
    end); cbv beta zeta; rewrite ?ov_same; try reflexivity.

Ltac seq2 := match goal with |- hsafe _ _ _ (fun M => meq M (upd _ _ ?m1 _)) => apply (hsafe_seq D [_] [_] _ m1) end.
Ltac seqif :=
  match goal with |- hsafe _ _ _ (fun M => meq M (if ?b then upd _ ?a ?m2 ?g else _)) =>
    apply (hsafe_seq D [_; _] _ _ m2); [seq2 | apply hsafe_when with (f := fun n => upd D a n g)] end.

Lemma hs_hook t time m :
  hsafe D (additional_tendency S t time) m (fun M => meq M (hook_fn t time m)).
Proof.
  unfold additional_tendency, hook_fn. destruct (hook S) as [fc|]; [|constructor; apply meq_refl].
  cbv zeta. seq2.
  - apply hs_pt2 with (g := hook_h fc time m); [reflexivity|]. intros i k T Hi Hk. px.
  - apply hs_pt2; [reflexivity|]. intros i k T Hi Hk. px.
Qed.

(** ** [compute_tendency] *)
Definition tendency_fn t s time md m : mem A :=
  let m := aux_fn cf D s m in
  let m := if negb (disable_h P) then h_fn S t s md m else m in
  let m := if negb (disable_vn P) then vn_fn S t s md m else m in
  let m := if 0 <? ntracers P then tr_fn S t s md m else m in
  hook_fn t time m.

Lemma wfm_if (b : bool) m m' : wfm D m -> wfm D m' -> wfm D (if b then m' else m : mem A).
Proof. destruct b; auto. Qed.
Lemma wfm_aux s m : wfm D m -> wfm D (aux_fn cf D s m).
Proof. intros H. now repeat apply wfm_over. Qed.
Lemma wfm_h t s md m : wfm D m -> wfm D (h_fn S t s md m).
Proof. apply wfm_over. Qed.
Lemma wfm_vn t s md m : wfm D m -> wfm D (vn_fn S t s md m).
Proof. intros H. apply wfm_over. now apply wfm_hyp. Qed.
Lemma wfm_tr t s md m : wfm D m -> wfm D (tr_fn S t s md m).
Proof. intros H. apply wfm_over. now apply wfm_trdel2. Qed.
Lemma wfm_hook t time m : wfm D m -> wfm D (hook_fn t time m).
Proof. intros H. unfold hook_fn. destruct (hook S); [|exact H]. now repeat apply wfm_over. Qed.
Lemma wfm_tendency t s time md m : wfm D m -> wfm D (tendency_fn t s time md m).
Proof.
  intros H. unfold tendency_fn. apply wfm_hook.
  repeat first [assumption | apply wfm_if | apply wfm_tr | apply wfm_vn | apply wfm_h | apply wfm_aux].
Qed.

Ltac wf := repeat first [assumption | apply wfm_if | apply wfm_tr | apply wfm_vn | apply wfm_h | apply wfm_aux].
Theorem hs_tendency t s time md m :
  s <> t -> wfm D m ->
  hsafe D (compute_tendency S t s time md) m (fun M => meq M (tendency_fn t s time md m)).
Proof.
  intros Hts Hm. unfold compute_tendency, tendency_fn. cbv zeta.
  eapply hsafe_seq; [now apply hs_aux|].
  eapply hsafe_seq; [apply hsafe_when; apply hs_h; [exact Hd|wf]|].
  eapply hsafe_seq; [apply hsafe_when; apply hs_vn; [exact Hd|exact Hts|wf]|].
  eapply hsafe_seq; [apply hsafe_when; apply hs_tr; [exact Hd|wf]|].
  apply hs_hook.
Qed.

(** ** Stepper loops *)
Definition axpy (dst base : sid) (dt b : F A) m : mem A :=
  let m1 := upd D (HCell dst) m (on2 (fun c k x => if sid_eq_dec dst base then x + dt * b * mr m (HCell Tend) [c; k]
                                     else mr m (HCell base) [c; k] + dt * b * mr m (HCell Tend) [c; k])%fp) in
  let m2 := upd D (VnEdge dst) m1 (on2 (fun e k x => if sid_eq_dec dst base then x + dt * b * mr m (VnEdge Tend) [e; k]
                                     else mr m (VnEdge base) [e; k] + dt * b * mr m (VnEdge Tend) [e; k])%fp) in
  if 0 <? ntracers P then
    upd D (TrCell dst) m2 (on3 (fun l c k x => if sid_eq_dec dst base then x + dt * b * mr m (TrCell Tend) [l; c; k]
                                     else mr m (TrCell base) [l; c; k] + dt * b * mr m (TrCell Tend) [l; c; k])%fp)
  else m2.

Lemma hs_accumulate dt b m : hsafe D (accumulate S dt b) m (fun M => meq M (axpy St St dt b m)).
Proof.
  unfold accumulate, axpy. cbv zeta. seqif.
  1-2: apply hs_pt2; [reflexivity|]; intros i k T Hi Hk; px.
  apply hs_pt3; [reflexivity|]; intros l i k T Hl Hi Hk; px.
Qed.
Lemma hs_provis dt b m : hsafe D (provis S dt b) m (fun M => meq M (axpy Provis Old dt b m)).
Proof.
  unfold provis, axpy. cbv zeta. seqif.
  1-2: apply hs_pt2; [reflexivity|]; intros i k T Hi Hk; px.
  apply hs_pt3; [reflexivity|]; intros l i k T Hl Hi Hk; px.
Qed.

Definition scale_fn (a : F A) m : mem A :=
  let m1 := upd D (HCell Tend) m (on2 (fun c k x => x * a)%fp) in
  let m2 := upd D (VnEdge Tend) m1 (on2 (fun e k x => x * a)%fp) in
  if 0 <? ntracers P then upd D (TrCell Tend) m2 (on3 (fun l c k x => x * a)%fp) else m2.
Lemma hs_scale a m : hsafe D (scale_tend S a) m (fun M => meq M (scale_fn a m)).
Proof.
  unfold scale_tend, scale_fn. cbv zeta. seqif.
  1-2: apply hs_pt2; [reflexivity|]; intros i k T Hi Hk; px.
  apply hs_pt3; [reflexivity|]; intros l i k T Hl Hi Hk; px.
Qed.

Lemma wfm_axpy d b dt x m : wfm D m -> wfm D (axpy d b dt x m).
Proof. intros H. unfold axpy. cbv zeta. destruct (0 <? ntracers P); now repeat apply wfm_over. Qed.
Lemma wfm_scale a m : wfm D m -> wfm D (scale_fn a m).
Proof. intros H. unfold scale_fn. cbv zeta. destruct (0 <? ntracers P); now repeat apply wfm_over. Qed.

(** A loop of launches. *)
Lemma hs_flat (f : Z -> list (launch A)) (g : Z -> mem A -> mem A) :
  (forall i m, wfm D m -> hsafe D (f i) m (fun M => meq M (g i m))) ->
  (forall i m, wfm D m -> wfm D (g i m)) ->
  forall l m, wfm D m -> hsafe D (flat_map f l) m (fun M => meq M (fold_left (fun m i => g i m) l m)).
Proof.
  intros H Hw. induction l as [|i l IH]; intros m Hm; [constructor; apply meq_refl|]. cbn.
  eapply hsafe_seq; [now apply H|]. apply IH. auto.
Qed.
Lemma wfm_fold (g : Z -> mem A -> mem A) : (forall i m, wfm D m -> wfm D (g i m)) ->
  forall l m, wfm D m -> wfm D (fold_left (fun m i => g i m) l m).
Proof. intros Hw. induction l; cbn; auto. Qed.

(** ** RK4 *)
Definition save_fn m : mem A :=
  let m1 := upd D (HCell Old) m (fun ix _ => mr m (HCell St) ix) in
  let m2 := upd D (VnEdge Old) m1 (fun ix _ => mr m1 (VnEdge St) ix) in
  upd D (TrCell Old) m2 (fun ix _ => mr m2 (TrCell St) ix).
Definition rk4_stage_fn (t dt : F A) (stage : Z) m : mem A :=
  let m1 := axpy St St dt (rk4_b stage) m in
  if stage <? 4 - 1 then
    tendency_fn Tend Provis (t + rk4_c stage * dt)%fp Replace (axpy Provis Old dt (rk4_a stage) m1)
  else m1.
Definition rk4_fn (t dt : F A) m : mem A :=
  fold_left (fun m i => rk4_stage_fn t dt i m) (zseq 4) (tendency_fn Tend St t Replace (save_fn m)).

Lemma wfm_rk4_stage (t dt : F A) i m : wfm D m -> wfm D (rk4_stage_fn t dt i m).
Proof. intros H. unfold rk4_stage_fn. cbv zeta. apply wfm_if; [|apply wfm_tendency]; auto using wfm_axpy. Qed.
Lemma wfm_save m : wfm D m -> wfm D (save_fn m).
Proof. intros H. now repeat apply wfm_over. Qed.
Lemma wfm_rk4 (t dt : F A) m : wfm D m -> wfm D (rk4_fn t dt m).
Proof. intros H. unfold rk4_fn. apply wfm_fold; auto using wfm_rk4_stage, wfm_tendency, wfm_save. Qed.

Theorem hs_rk4 (t dt : F A) m : wfm D m -> hsafe D (rk4_step S t dt) m (fun M => meq M (rk4_fn t dt m)).
Proof.
  intros Hm. unfold rk4_step, rk4_fn. apply (hsafe_seq D [_; _; _] _ _ (save_fn m)).
  { eapply (hsafe_seq D [_] [_; _]); [apply hs_copy; [discriminate|reflexivity]|].
    unfold save_fn. cbv zeta. seq2; apply hs_copy; discriminate || reflexivity. }
  eapply hsafe_seq; [apply hs_tendency; [discriminate|auto using wfm_save]|].
  apply hs_flat with (g := rk4_stage_fn t dt); auto using wfm_rk4_stage, wfm_tendency, wfm_save.
  intros i n Hn. unfold rk4_stage, rk4_stage_fn. cbv zeta.
  eapply hsafe_seq; [apply hs_accumulate|].
  apply hsafe_when with (f := fun m1 => tendency_fn Tend Provis _ Replace (axpy Provis Old _ _ m1)).
  eapply hsafe_seq; [apply hs_provis|]. apply hs_tendency; [discriminate|]. auto using wfm_axpy.
Qed.

(** ** Low storage Runge-Kutta *)
Definition lsrk_init_fn m : mem A :=
  let m1 := upd D (HCell Tend) m (fun _ _ => (#0)%fp) in
  let m2 := upd D (VnEdge Tend) m1 (fun _ _ => (#0)%fp) in
  if 0 <? ntracers P then upd D (TrCell Tend) m2 (fun _ _ => (#0)%fp) else m2.
Lemma hs_lsrk_ctor m : hsafe D (lsrk_ctor S) m (fun M => meq M (lsrk_init_fn m)).
Proof.
  unfold lsrk_ctor, lsrk_init_fn. cbv zeta. seqif; apply hs_fill.
Qed.
Definition lsrk_stage_fn (n : Z) (t dt : F A) (stage : Z) m : mem A :=
  axpy St St dt (lsrk_b n stage)
    (tendency_fn Tend St (t + lsrk_c n stage * dt)%fp Increment (scale_fn (lsrk_a n stage) m)).
Definition lsrk_fn (n : Z) (t dt : F A) m : mem A := fold_left (fun m i => lsrk_stage_fn n t dt i m) (zseq n) m.
Lemma wfm_lsrk_stage n (t dt : F A) i m : wfm D m -> wfm D (lsrk_stage_fn n t dt i m).
Proof. intros H. unfold lsrk_stage_fn. auto using wfm_axpy, wfm_tendency, wfm_scale. Qed.
Lemma wfm_lsrk n (t dt : F A) m : wfm D m -> wfm D (lsrk_fn n t dt m).
Proof. intros H. unfold lsrk_fn. apply wfm_fold; auto using wfm_lsrk_stage. Qed.

Theorem hs_lsrk n (t dt : F A) m : wfm D m -> hsafe D (lsrk_step S n t dt) m (fun M => meq M (lsrk_fn n t dt m)).
Proof.
  intros Hm. unfold lsrk_step, lsrk_fn. apply hs_flat with (g := lsrk_stage_fn n t dt); auto using wfm_lsrk_stage.
  intros i m' Hm'. unfold lsrk_stage, lsrk_stage_fn.
  eapply hsafe_seq; [apply hs_scale|]. eapply hsafe_seq; [apply hs_tendency; [discriminate|auto using wfm_scale]|].
  apply hs_accumulate.
Qed.
End StepFn.
