(** Reusable proof rules for launches: ownership of locations by threads, and threads that only
    store the intended final value of a location. *)
From Coq Require Import ZArith List Bool Lia.
From Verif Require Import Arith Arrays Prog Conc.
Import ListNotations.
Open Scope Z_scope.

Section Launch.
Context {A : Arith} (D : dims).

Definition Rd (own : loc -> option tid) (t : tid) (l : loc) : Prop := own l = None \/ own l = Some t.
Definition Wr (own : loc -> option tid) (t : tid) (l : loc) : Prop := own l = Some t.

Lemma Wr_Rd own t l : Wr own t l -> Rd own t l. Proof. now right. Qed.

Lemma drf_par ns (body : tid -> prog A unit) m own (Q : tid -> mem A -> Prop) :
  (forall t, inb ns t = true -> safe D (body t) m (Rd own t) (Wr own t) (fun _ m' => Q t m')) ->
  drf D (par ns body) m (Wr own) Q.
Proof.
  intros Hs. split; [rewrite tids_par; apply NoDup_box|]. split.
  - unfold Wr. intros t t' l _ _ E E'. congruence.
  - intros t p Hin. apply in_par in Hin. destruct Hin as [-> Ht].
    eapply safe_mono; [| | |apply Hs; exact Ht]; cbn; auto.
    intros l Hl t' _ Hne. unfold Wr. destruct Hl as [Hl|Hl]; congruence.
Qed.

Lemma hs_par ns (body : tid -> prog A unit) Ls m own (Q : tid -> mem A -> Prop) Post :
  (forall t, inb ns t = true -> safe D (body t) m (Rd own t) (Wr own t) (fun _ m' => Q t m')) ->
  (forall M,
     (forall t, inb ns t = true -> exists mt, Q t mt /\ forall l, own l = Some t -> mget M l = mget mt l) ->
     (forall l, (forall t, inb ns t = true -> own l <> Some t) -> mget M l = mget m l) ->
     hsafe D Ls M Post) ->
  hsafe D (par ns body :: Ls) m Post.
Proof.
  intros Hs Hk. apply hs_cons with (W := Wr own) (Q := Q); [now apply drf_par|].
  intros M [H1 H2]. apply Hk.
  - intros t Ht. destruct (H1 t (body t)) as (mt & _ & HQ & Hl); [apply in_par; auto|]. exists mt. auto.
  - intros l Hl. destruct (H2 l) as [E|(t & Ht & E)]; [exact E|].
    rewrite tids_par in Ht. apply in_box in Ht. destruct (Hl t Ht E).
Qed.

(** ** Threads that only store the intended final values *)
Section Target.
Context (tg : loc -> Z + F A).
Definition hit (m : mem A) (l : loc) : Prop := mget m l = tg l.
Definition keeps (m m' : mem A) : Prop := forall l, hit m l -> hit m' l.

Lemma keeps_refl m : keeps m m. Proof. intros l H; exact H. Qed.
Lemma keeps_trans m m' m'' : keeps m m' -> keeps m' m'' -> keeps m m''. Proof. unfold keeps; auto. Qed.
Lemma keeps_wri m a ix v : tg (LI a ix) = inl v -> keeps m (wri m a ix v).
Proof.
  intros E l H. unfold hit in *. destruct (loc_eq_dec l (LI a ix)) as [->|Hne].
  - now rewrite mget_wri_eq.
  - now rewrite mget_wri_ne.
Qed.
Lemma keeps_wrr m a ix v : tg (LR a ix) = inr v -> keeps m (wrr m a ix v).
Proof.
  intros E l H. unfold hit in *. destruct (loc_eq_dec l (LR a ix)) as [->|Hne].
  - now rewrite mget_wrr_eq.
  - now rewrite mget_wrr_ne.
Qed.

Lemma safe_sti_t a ix v m (R W : loc -> Prop) (Q : unit -> mem A -> Prop) :
  validb D (LI a ix) = true -> W (LI a ix) -> tg (LI a ix) = inl v ->
  (forall m', keeps m m' -> hit m' (LI a ix) -> Q tt m') -> safe D (sti a ix v) m R W Q.
Proof.
  intros Hv Hw Ht HQ. apply safe_sti; auto. apply HQ; [now apply keeps_wri|].
  unfold hit. rewrite mget_wri_eq. auto.
Qed.
Lemma safe_str_t a ix v m (R W : loc -> Prop) (Q : unit -> mem A -> Prop) :
  validb D (LR a ix) = true -> W (LR a ix) -> tg (LR a ix) = inr v ->
  (forall m', keeps m m' -> hit m' (LR a ix) -> Q tt m') -> safe D (str a ix v) m R W Q.
Proof.
  intros Hv Hw Ht HQ. apply safe_str; auto. apply HQ; [now apply keeps_wrr|].
  unfold hit. rewrite mget_wrr_eq. auto.
Qed.

(** A table of statements, each of which sets [lx x]. *)
Lemma safe_forL_t {X} (tbl : list X) (body : X -> prog A unit) (lx : X -> loc) (I : mem A -> Prop) m
  (R W : loc -> Prop) (Q : unit -> mem A -> Prop) :
  (forall m1 m2, I m1 -> keeps m1 m2 -> I m2) ->
  I m ->
  (forall x m1, In x tbl -> I m1 ->
     safe D (body x) m1 R W (fun _ m2 => keeps m1 m2 /\ hit m2 (lx x))) ->
  (forall m', keeps m m' -> (forall x, In x tbl -> hit m' (lx x)) -> Q tt m') ->
  safe D (forL tbl body) m R W Q.
Proof.
  intros HI. revert m Q. induction tbl as [|x tbl IH]; intros m Q H0 Hb HQ; cbn [forL].
  - apply safe_ret. apply HQ; [apply keeps_refl|]. intros x [].
  - apply safe_bind. eapply safe_post; [apply Hb; [now left|exact H0]|]. cbn. intros _ m1 [K1 G1].
    apply IH; [eauto| |].
    + intros y m2 Hy H2. apply Hb; [now right|exact H2].
    + intros m2 K2 G2. apply HQ; [eapply keeps_trans; eauto|].
      intros y [->|Hy]; [now apply K2|auto].
Qed.

(** A counted loop whose iteration [i] sets the locations [G i]. *)
Lemma safe_foru_t n (body : Z -> prog A unit) (G : Z -> loc -> Prop) (I : mem A -> Prop) m
  (R W : loc -> Prop) (Q : unit -> mem A -> Prop) :
  0 <= n ->
  (forall m1 m2, I m1 -> keeps m1 m2 -> I m2) ->
  I m ->
  (forall i m1, 0 <= i < n -> I m1 ->
     safe D (body i) m1 R W (fun _ m2 => keeps m1 m2 /\ forall l, G i l -> hit m2 l)) ->
  (forall m', keeps m m' -> (forall i l, 0 <= i < n -> G i l -> hit m' l) -> Q tt m') ->
  safe D (for_u n body) m R W Q.
Proof.
  intros Hn HI H0 Hb HQ. unfold for_u.
  apply safe_for with (I := fun i _ m' => keeps m m' /\ forall j l, 0 <= j < i -> G j l -> hit m' l).
  - exact Hn.
  - split; [apply keeps_refl|]. intros; lia.
  - intros i _ m1 Hi [K1 G1]. eapply safe_post; [apply Hb; [exact Hi|eauto]|]. cbn. intros _ m2 [K2 G2].
    split; [eapply keeps_trans; eauto|]. intros j l Hj Hl.
    destruct (Z.eq_dec j i) as [->|Hne]; [auto|]. apply K2. eapply G1; [|eauto]; lia.
  - intros [] m' [K G']. apply HQ; auto.
Qed.

Lemma hs_target ns (body : tid -> prog A unit) Ls m own Post :
  (forall t, inb ns t = true ->
     safe D (body t) m (Rd own t) (Wr own t) (fun _ m' => forall l, own l = Some t -> hit m' l)) ->
  (forall M,
     (forall l t, inb ns t = true -> own l = Some t -> hit M l) ->
     (forall l, (forall t, inb ns t = true -> own l <> Some t) -> mget M l = mget m l) ->
     hsafe D Ls M Post) ->
  hsafe D (par ns body :: Ls) m Post.
Proof.
  intros Hs Hk. eapply hs_par with (Q := fun t mt => forall l, own l = Some t -> hit mt l); [exact Hs|].
  intros M H1 H2. apply Hk; [|exact H2]. intros l t Ht Ho. destruct (H1 t Ht) as (mt & HQ & HM).
  unfold hit. rewrite (HM l Ho). now apply HQ.
Qed.
End Target.

(** [deep_copy(view, scalar)]. *)
Lemma hs_copy_r a (v : F A) Ls (m : mem A) Post :
  (forall M, (forall ix, inb (rext D a) ix = true -> mr M a ix = v) ->
     (forall l, (forall ix, inb (rext D a) ix = true -> l <> LR a ix) -> mget M l = mget m l) ->
     hsafe D Ls M Post) ->
  hsafe D (par (rext D a) (fun t => str a t v) :: Ls) m Post.
Proof.
  intros Hk.
  apply hs_target with (tg := fun _ => inr v)
    (own := fun l => match l with LR a' ix => if rarr_eq_dec a a' then Some ix else None | _ => None end).
  - intros t Ht. apply safe_str_t with (tg := fun _ => inr v); [exact Ht| |reflexivity|].
    + unfold Wr. cbn beta iota. destruct (rarr_eq_dec a a) as [_|N]; [reflexivity|destruct (N eq_refl)].
    + intros m' _ Hh l Hl. destruct l as [a' ix|a' ix]; [discriminate|].
      destruct (rarr_eq_dec a a'); [|discriminate]. injection Hl as ->. now subst.
  - intros M H1 H2. apply Hk.
    + intros ix Hix. assert (E : hit (fun _ => inr v) M (LR a ix)).
      { apply (H1 _ ix Hix). destruct (rarr_eq_dec a a) as [_|N]; [reflexivity|destruct (N eq_refl)]. }
      unfold hit in E. cbn in E. congruence.
    + intros l Hl. apply H2. intros t Ht E. destruct l as [a' ix|a' ix]; [discriminate|].
      destruct (rarr_eq_dec a a'); [|discriminate]. injection E as ->. subst. exact (Hl t Ht eq_refl).
Qed.

Lemma hs_copy_i a v Ls (m : mem A) Post :
  (forall M, (forall ix, inb (iext D a) ix = true -> mi M a ix = v) ->
     (forall l, (forall ix, inb (iext D a) ix = true -> l <> LI a ix) -> mget M l = mget m l) ->
     hsafe D Ls M Post) ->
  hsafe D (par (iext D a) (fun t => sti a t v) :: Ls) m Post.
Proof.
  intros Hk.
  apply hs_target with (tg := fun _ => inl v)
    (own := fun l => match l with LI a' ix => if iarr_eq_dec a a' then Some ix else None | _ => None end).
  - intros t Ht. apply safe_sti_t with (tg := fun _ => inl v); [exact Ht| |reflexivity|].
    + unfold Wr. cbn beta iota. destruct (iarr_eq_dec a a) as [_|N]; [reflexivity|destruct (N eq_refl)].
    + intros m' _ Hh l Hl. destruct l as [a' ix|a' ix]; [|discriminate].
      destruct (iarr_eq_dec a a'); [|discriminate]. injection Hl as ->. now subst.
  - intros M H1 H2. apply Hk.
    + intros ix Hix. assert (E : hit (fun _ => inl v) M (LI a ix)).
      { apply (H1 _ ix Hix). destruct (iarr_eq_dec a a) as [_|N]; [reflexivity|destruct (N eq_refl)]. }
      unfold hit in E. cbn in E. congruence.
    + intros l Hl. apply H2. intros t Ht E. destruct l as [a' ix|a' ix]; [|discriminate].
      destruct (iarr_eq_dec a a'); [|discriminate]. injection E as ->. subst. exact (Hl t Ht eq_refl).
Qed.

(** [deep_copy(dst, src)]. *)
Lemma hs_copy_rr dst src Ls (m : mem A) Post :
  dst <> src -> rext D dst = rext D src ->
  (forall M, (forall ix, inb (rext D dst) ix = true -> mr M dst ix = mr m src ix) ->
     (forall l, (forall ix, inb (rext D dst) ix = true -> l <> LR dst ix) -> mget M l = mget m l) ->
     hsafe D Ls M Post) ->
  hsafe D (par (rext D dst) (fun t => bind (rdr src t) (fun x => str dst t x)) :: Ls) m Post.
Proof.
  intros Hne Hex Hk.
  pose (tg := fun l : loc => match l with LR a ix => inr (mr m src ix) | LI a ix => inl 0 end : Z + F A).
  apply hs_target with (tg := tg)
    (own := fun l => match l with LR a' ix => if rarr_eq_dec dst a' then Some ix else None | _ => None end).
  - intros t Ht. apply safe_bind. apply safe_rdr.
    + cbn. rewrite <- Hex. exact Ht.
    + left. cbn beta iota. destruct (rarr_eq_dec dst src); [contradiction|reflexivity].
    + apply safe_str_t with (tg := tg); [exact Ht| |reflexivity|].
      * unfold Wr. cbn beta iota. destruct (rarr_eq_dec dst dst) as [_|N]; [reflexivity|destruct (N eq_refl)].
      * intros m' _ Hh l Hl. destruct l as [a' ix|a' ix]; [discriminate|].
        destruct (rarr_eq_dec dst a'); [|discriminate]. injection Hl as ->. now subst.
  - intros M H1 H2. apply Hk.
    + intros ix Hix. assert (E : hit tg M (LR dst ix)).
      { apply (H1 _ ix Hix). destruct (rarr_eq_dec dst dst) as [_|N]; [reflexivity|destruct (N eq_refl)]. }
      unfold hit in E. cbn in E. congruence.
    + intros l Hl. apply H2. intros t Ht E. destruct l as [a' ix|a' ix]; [discriminate|].
      destruct (rarr_eq_dec dst a'); [|discriminate]. injection E as ->. subst. exact (Hl t Ht eq_refl).
Qed.
End Launch.
