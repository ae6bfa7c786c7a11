(** Functional description of what kernels and launches do to memory, and the proof rules that
    connect programs to such descriptions. *)
From Coq Require Import ZArith List Bool Lia.
From Verif Require Import Arith Arrays Prog Conc Launch Mesh AuxVars.
Import ListNotations.
Open Scope Z_scope.

(** [over m T]: [m] with the real locations in the domain of [T] overwritten. *)
Definition over {A} (m : mem A) (T : rarr -> list Z -> option (F A)) : mem A :=
  Mem (mi m) (fun a ix => match T a ix with Some v => v | None => mr m a ix end).

(** [strip pre ix = Some k] iff [ix = pre ++ [k]]. *)
Fixpoint strip (pre ix : list Z) : option Z :=
  match pre, ix with
  | [], [k] => Some k
  | p :: pre', i :: ix' => if p =? i then strip pre' ix' else None
  | _, _ => None
  end.

Lemma strip_spec pre ix k : strip pre ix = Some k <-> ix = pre ++ [k].
Proof.
  revert ix; induction pre as [|p pre IH]; intros ix; cbn [strip app].
  - destruct ix as [|i [|j ix]]; split; intros H; try discriminate; congruence.
  - destruct ix as [|i ix]; [split; intros; discriminate|].
    destruct (Z.eqb_spec p i) as [->|Hne].
    + rewrite IH. split; intros; congruence.
    + split; intros; [discriminate|congruence].
Qed.
Lemma strip_app pre k : strip pre (pre ++ [k]) = Some k.
Proof. now apply strip_spec. Qed.

(** Locations [pre ++ [k]], [lo <= k < hi], of the arrays in the domain of [Sf]. *)
Definition chunkT {A} (Sf : rarr -> option (Z -> F A)) (pre : list Z) (lo hi : Z)
  (a : rarr) (ix : list Z) : option (F A) :=
  match Sf a with
  | None => None
  | Some f => match strip pre ix with
              | Some k => if (lo <=? k) && (k <? hi) then Some (f k) else None
              | None => None
              end
  end.

(** All locations of the arrays in the domain of [Sf]. *)
Definition launchT {A} (D : dims) (Sf : rarr -> option (list Z -> F A)) (a : rarr) (ix : list Z) : option (F A) :=
  match Sf a with
  | None => None
  | Some f => if inb (rext D a) ix then Some (f ix) else None
  end.

Lemma over_none {A} (m : mem A) T a ix : T a ix = None -> mr (over m T) a ix = mr m a ix.
Proof. intros H. cbn. now rewrite H. Qed.
Lemma over_some {A} (m : mem A) T a ix v : T a ix = Some v -> mr (over m T) a ix = v.
Proof. intros H. cbn. now rewrite H. Qed.

Lemma chunkT_in {A} (Sf : rarr -> option (Z -> F A)) pre lo hi a f k :
  Sf a = Some f -> lo <= k < hi -> chunkT Sf pre lo hi a (pre ++ [k]) = Some (f k).
Proof.
  intros E H. unfold chunkT. rewrite E, strip_app.
  replace (lo <=? k) with true by (symmetry; apply Z.leb_le; lia).
  now replace (k <? hi) with true by (symmetry; apply Z.ltb_lt; lia).
Qed.
Lemma chunkT_out {A} (Sf : rarr -> option (Z -> F A)) pre lo hi a k :
  ~ (lo <= k < hi) -> chunkT Sf pre lo hi a (pre ++ [k]) = None.
Proof.
  intros H. unfold chunkT. destruct (Sf a); [|reflexivity]. rewrite strip_app.
  destruct (Z.leb_spec lo k); [|reflexivity]. destruct (Z.ltb_spec k hi); [lia|reflexivity].
Qed.
Lemma chunkT_none {A} (Sf : rarr -> option (Z -> F A)) pre lo hi a ix :
  Sf a = None -> chunkT Sf pre lo hi a ix = None.
Proof. intros E. unfold chunkT. now rewrite E. Qed.
Lemma chunkT_ix {A} (Sf : rarr -> option (Z -> F A)) pre lo hi a ix v :
  chunkT Sf pre lo hi a ix = Some v -> exists k f, Sf a = Some f /\ ix = pre ++ [k] /\ lo <= k < hi /\ v = f k.
Proof.
  unfold chunkT. destruct (Sf a) as [f|] eqn:E; [|discriminate]. destruct (strip pre ix) as [k|] eqn:E'; [|discriminate].
  apply strip_spec in E'. destruct (Z.leb_spec lo k); [|discriminate]. destruct (Z.ltb_spec k hi); [|discriminate].
  cbn. intros H1. exists k, f. repeat split; auto. congruence.
Qed.

Lemma meq_over {A} (m m' : mem A) T : meq m m' -> meq (over m T) (over m' T).
Proof. intros [H H']; split; intros a ix; cbn; [apply H|]. destruct (T a ix); auto. Qed.

Lemma meq_over_ext {A} (m : mem A) T T' :
  (forall a ix, T a ix = T' a ix) -> meq (over m T) (over m T').
Proof. intros H; split; intros a ix; cbn; [reflexivity|]. now rewrite H. Qed.

(** Several stores to the same index of different arrays. *)
Definition wrrs {A} (m : mem A) (ix : list Z) (l : list (rarr * F A)) : mem A :=
  fold_left (fun m av => wrr m (fst av) ix (snd av)) l m.

Lemma wrrs_other {A} l (m : mem A) ix a ix' :
  (ix' <> ix \/ ~ In a (map fst l)) -> mr (wrrs m ix l) a ix' = mr m a ix'.
Proof.
  revert m; induction l as [|[b v] l IH]; intros m H; cbn; [reflexivity|].
  change (mr (wrrs (wrr m b ix v) ix l) a ix' = mr m a ix'). rewrite IH.
  - destruct H as [H|H]; [apply wrr_ix; congruence|]. apply wrr_arr. intros ->. apply H. now left.
  - destruct H as [H|H]; [now left|]. right. intros K. apply H. now right.
Qed.
Lemma wrrs_in {A} l (m : mem A) ix a v : NoDup (map fst l) -> In (a, v) l -> mr (wrrs m ix l) a ix = v.
Proof.
  revert m; induction l as [|[b w] l IH]; intros m HN Hin; [destruct Hin|].
  inversion HN as [|? ? Hni HN']; subst. cbn in Hin. destruct Hin as [E|Hin].
  - injection E as -> ->. change (mr (wrrs (wrr m a ix v) ix l) a ix = v).
    rewrite wrrs_other by (right; exact Hni). apply wrr_same.
  - change (mr (wrrs (wrr m b ix w) ix l) a ix = v). now apply IH.
Qed.
Lemma wrrs_mi {A} l (m : mem A) ix a ix' : mi (wrrs m ix l) a ix' = mi m a ix'.
Proof. revert m; induction l as [|[b v] l IH]; intros m; cbn; [reflexivity|]. unfold wrrs in IH. now rewrite IH. Qed.

Lemma wrrs_chunk {A} (m : mem A) Sf pre lo k l :
  lo <= k -> NoDup (map fst l) ->
  (forall a v, In (a, v) l -> exists f, Sf a = Some f /\ f k = v) ->
  (forall a f, Sf a = Some f -> In a (map fst l)) ->
  meq (wrrs (over m (chunkT Sf pre lo k)) (pre ++ [k]) l) (over m (chunkT Sf pre lo (k + 1))).
Proof.
  intros Hk HN H1 H2. split; intros a ix; [rewrite wrrs_mi; reflexivity|].
  destruct (Sf a) as [f|] eqn:E.
  - pose proof (H2 _ _ E) as Hin. apply in_map_iff in Hin. destruct Hin as ([a' v] & E' & Hin). cbn in E'. subst a'.
    destruct (H1 _ _ Hin) as (f' & E' & Hv). rewrite E in E'. injection E' as <-.
    destruct (ix_eq_dec ix (pre ++ [k])) as [->|Hne].
    + rewrite (wrrs_in _ _ _ _ v HN Hin). symmetry. apply over_some.
      rewrite (chunkT_in _ _ _ _ _ f) by (auto || lia). now rewrite Hv.
    + rewrite wrrs_other by (now left). cbn. unfold chunkT. rewrite E.
      destruct (strip pre ix) as [k'|] eqn:Es; [|reflexivity]. apply strip_spec in Es. subst ix.
      assert (k' <> k) by congruence.
      destruct (Z.leb_spec lo k'); [|reflexivity].
      destruct (Z.ltb_spec k' k), (Z.ltb_spec k' (k + 1)); cbn; try reflexivity; lia.
  - rewrite wrrs_other.
    + rewrite !over_none; [reflexivity| |]; now apply chunkT_none.
    + right. intros Hin. apply in_map_iff in Hin. destruct Hin as ([a' v] & E' & Hin). cbn in E'. subst a'.
      destruct (H1 _ _ Hin) as (f & K & _). congruence.
Qed.

Section Rules.
Context {A : Arith} (D : dims).

Lemma safe_seq (p q : prog A unit) m n n' (R W : loc -> Prop) :
  safe D p m R W (fun _ m' => meq m' n) -> safe D q n R W (fun _ m' => meq m' n') ->
  safe D (bind p (fun _ => q)) m R W (fun _ m' => meq m' n').
Proof.
  intros Hp Hq. apply safe_bind. eapply safe_post; [exact Hp|]. cbn. intros _ m' Hm.
  eapply safe_meq; [apply meq_sym; exact Hm| |exact Hq]. cbn. intros _ a b Hab Ha.
  eapply meq_trans; [apply meq_sym; exact Hab|exact Ha].
Qed.

(** A loop of stores to consecutive layers. *)
Lemma safe_wloop n (body : Z -> prog A unit) (m : mem A) Sf pre lo (R W : loc -> Prop) :
  0 <= n ->
  (forall i, 0 <= i < n ->
     safe D (body i) (over m (chunkT Sf pre lo (lo + i))) R W
       (fun _ m' => meq m' (over m (chunkT Sf pre lo (lo + i + 1))))) ->
  safe D (for_u n body) m R W (fun _ m' => meq m' (over m (chunkT Sf pre lo (lo + n)))).
Proof.
  intros Hn Hb. unfold for_u.
  apply safe_for with (I := fun i _ m' => meq m' (over m (chunkT Sf pre lo (lo + i)))); [exact Hn| | |].
  - apply meq_sym. split; intros a ix; cbn; [reflexivity|].
    destruct (chunkT Sf pre lo (lo + 0) a ix) eqn:E; [|reflexivity].
    apply chunkT_ix in E. destruct E as (k & g & _ & _ & Hk & _). lia.
  - intros j _ m' Hj Hm. eapply safe_meq; [apply meq_sym; exact Hm| |apply Hb; exact Hj].
    cbn. intros _ a b Hab Ha. replace (lo + (j + 1)) with (lo + j + 1) by lia.
    eapply meq_trans; [apply meq_sym; exact Hab|exact Ha].
  - intros _ m' Hm. exact Hm.
Qed.

(** A read-only loop over the lanes of a local array. *)
Lemma safe_lanes n (acc : vec A) (body : Z -> vec A -> prog A (vec A)) m (R W : loc -> Prop)
  (Q : vec A -> mem A -> Prop) (f : Z -> F A -> F A) :
  0 <= n ->
  (forall i a, 0 <= i < n ->
     safe D (body i a) m R W (fun a' m' => a' = lset a i (f i (a i)) /\ m' = m)) ->
  (forall a, (forall i, 0 <= i < n -> a i = f i (acc i)) -> Q a m) ->
  safe D (for_ n acc body) m R W Q.
Proof.
  intros Hn Hb HQ.
  apply safe_for with (I := fun i a m' => m' = m /\ forall k, (0 <= k < i -> a k = f k (acc k)) /\ (i <= k -> a k = acc k));
    [exact Hn| | |].
  - split; [reflexivity|]. intros k; split; [lia|reflexivity].
  - intros j a m' Hj [-> Ha]. eapply safe_post; [apply Hb; exact Hj|]. cbn. intros a' m' [-> ->].
    split; [reflexivity|]. intros k. unfold lset. destruct (Z.eqb_spec k j) as [->|Hne].
    + split; [|lia]. intros _. now rewrite (proj2 (Ha j)) by lia.
    + split; intros; apply Ha; lia.
  - intros a m' [-> Ha]. apply HQ. intros i Hi. apply Ha. exact Hi.
Qed.

Lemma safe_lanes2 n (acc : vec A * vec A) (body : Z -> vec A * vec A -> prog A (vec A * vec A)) m (R W : loc -> Prop)
  (Q : vec A * vec A -> mem A -> Prop) (f g : Z -> F A -> F A) :
  0 <= n ->
  (forall i a, 0 <= i < n ->
     safe D (body i a) m R W
       (fun a' m' => a' = (lset (fst a) i (f i (fst a i)), lset (snd a) i (g i (snd a i))) /\ m' = m)) ->
  (forall a, (forall i, 0 <= i < n -> fst a i = f i (fst acc i)) ->
             (forall i, 0 <= i < n -> snd a i = g i (snd acc i)) -> Q a m) ->
  safe D (for_ n acc body) m R W Q.
Proof.
  intros Hn Hb HQ.
  apply safe_for with (I := fun i a m' => m' = m /\
    (forall k, (0 <= k < i -> fst a k = f k (fst acc k)) /\ (i <= k -> fst a k = fst acc k)) /\
    (forall k, (0 <= k < i -> snd a k = g k (snd acc k)) /\ (i <= k -> snd a k = snd acc k)));
    [exact Hn| | |].
  - split; [reflexivity|]. split; intros k; split; try lia; reflexivity.
  - intros j a m' Hj (-> & Ha & Ha'). eapply safe_post; [apply Hb; exact Hj|]. cbn. intros a' m' [-> ->].
    cbn [fst snd]. split; [reflexivity|]. split; intros k; unfold lset; destruct (Z.eqb_spec k j) as [->|Hne].
    + split; [|lia]. intros _. f_equal. apply Ha; lia.
    + split; intros; apply Ha; lia.
    + split; [|lia]. intros _. f_equal. apply Ha'; lia.
    + split; intros; apply Ha'; lia.
  - intros a m' (-> & Ha & Ha'). apply HQ; intros i Hi; [apply Ha|apply Ha']; exact Hi.
Qed.

(** Accumulation loops: in every lane the loop computes [iterZ]. *)
Lemma safe_acc (n VL : Z) (body : Z -> vec A -> prog A (vec A)) m (R W : loc -> Prop)
  (Q : vec A -> mem A -> Prop) (step : Z -> Z -> F A -> F A) :
  0 <= n ->
  (forall j a, 0 <= j < n ->
     safe D (body j a) m R W (fun a' m' => m' = m /\ forall i, 0 <= i < VL -> a' i = step i j (a i))) ->
  (forall a, (forall i, 0 <= i < VL -> a i = iterZ n (step i) (fofZ 0)) -> Q a m) ->
  safe D (for_ n vzero body) m R W Q.
Proof.
  intros Hn Hb HQ.
  apply safe_for with (I := fun j a m' => m' = m /\ forall i, 0 <= i < VL -> a i = iterZ j (step i) (fofZ 0));
    [exact Hn| | |].
  - split; reflexivity.
  - intros j a m' Hj [-> Ha]. eapply safe_post; [apply Hb; exact Hj|]. cbn. intros a' m' [-> Ha'].
    split; [reflexivity|]. intros i Hi. rewrite Ha', Ha, iterZ_succ by lia. reflexivity.
  - intros a m' [-> Ha]. auto.
Qed.
Lemma safe_acc2 (n VL : Z) (body : Z -> vec A * vec A -> prog A (vec A * vec A)) m (R W : loc -> Prop)
  (Q : vec A * vec A -> mem A -> Prop) (step step' : Z -> Z -> F A -> F A) :
  0 <= n ->
  (forall j a, 0 <= j < n ->
     safe D (body j a) m R W (fun a' m' => m' = m /\
        (forall i, 0 <= i < VL -> fst a' i = step i j (fst a i)) /\
        (forall i, 0 <= i < VL -> snd a' i = step' i j (snd a i)))) ->
  (forall a, (forall i, 0 <= i < VL -> fst a i = iterZ n (step i) (fofZ 0)) ->
             (forall i, 0 <= i < VL -> snd a i = iterZ n (step' i) (fofZ 0)) -> Q a m) ->
  safe D (for_ n (vzero, vzero) body) m R W Q.
Proof.
  intros Hn Hb HQ.
  apply safe_for with (I := fun j a m' => m' = m /\
     (forall i, 0 <= i < VL -> fst a i = iterZ j (step i) (fofZ 0)) /\
     (forall i, 0 <= i < VL -> snd a i = iterZ j (step' i) (fofZ 0)));
    [exact Hn| | |].
  - repeat split; reflexivity.
  - intros j a m' Hj (-> & Ha & Hb'). eapply safe_post; [apply Hb; exact Hj|]. cbn. intros a' m' (-> & Ha' & Hb'').
    split; [reflexivity|]. split; intros i Hi.
    + rewrite Ha', Ha, iterZ_succ by lia. reflexivity.
    + rewrite Hb'', Hb', iterZ_succ by lia. reflexivity.
  - intros a m' (-> & Ha & Ha'). auto.
Qed.

(** ** Launches *)
Lemma hsafe_meq Ls (m m' : mem A) (P P' : mem A -> Prop) :
  meq m m' -> (forall n n', meq n n' -> P n -> P' n') -> hsafe D Ls m P -> hsafe D Ls m' P'.
Proof.
  intros Hm HP H. revert m' P' Hm HP. induction H as [m P H0|L Ls m W Q P Hd Hk IH]; intros m' P' Hm HP.
  - constructor. eauto.
  - econstructor; [exact (drf_meq _ _ _ _ _ _ Hd Hm)|]. intros M [HM HM'].
    assert (F : final_char D L m W Q M).
    { split.
      - intros t p Hin. destruct (HM t p Hin) as (mt & Er & (n' & _ & _) & HW).
        pose proof (proj2 (proj2 Hd) t p Hin) as Hs. apply safe_run in Hs. destruct Hs as ([] & n & En & Hn).
        pose proof (run_meq D p _ _ Hm) as Hr. rewrite En, Er in Hr. destruct Hr as [_ Hr].
        exists n. repeat split; auto. intros l Hl. rewrite (HW l Hl). symmetry.
        rewrite meq_mget in Hr. apply Hr.
      - intros l. destruct (HM' l) as [E|E]; [|auto]. left. rewrite E. symmetry.
        rewrite meq_mget in Hm. apply Hm. }
    apply (IH M F M P'); [apply meq_refl|exact HP].
Qed.

(** Composition of host programs described by functions. *)
Lemma hsafe_seq Ls1 Ls2 (m n n' : mem A) :
  hsafe D Ls1 m (fun M => meq M n) -> hsafe D Ls2 n (fun M => meq M n') ->
  hsafe D (Ls1 ++ Ls2) m (fun M => meq M n').
Proof.
  intros H1 H2. eapply hsafe_app; [exact H1|]. cbn. intros m' Hm.
  eapply hsafe_meq; [apply meq_sym; exact Hm| |exact H2]. cbn. intros a b Hab Ha.
  eapply meq_trans; [apply meq_sym; exact Hab|exact Ha].
Qed.
Lemma hsafe_to Ls (m n n' : mem A) :
  hsafe D Ls m (fun M => meq M n) -> meq n n' -> hsafe D Ls m (fun M => meq M n').
Proof. intros H E. eapply hsafe_post; [exact H|]. cbn. intros a Ha. eapply meq_trans; eauto. Qed.

Lemma hs_over ns (body : tid -> prog A unit) (m : mem A) own T :
  (forall a ix, own (LI a ix) = None) ->
  (forall t, inb ns t = true ->
     safe D (body t) m (Rd own t) (Wr own t)
       (fun _ m' => forall a ix, own (LR a ix) = Some t -> mr m' a ix = mr (over m T) a ix)) ->
  (forall a ix, (forall t, inb ns t = true -> own (LR a ix) <> Some t) -> T a ix = None) ->
  hsafe D [par ns body] m (fun M => meq M (over m T)).
Proof.
  intros Hi Hs Hn.
  apply hs_par with (own := own)
    (Q := fun t m' => forall a ix, own (LR a ix) = Some t -> mr m' a ix = mr (over m T) a ix); [exact Hs|].
  intros M H1 H2. constructor. split; intros a ix.
  - assert (E : mget M (LI a ix) = mget m (LI a ix)).
    { apply H2. intros t _. rewrite Hi. discriminate. }
    cbn in E. injection E as E. exact E.
  - destruct (own (LR a ix)) as [t|] eqn:E.
    + destruct (inb ns t) eqn:Ht.
      * destruct (H1 t Ht) as (mt & HQ & HM). rewrite <- (HQ a ix E).
        specialize (HM (LR a ix) E). cbn in HM. congruence.
      * assert (K : mget M (LR a ix) = mget m (LR a ix)).
        { apply H2. intros t' Ht' E'. congruence. }
        cbn [mget] in K. rewrite over_none; [congruence|]. apply Hn. intros t' Ht' E'. congruence.
    + assert (K : mget M (LR a ix) = mget m (LR a ix)).
      { apply H2. intros t' Ht' E'. congruence. }
      cbn [mget] in K. rewrite over_none; [congruence|]. apply Hn. intros t' Ht' E'. congruence.
Qed.
End Rules.
