(** Kernels and launches that update a single array in place: composition of such updates, inside
    one kernel or in consecutive launches. *)
From Coq Require Import ZArith List Bool Lia.
From Verif Require Import Arith Arrays Prog Conc Launch Mesh AuxVars Tend Over Formulas KernBase.
Import ListNotations.
Open Scope Z_scope.

Section Terms.
Context {A : Arith} (cf : config) (D : dims) (Hd : wfd cf D) (a : rarr).
Local Notation VL := (vector_length cf).

(** Memories that differ from [m] at most in array [a]. *)
Definition only (T : list Z -> option (F A)) (b : rarr) (ix : list Z) : option (F A) :=
  if rarr_eq_dec a b then T ix else None.
Definition ov (m : mem A) (T : list Z -> option (F A)) : mem A := over m (only T).
Definition old (m : mem A) (T : list Z -> option (F A)) (ix : list Z) : F A :=
  match T ix with Some v => v | None => mr m a ix end.

(** Update by [g] of the elements selected by [P]. *)
Definition tstep (P : list Z -> bool) (m : mem A) (T : list Z -> option (F A)) (g : list Z -> F A -> F A)
  (ix : list Z) : option (F A) :=
  if P ix then Some (g ix (old m T ix)) else T ix.

Lemma ov_same m T ix : mr (ov m T) a ix = old m T ix.
Proof. unfold ov, old. cbn. unfold only. destruct (rarr_eq_dec a a); [reflexivity|congruence]. Qed.
Lemma ov_other m T b ix : b <> a -> mr (ov m T) b ix = mr m b ix.
Proof. intros H. unfold ov. cbn. unfold only. destruct (rarr_eq_dec a b); [congruence|reflexivity]. Qed.
Lemma ov_none (m : mem A) : meq (ov m (fun _ => None)) m.
Proof. split; intros b ix; cbn; [reflexivity|]. unfold only. destruct (rarr_eq_dec a b); reflexivity. Qed.
Lemma ov_ext m T T' : (forall ix, T ix = T' ix) -> meq (ov m T) (ov m T').
Proof.
  intros H. apply meq_over_ext. intros b ix. unfold only. destruct (rarr_eq_dec a b); auto.
Qed.
Lemma ov_old_ext m T T' : (forall ix, old m T ix = old m T' ix) -> meq (ov m T) (ov m T').
Proof.
  intros H. split; intros b ix; [reflexivity|]. destruct (rarr_eq_dec b a) as [->|Hne].
  - now rewrite !ov_same.
  - now rewrite !ov_other.
Qed.

Lemma tstep_comp P m T g g' :
  meq (ov m (tstep P m (tstep P m T g) g')) (ov m (tstep P m T (fun ix x => g' ix (g ix x)))).
Proof.
  apply ov_ext. intros ix. unfold tstep, old. destruct (P ix); reflexivity.
Qed.

(** [ix = pre ++ [k]] with [k] in the chunk that starts at [lo]. *)
Definition inchunk (pre : list Z) (lo hi : Z) (ix : list Z) : bool :=
  match strip pre ix with Some k => (lo <=? k) && (k <? hi) | None => false end.
Lemma inchunk_spec pre lo hi ix :
  inchunk pre lo hi ix = true <-> exists k, ix = pre ++ [k] /\ lo <= k < hi.
Proof.
  unfold inchunk. split.
  - destruct (strip pre ix) as [k|] eqn:E; [|discriminate]. apply strip_spec in E.
    rewrite andb_true_iff, Z.leb_le, Z.ltb_lt. eauto.
  - intros (k & -> & H). rewrite strip_app. rewrite andb_true_iff, Z.leb_le, Z.ltb_lt. lia.
Qed.

(** Kernel [p] updates the elements of its chunk by [g]; the rest of the memory is as in [m]. *)
Definition term (m : mem A) (pre : list Z) (lo hi : Z) (R W : loc -> Prop) (p : prog A unit)
  (g : list Z -> F A -> F A) : Prop :=
  forall T, safe D p (ov m T) R W (fun _ m' => meq m' (ov m (tstep (inchunk pre lo hi) m T g))).

Lemma term_seq m pre lo hi R W p q g g' :
  term m pre lo hi R W p g -> term m pre lo hi R W q g' ->
  term m pre lo hi R W (bind p (fun _ => q)) (fun ix x => g' ix (g ix x)).
Proof.
  intros Hp Hq T. eapply safe_seq; [apply Hp|]. eapply safe_post; [apply Hq|]. cbn. intros _ m' Hm.
  eapply meq_trans; [exact Hm|]. apply tstep_comp.
Qed.
Lemma term_ret m pre lo hi R W : term m pre lo hi R W (Ret tt) (fun _ x => x).
Proof.
  intros T. apply safe_ret. apply ov_old_ext. intros ix. unfold tstep, old.
  destruct (inchunk pre lo hi ix); reflexivity.
Qed.
Lemma term_ext m pre lo hi R W p g g' :
  term m pre lo hi R W p g -> (forall k x, lo <= k < hi -> g (pre ++ [k]) x = g' (pre ++ [k]) x) ->
  term m pre lo hi R W p g'.
Proof.
  intros H E T. eapply safe_post; [apply H|]. cbn. intros _ m' Hm. eapply meq_trans; [exact Hm|].
  apply ov_ext. intros ix. unfold tstep. destruct (inchunk pre lo hi ix) eqn:K; [|reflexivity].
  apply inchunk_spec in K. destruct K as (k & -> & Hk). now rewrite E.
Qed.

Lemma wfm_ov m T : wfm D m -> wfm D (ov m T).
Proof. intros [H1 H2 H3 H4 H5 H6 H7 H8]. constructor; assumption. Qed.

(** From the kernel lemmas. *)
Lemma term_of m pre lo R W p (G : mem A -> Z -> F A -> F A) g :
  wfm D m ->
  (forall n, wfm D n -> safe D p n R W (fun _ m' => meq m' (over n (updT cf n a pre lo (G n))))) ->
  (forall T k x, G (ov m T) k x = g (pre ++ [k]) x) ->
  term m pre lo (lo + VL) R W p g.
Proof.
  intros Hm Hk HG T. eapply safe_post; [apply Hk; now apply wfm_ov|]. cbn. intros _ m' Hm'.
  eapply meq_trans; [exact Hm'|]. split; intros b ix; [reflexivity|].
  destruct (rarr_eq_dec b a) as [->|Hne].
  - rewrite ov_same. cbn. unfold updT, chunkT. rewrite S1_same. unfold tstep, inchunk, old.
    destruct (strip pre ix) as [k|] eqn:Es.
    + apply strip_spec in Es. subst ix. destruct ((lo <=? k) && (k <? lo + VL)).
      * rewrite HG. f_equal. apply ov_same.
      * apply (ov_same m T (pre ++ [k])).
    + apply (ov_same m T ix).
  - rewrite ov_other by exact Hne. cbn. unfold updT. rewrite chunkT_none by (now apply S1_other).
    now apply ov_other.
Qed.

(** ** Launches *)
Definition ext (ix : list Z) : bool := inb (rext D a) ix.

Definition hterm (m : mem A) (Ls : list (launch A)) (g : list Z -> F A -> F A) : Prop :=
  forall T, hsafe D Ls (ov m T) (fun M => meq M (ov m (tstep ext m T g))).

Lemma hterm_app m Ls Ls' g g' :
  hterm m Ls g -> hterm m Ls' g' -> hterm m (Ls ++ Ls') (fun ix x => g' ix (g ix x)).
Proof.
  intros H H' T. eapply hsafe_seq; [apply H|]. eapply hsafe_to; [apply H'|]. apply tstep_comp.
Qed.
Lemma hterm_nil m : hterm m [] (fun _ x => x).
Proof.
  intros T. constructor. apply ov_old_ext. intros ix. unfold tstep, old. destruct (ext ix); reflexivity.
Qed.
Lemma hterm_ext m Ls g g' :
  hterm m Ls g -> (forall ix x, ext ix = true -> g ix x = g' ix x) -> hterm m Ls g'.
Proof.
  intros H E T. eapply hsafe_to; [apply H|]. apply ov_ext. intros ix. unfold tstep.
  destruct (ext ix) eqn:K; [|reflexivity]. now rewrite E.
Qed.

Definition only_a (b : rarr) : bool := if rarr_eq_dec a b then true else false.

Lemma hterm_par2 m n (body : Z -> Z -> prog A unit) g :
  rext D a = [n; d_nlayers D] ->
  (forall i kc, 0 <= i < n -> 0 <= kc < d_nlayers_vec D ->
     term m [i] (kc * VL) (kc * VL + VL) (Rd (own2 VL only_a) [i; kc]) (Wr (own2 VL only_a) [i; kc]) (body i kc) g) ->
  hterm m [par2 n (d_nlayers_vec D) body] g.
Proof.
  intros Hex Hb T. unfold par2. pose proof (wd_vl _ _ Hd) as HVL. pose proof (wd_nl _ _ Hd) as Hnl.
  set (T' := fun b ix => if rarr_eq_dec a b then if ext ix then Some (g ix (old m T ix)) else None else None).
  eapply hsafe_to; [apply hs_over with (own := own2 VL only_a) (T := T')|].
  - reflexivity.
  - intros t Ht. destruct t as [|i [|kc [|z t]]]; try (cbn in Ht; rewrite ?andb_false_r in Ht; discriminate).
    apply inb2 in Ht. destruct Ht as [Hi Hkc]. eapply safe_post; [apply (Hb i kc Hi Hkc T)|].
    cbn [own2]. intros _ m' Hm b ix Ho. rewrite (proj2 Hm).
    unfold only_a in Ho. destruct (rarr_eq_dec a b) as [<-|Hne]; [|discriminate].
    rewrite ov_same. cbn [mr over]. unfold T'. destruct (rarr_eq_dec a a) as [_|N]; [|congruence].
    unfold old at 1, tstep.
    destruct ix as [|i' [|k [|z [|z' ix]]]]; try discriminate Ho.
    + injection Ho as -> Hk.
      assert (E : inchunk [i] (kc * VL) (kc * VL + VL) [i; k] = true).
      { apply inchunk_spec. exists k. split; [reflexivity|]. subst kc.
        pose proof (Z.mul_div_le k VL ltac:(lia)). pose proof (Z.mul_succ_div_gt k VL ltac:(lia)). lia. }
      rewrite E. replace (ext [i; k]) with true; [reflexivity|].
      symmetry. unfold ext. rewrite Hex. apply inb2. split; [exact Hi|].
      apply inchunk_spec in E. destruct E as (k' & E & Hk'). injection E as <-. nia.
    + assert (E : inchunk [i] (kc * VL) (kc * VL + VL) [i'; k; z] = false).
      { apply Bool.not_true_iff_false. intros E. apply inchunk_spec in E. destruct E as (k' & E & _). discriminate. }
      rewrite E. replace (ext [i'; k; z]) with false; [symmetry; apply (ov_same m T)|].
      unfold ext. rewrite Hex. cbn. now rewrite !andb_false_r.
  - intros b ix Hno. unfold T'. destruct (rarr_eq_dec a b) as [<-|Hne]; [|reflexivity].
    destruct (ext ix) eqn:E; [|reflexivity]. exfalso. unfold ext in E. rewrite Hex in E.
    destruct ix as [|i [|k [|z ix]]]; try (cbn in E; rewrite ?andb_false_r in E; discriminate).
    apply inb2 in E. destruct E as [Hi Hk]. apply (Hno [i; k / VL]).
    + apply inb2. split; [exact Hi|]. rewrite Hnl in Hk. split; [apply Z.div_pos; lia|].
      apply Z.div_lt_upper_bound; nia.
    + cbn. unfold only_a. destruct (rarr_eq_dec a a); [reflexivity|congruence].
  - split; intros b ix; [reflexivity|]. destruct (rarr_eq_dec b a) as [->|Hne].
    + rewrite ov_same. cbn. unfold T'. destruct (rarr_eq_dec a a) as [_|N]; [|congruence].
      unfold old at 2, tstep. destruct (ext ix); [reflexivity|]. apply (ov_same m T).
    + rewrite ov_other by exact Hne. cbn. unfold T'. destruct (rarr_eq_dec a b) as [E|_]; [congruence|].
      apply (ov_other m T). exact Hne.
Qed.

Lemma hterm_par3 m n1 n2 (body : Z -> Z -> Z -> prog A unit) g :
  rext D a = [n1; n2; d_nlayers D] ->
  (forall l i kc, 0 <= l < n1 -> 0 <= i < n2 -> 0 <= kc < d_nlayers_vec D ->
     term m [l; i] (kc * VL) (kc * VL + VL) (Rd (own3 VL only_a) [l; i; kc]) (Wr (own3 VL only_a) [l; i; kc])
       (body l i kc) g) ->
  hterm m [par3 n1 n2 (d_nlayers_vec D) body] g.
Proof.
  intros Hex Hb T. unfold par3. pose proof (wd_vl _ _ Hd) as HVL. pose proof (wd_nl _ _ Hd) as Hnl.
  set (T' := fun b ix => if rarr_eq_dec a b then if ext ix then Some (g ix (old m T ix)) else None else None).
  eapply hsafe_to; [apply hs_over with (own := own3 VL only_a) (T := T')|].
  - reflexivity.
  - intros t Ht. destruct t as [|l [|i [|kc [|z t]]]]; try (cbn in Ht; rewrite ?andb_false_r in Ht; discriminate).
    apply inb3 in Ht. destruct Ht as (Hl & Hi & Hkc). eapply safe_post; [apply (Hb l i kc Hl Hi Hkc T)|].
    cbn [own3]. intros _ m' Hm b ix Ho. rewrite (proj2 Hm).
    unfold only_a in Ho. destruct (rarr_eq_dec a b) as [<-|Hne]; [|discriminate].
    rewrite ov_same. cbn [mr over]. unfold T'. destruct (rarr_eq_dec a a) as [_|N]; [|congruence].
    unfold old at 1, tstep.
    destruct ix as [|l' [|i' [|k [|z ix]]]]; try discriminate Ho.
    injection Ho as -> -> Hk.
    assert (E : inchunk [l; i] (kc * VL) (kc * VL + VL) [l; i; k] = true).
    { apply inchunk_spec. exists k. split; [reflexivity|]. subst kc.
      pose proof (Z.mul_div_le k VL ltac:(lia)). pose proof (Z.mul_succ_div_gt k VL ltac:(lia)). lia. }
    rewrite E. replace (ext [l; i; k]) with true; [reflexivity|].
    symmetry. unfold ext. rewrite Hex. apply inb3. split; [exact Hl|]. split; [exact Hi|].
    apply inchunk_spec in E. destruct E as (k' & E & Hk'). injection E as <-. nia.
  - intros b ix Hno. unfold T'. destruct (rarr_eq_dec a b) as [<-|Hne]; [|reflexivity].
    destruct (ext ix) eqn:E; [|reflexivity]. exfalso. unfold ext in E. rewrite Hex in E.
    destruct ix as [|l [|i [|k [|z ix]]]]; try (cbn in E; rewrite ?andb_false_r in E; discriminate).
    apply inb3 in E. destruct E as (Hl & Hi & Hk). apply (Hno [l; i; k / VL]).
    + apply inb3. split; [exact Hl|]. split; [exact Hi|]. rewrite Hnl in Hk. split; [apply Z.div_pos; lia|].
      apply Z.div_lt_upper_bound; nia.
    + cbn. unfold only_a. destruct (rarr_eq_dec a a); [reflexivity|congruence].
  - split; intros b ix; [reflexivity|]. destruct (rarr_eq_dec b a) as [->|Hne].
    + rewrite ov_same. cbn. unfold T'. destruct (rarr_eq_dec a a) as [_|N]; [|congruence].
      unfold old at 2, tstep. destruct (ext ix); [reflexivity|]. apply (ov_same m T).
    + rewrite ov_other by exact Hne. cbn. unfold T'. destruct (rarr_eq_dec a b) as [E|_]; [congruence|].
      apply (ov_other m T). exact Hne.
Qed.

(** One thread per element. *)
Definition own_pt (l : loc) : option tid :=
  match l with LR b ix => if rarr_eq_dec a b then Some ix else None | _ => None end.

Lemma hterm_pt m (body : tid -> prog A unit) g :
  (forall t T, ext t = true ->
     safe D (body t) (ov m T) (Rd own_pt t) (Wr own_pt t) (fun _ m' => m' = wrr (ov m T) a t (g t (old m T t)))) ->
  hterm m [par (rext D a) body] g.
Proof.
  intros Hb T.
  set (T' := fun b ix => if rarr_eq_dec a b then if ext ix then Some (g ix (old m T ix)) else None else None).
  eapply hsafe_to; [apply hs_over with (own := own_pt) (T := T')|].
  - reflexivity.
  - intros t Ht. eapply safe_post; [apply (Hb t T Ht)|]. cbn [own_pt]. intros _ m' -> b ix Ho.
    destruct (rarr_eq_dec a b) as [<-|Hne]; [|discriminate]. injection Ho as ->.
    rewrite wrr_same. symmetry. apply over_some. unfold T'.
    destruct (rarr_eq_dec a a) as [_|N]; [|congruence]. unfold ext. now rewrite Ht.
  - intros b ix Hno. unfold T'. destruct (rarr_eq_dec a b) as [<-|Hne]; [|reflexivity].
    destruct (ext ix) eqn:E; [|reflexivity]. exfalso. apply (Hno ix E).
    cbn. destruct (rarr_eq_dec a a); [reflexivity|congruence].
  - split; intros b ix; [reflexivity|]. destruct (rarr_eq_dec b a) as [->|Hne].
    + rewrite ov_same. cbn. unfold T'. destruct (rarr_eq_dec a a) as [_|N]; [|congruence].
      unfold old at 2, tstep. destruct (ext ix); [reflexivity|]. apply (ov_same m T).
    + rewrite ov_other by exact Hne. cbn. unfold T'. destruct (rarr_eq_dec a b) as [E|_]; [congruence|].
      apply (ov_other m T). exact Hne.
Qed.

(** Array [a] gets the contents [f]. *)
Definition setA (m : mem A) (f : list Z -> F A) : mem A :=
  over m (fun b ix => if rarr_eq_dec a b then if ext ix then Some (f ix) else None else None).

Lemma hterm_set m Ls g : hterm m Ls g -> hsafe D Ls m (fun M => meq M (setA m (fun ix => g ix (mr m a ix)))).
Proof.
  intros H. eapply hsafe_meq; [apply (ov_none m)| |apply (H (fun _ => None))].
  cbn. intros n n' Hn Hm. eapply meq_trans; [apply meq_sym; exact Hn|]. eapply meq_trans; [exact Hm|].
  split; intros b ix; [reflexivity|]. destruct (rarr_eq_dec b a) as [->|Hne].
  - rewrite ov_same. cbn. unfold old, tstep. destruct (rarr_eq_dec a a) as [_|N]; [|congruence].
    destruct (ext ix); reflexivity.
  - rewrite ov_other by exact Hne. cbn. destruct (rarr_eq_dec a b) as [E|_]; [congruence|reflexivity].
Qed.
End Terms.
