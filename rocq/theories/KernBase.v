(** Preparation for the kernel proofs: well-formed sizes and connectivity, ownership of chunks,
    vector loads and stores, and tactics for symbolic execution. *)
From Coq Require Import ZArith List Bool Lia.
From Verif Require Import Arith Arrays Prog Conc Launch Mesh AuxVars Tend Over Formulas.
Import ListNotations.
Open Scope Z_scope.

(** Sizes of the views are consistent with the build configuration. *)
Record wfd (cf : config) (D : dims) : Prop := {
  wd_vl : 1 <= vector_length cf;
  wd_simd : ksimd cf = true -> lanes cf = vector_length cf;
  wd_nl : d_nlayers D = d_nlayers_vec D * vector_length cf;
  wd_max : d_nlayers D <= INT_MAX;
  wd_nlv : 0 <= d_nlayers_vec D
}.

(** The connectivity views hold valid indices. *)
Record wfm {A} (D : dims) (m : mem A) : Prop := {
  wf_noc : forall c, 0 <= c < d_ncells D -> 0 <= mi m NedgesOnCell [c] <= 6;
  wf_eoc : forall c j, 0 <= c < d_ncells D -> 0 <= j < 6 -> 0 <= mi m EdgesOnCell [c; j] < d_nedges D;
  wf_coe : forall e j, 0 <= e < d_nedges D -> 0 <= j < 2 -> 0 <= mi m CellsOnEdge [e; j] < d_ncells D;
  wf_voe : forall e j, 0 <= e < d_nedges D -> 0 <= j < 2 -> 0 <= mi m VerticesOnEdge [e; j] < d_nvertices D;
  wf_noe : forall e, 0 <= e < d_nedges D -> 0 <= mi m NedgesOnEdge [e] <= 12;
  wf_eoe : forall e j, 0 <= e < d_nedges D -> 0 <= j < mi m NedgesOnEdge [e] -> 0 <= mi m EdgesOnEdge [e; j] < d_nedges D;
  wf_eov : forall v j, 0 <= v < d_nvertices D -> 0 <= j < 3 -> 0 <= mi m EdgesOnVertex [v; j] < d_nedges D;
  wf_cov : forall v j, 0 <= v < d_nvertices D -> 0 <= j < 3 -> 0 <= mi m CellsOnVertex [v; j] < d_ncells D
}.

(** A set of arrays, each element of which belongs to the thread of its entity and chunk. *)
Definition own2 (VL : Z) (wr : rarr -> bool) (l : loc) : option tid :=
  match l with
  | LI _ _ => None
  | LR a ix => if wr a then
      match ix with [i; k] => Some [i; k / VL] | [_; i; k] => Some [i; k / VL] | _ => None end
    else None
  end.
Definition own3 (VL : Z) (wr : rarr -> bool) (l : loc) : option tid :=
  match l with
  | LI _ _ => None
  | LR a ix => if wr a then match ix with [l; i; k] => Some [l; i; k / VL] | _ => None end else None
  end.

Lemma lane_ix1 D r k i : 0 <= k + i < d_nlayers D -> lane_ix D [r] k i = [r; k + i].
Proof.
  intros H. unfold lane_ix. rewrite Z.div_small, Z.mod_small by lia. now rewrite Z.add_0_r.
Qed.
Lemma lane_ix2 D l r k i :
  0 <= k + i < d_nlayers D -> 0 <= r < d_ncells D -> lane_ix D [l; r] k i = [l; r; k + i].
Proof.
  intros H Hr. unfold lane_ix. cbv zeta. rewrite (Z.div_small (k + i)), (Z.mod_small (k + i)), Z.add_0_r by lia.
  rewrite Z.div_small, Z.mod_small by lia. now rewrite Z.add_0_r.
Qed.

Section Base.
Context {A : Arith} (cf : config) (D : dims) (Hd : wfd cf D).
Local Notation VL := (vector_length cf).

Lemma chunk_range kc i : 0 <= kc < d_nlayers_vec D -> 0 <= i < VL -> 0 <= kc * VL + i < d_nlayers D.
Proof. intros H H'. pose proof (wd_vl _ _ Hd). rewrite (wd_nl _ _ Hd). nia. Qed.
Lemma chunk_div kc i : 0 <= i < VL -> (kc * VL + i) / VL = kc.
Proof. intros H. rewrite Z.div_add_l by lia. rewrite Z.div_small by lia. lia. Qed.
Lemma chunk_int kc i : 0 <= kc < d_nlayers_vec D -> 0 <= i < VL -> INT_MIN <= kc * VL + i <= INT_MAX.
Proof. intros H H'. pose proof (chunk_range kc i H H'). pose proof (wd_max _ _ Hd). unfold INT_MIN, INT_MAX in *. lia. Qed.
Lemma chunk_int0 kc : 0 <= kc < d_nlayers_vec D -> INT_MIN <= kc * VL <= INT_MAX.
Proof. intros H. pose proof (wd_vl _ _ Hd). pose proof (chunk_int kc 0 H ltac:(lia)). now rewrite Z.add_0_r in *. Qed.

(** Vector loads and stores inside a row. *)
Lemma safe_vload1 a r k (m : mem A) (R W : loc -> Prop) (Q : vec A -> mem A -> Prop) :
  ksimd cf = true ->
  (forall i, 0 <= i < VL -> 0 <= k + i < d_nlayers D) ->
  (forall i, 0 <= i < VL -> validb D (LR a [r; k + i]) = true) ->
  (forall i, 0 <= i < VL -> R (LR a [r; k + i])) ->
  (forall v, (forall i, 0 <= i < VL -> v i = mr m a [r; k + i]) -> Q v m) ->
  safe D (vload cf D a [r] k) m R W Q.
Proof.
  intros Hs Hk Hv HR HQ. unfold vload. rewrite (wd_simd _ _ Hd Hs).
  apply safe_lanes with (f := fun i _ => mr m a [r; k + i]); [pose proof (wd_vl _ _ Hd); lia| |].
  - intros i v Hi. apply safe_bind. rewrite lane_ix1 by auto. apply safe_rdr; auto. cbn. auto.
  - intros v Hv'. apply HQ. exact Hv'.
Qed.
Lemma safe_vload2 a l r k (m : mem A) (R W : loc -> Prop) (Q : vec A -> mem A -> Prop) :
  ksimd cf = true -> 0 <= r < d_ncells D ->
  (forall i, 0 <= i < VL -> 0 <= k + i < d_nlayers D) ->
  (forall i, 0 <= i < VL -> validb D (LR a [l; r; k + i]) = true) ->
  (forall i, 0 <= i < VL -> R (LR a [l; r; k + i])) ->
  (forall v, (forall i, 0 <= i < VL -> v i = mr m a [l; r; k + i]) -> Q v m) ->
  safe D (vload cf D a [l; r] k) m R W Q.
Proof.
  intros Hs Hr Hk Hv HR HQ. unfold vload. rewrite (wd_simd _ _ Hd Hs).
  apply safe_lanes with (f := fun i _ => mr m a [l; r; k + i]); [pose proof (wd_vl _ _ Hd); lia| |].
  - intros i v Hi. apply safe_bind. rewrite lane_ix2 by auto. apply safe_rdr; auto. cbn. auto.
  - intros v Hv'. apply HQ. exact Hv'.
Qed.

(** A single array written. *)
Definition S1 (a : rarr) (f : Z -> F A) (b : rarr) : option (Z -> F A) :=
  if rarr_eq_dec a b then Some f else None.
Lemma S1_same a f : S1 a f a = Some f.
Proof. unfold S1. destruct (rarr_eq_dec a a); congruence. Qed.
Lemma S1_other a f b : b <> a -> S1 a f b = None.
Proof. unfold S1. destruct (rarr_eq_dec a b); congruence. Qed.

Lemma S1_step (m : mem A) a f pre lo k v :
  lo <= k -> f k = v ->
  meq (wrr (over m (chunkT (S1 a f) pre lo k)) a (pre ++ [k]) v) (over m (chunkT (S1 a f) pre lo (k + 1))).
Proof.
  intros Hk Hv. apply (wrrs_chunk m (S1 a f) pre lo k [(a, v)]); [exact Hk| | |].
  - constructor; [intros []|constructor].
  - intros b w [E|[]]. injection E as <- <-. exists f. rewrite S1_same. auto.
  - intros b g. unfold S1. destruct (rarr_eq_dec a b); [|discriminate]. subst. intros _. now left.
Qed.

Lemma safe_vstore1 a r k v f (m : mem A) (R W : loc -> Prop) :
  ksimd cf = true ->
  (forall i, 0 <= i < VL -> 0 <= k + i < d_nlayers D) ->
  (forall i, 0 <= i < VL -> validb D (LR a [r; k + i]) = true) ->
  (forall i, 0 <= i < VL -> W (LR a [r; k + i])) ->
  (forall i, 0 <= i < VL -> v i = f (k + i)) ->
  safe D (vstore cf D a [r] k v) m R W (fun _ m' => meq m' (over m (chunkT (S1 a f) [r] k (k + VL)))).
Proof.
  intros Hs Hk Hv HW Hf. unfold vstore. rewrite (wd_simd _ _ Hd Hs).
  apply safe_wloop; [pose proof (wd_vl _ _ Hd); lia|].
  intros i Hi. rewrite lane_ix1 by auto. apply safe_str; auto.
  apply (S1_step m a f [r]); [lia|]. symmetry. auto.
Qed.
Lemma safe_vstore2 a l r k v f (m : mem A) (R W : loc -> Prop) :
  ksimd cf = true -> 0 <= r < d_ncells D ->
  (forall i, 0 <= i < VL -> 0 <= k + i < d_nlayers D) ->
  (forall i, 0 <= i < VL -> validb D (LR a [l; r; k + i]) = true) ->
  (forall i, 0 <= i < VL -> W (LR a [l; r; k + i])) ->
  (forall i, 0 <= i < VL -> v i = f (k + i)) ->
  safe D (vstore cf D a [l; r] k v) m R W (fun _ m' => meq m' (over m (chunkT (S1 a f) [l; r] k (k + VL)))).
Proof.
  intros Hs Hr Hk Hv HW Hf. unfold vstore. rewrite (wd_simd _ _ Hd Hs).
  apply safe_wloop; [pose proof (wd_vl _ _ Hd); lia|].
  intros i Hi. rewrite lane_ix2 by auto. apply safe_str; auto.
  apply (S1_step m a f [l; r]); [lia|]. symmetry. auto.
Qed.

(** [a(pre, k) = f(k, a(pre, k))] over a chunk. *)
Definition updT (m : mem A) (a : rarr) (pre : list Z) (k : Z) (g : Z -> F A -> F A) :=
  chunkT (S1 a (fun k' => g k' (mr m a (pre ++ [k'])))) pre k (k + VL).

Lemma safe_vadd1 a r k v g (m : mem A) (R W : loc -> Prop) :
  ksimd cf = true ->
  (forall i, 0 <= i < VL -> 0 <= k + i < d_nlayers D) ->
  (forall i, 0 <= i < VL -> validb D (LR a [r; k + i]) = true) ->
  (forall i, 0 <= i < VL -> R (LR a [r; k + i])) ->
  (forall i, 0 <= i < VL -> W (LR a [r; k + i])) ->
  (forall i x, 0 <= i < VL -> (x + v i)%fp = g (k + i) x) ->
  safe D (vadd_to cf D a [r] k v) m R W (fun _ m' => meq m' (over m (updT m a [r] k g))).
Proof.
  intros Hs Hk Hv HR HW Hg. unfold vadd_to. apply safe_bind. apply safe_vload1; auto.
  intros x Hx. apply safe_vstore1; auto. intros i Hi. rewrite Hx, Hg by auto. reflexivity.
Qed.
Lemma safe_vadd2 a l r k v g (m : mem A) (R W : loc -> Prop) :
  ksimd cf = true -> 0 <= r < d_ncells D ->
  (forall i, 0 <= i < VL -> 0 <= k + i < d_nlayers D) ->
  (forall i, 0 <= i < VL -> validb D (LR a [l; r; k + i]) = true) ->
  (forall i, 0 <= i < VL -> R (LR a [l; r; k + i])) ->
  (forall i, 0 <= i < VL -> W (LR a [l; r; k + i])) ->
  (forall i x, 0 <= i < VL -> (x + v i)%fp = g (k + i) x) ->
  safe D (vadd_to cf D a [l; r] k v) m R W (fun _ m' => meq m' (over m (updT m a [l; r] k g))).
Proof.
  intros Hs Hr Hk Hv HR HW Hg. unfold vadd_to. apply safe_bind. apply safe_vload2; auto.
  intros x Hx. apply safe_vstore2; auto. intros i Hi. rewrite Hx, Hg by auto. reflexivity.
Qed.
Lemma safe_vsub1 a r k v g (m : mem A) (R W : loc -> Prop) :
  ksimd cf = true ->
  (forall i, 0 <= i < VL -> 0 <= k + i < d_nlayers D) ->
  (forall i, 0 <= i < VL -> validb D (LR a [r; k + i]) = true) ->
  (forall i, 0 <= i < VL -> R (LR a [r; k + i])) ->
  (forall i, 0 <= i < VL -> W (LR a [r; k + i])) ->
  (forall i x, 0 <= i < VL -> (x - v i)%fp = g (k + i) x) ->
  safe D (vsub_from cf D a [r] k v) m R W (fun _ m' => meq m' (over m (updT m a [r] k g))).
Proof.
  intros Hs Hk Hv HR HW Hg. unfold vsub_from. apply safe_bind. apply safe_vload1; auto.
  intros x Hx. apply safe_vstore1; auto. intros i Hi. rewrite Hx, Hg by auto. reflexivity.
Qed.

(** Scalar update loop: reads of the element about to be written see its old value. *)
Lemma upd_old (m : mem A) a f pre k i :
  0 <= i -> mr (over m (chunkT (S1 a f) pre k (k + i))) a (pre ++ [k + i]) = mr m a (pre ++ [k + i]).
Proof. intros Hi. apply over_none. apply chunkT_out. lia. Qed.

Lemma safe_add_chunk a pre k v g (m : mem A) (R W : loc -> Prop) :
  (forall i, 0 <= i < VL -> INT_MIN <= k + i <= INT_MAX) ->
  (forall i, 0 <= i < VL -> validb D (LR a (pre ++ [k + i])) = true) ->
  (forall i, 0 <= i < VL -> R (LR a (pre ++ [k + i]))) ->
  (forall i, 0 <= i < VL -> W (LR a (pre ++ [k + i]))) ->
  (forall i x, 0 <= i < VL -> (x + v i)%fp = g (k + i) x) ->
  safe D (add_chunk cf a pre k v) m R W (fun _ m' => meq m' (over m (updT m a pre k g))).
Proof.
  intros Hk Hv HR HW Hg. unfold add_chunk, updT. apply safe_wloop; [pose proof (wd_vl _ _ Hd); lia|].
  intros i Hi. apply safe_bind. apply safe_iadd; [auto|]. cbv beta. apply safe_bind. apply safe_rdr; [auto|auto|].
  cbv beta. rewrite upd_old by lia. apply safe_str; [auto|auto|]. apply S1_step; [lia|]. symmetry. auto.
Qed.

Lemma safe_zero_chunk a pre kc (m : mem A) (R W : loc -> Prop) :
  0 <= kc < d_nlayers_vec D ->
  (forall i, 0 <= i < VL -> validb D (LR a (pre ++ [kc * VL + i])) = true) ->
  (forall i, 0 <= i < VL -> W (LR a (pre ++ [kc * VL + i]))) ->
  safe D (zero_chunk cf a pre kc) m R W (fun _ m' => meq m' (over m (updT m a pre (kc * VL) (fun _ _ => (#0)%fp)))).
Proof.
  intros Hkc Hv HW. unfold zero_chunk, updT. apply safe_wloop; [pose proof (wd_vl _ _ Hd); lia|].
  intros i Hi. apply safe_bind. apply safe_imul; [now apply chunk_int0|]. cbv beta. apply safe_bind.
  apply safe_iadd; [now apply chunk_int|]. cbv beta. apply safe_str; [auto|auto|].
  apply S1_step; [lia|reflexivity].
Qed.

(** Scalar loops that store one value per lane. *)
Lemma safe_upd_loop a pre k (body : Z -> prog A unit) g (m : mem A) (R W : loc -> Prop) :
  (forall i n, 0 <= i < VL ->
     (forall b ix, b <> a -> mr n b ix = mr m b ix) ->
     mr n a (pre ++ [k + i]) = mr m a (pre ++ [k + i]) ->
     safe D (body i) n R W (fun _ m' => m' = wrr n a (pre ++ [k + i]) (g (k + i) (mr m a (pre ++ [k + i]))))) ->
  safe D (for_u VL body) m R W (fun _ m' => meq m' (over m (updT m a pre k g))).
Proof.
  intros Hb. unfold updT. apply safe_wloop; [pose proof (wd_vl _ _ Hd); lia|].
  intros i Hi. eapply safe_post; [apply Hb; [exact Hi| |]|].
  - intros b ix Hne. apply over_none. apply chunkT_none. now apply S1_other.
  - apply upd_old. lia.
  - cbn. intros _ m' ->. apply S1_step; [lia|reflexivity].
Qed.
End Base.

(** Symbolic execution. *)
Ltac rng :=
  repeat match goal with
  | Hw : wfm ?D ?m |- context [mi ?m NedgesOnCell [?c]] =>
      lazymatch goal with H : 0 <= mi m NedgesOnCell [c] <= 6 |- _ => fail | _ =>
        assert (0 <= mi m NedgesOnCell [c] <= 6) by (apply (wf_noc D m Hw); assumption || lia) end
  | Hw : wfm ?D ?m |- context [mi ?m EdgesOnCell [?c; ?j]] =>
      lazymatch goal with H : 0 <= mi m EdgesOnCell [c; j] < _ |- _ => fail | _ =>
        assert (0 <= mi m EdgesOnCell [c; j] < d_nedges D) by (apply (wf_eoc D m Hw); assumption || lia) end
  | Hw : wfm ?D ?m |- context [mi ?m CellsOnEdge [?c; ?j]] =>
      lazymatch goal with H : 0 <= mi m CellsOnEdge [c; j] < _ |- _ => fail | _ =>
        assert (0 <= mi m CellsOnEdge [c; j] < d_ncells D) by (apply (wf_coe D m Hw); assumption || lia) end
  | Hw : wfm ?D ?m |- context [mi ?m VerticesOnEdge [?c; ?j]] =>
      lazymatch goal with H : 0 <= mi m VerticesOnEdge [c; j] < _ |- _ => fail | _ =>
        assert (0 <= mi m VerticesOnEdge [c; j] < d_nvertices D) by (apply (wf_voe D m Hw); assumption || lia) end
  | Hw : wfm ?D ?m |- context [mi ?m NedgesOnEdge [?c]] =>
      lazymatch goal with H : 0 <= mi m NedgesOnEdge [c] <= 12 |- _ => fail | _ =>
        assert (0 <= mi m NedgesOnEdge [c] <= 12) by (apply (wf_noe D m Hw); assumption || lia) end
  | Hw : wfm ?D ?m |- context [mi ?m EdgesOnEdge [?c; ?j]] =>
      lazymatch goal with H : 0 <= mi m EdgesOnEdge [c; j] < _ |- _ => fail | _ =>
        assert (0 <= mi m EdgesOnEdge [c; j] < d_nedges D) by (apply (wf_eoe D m Hw); assumption || lia) end
  | Hw : wfm ?D ?m |- context [mi ?m EdgesOnVertex [?c; ?j]] =>
      lazymatch goal with H : 0 <= mi m EdgesOnVertex [c; j] < _ |- _ => fail | _ =>
        assert (0 <= mi m EdgesOnVertex [c; j] < d_nedges D) by (apply (wf_eov D m Hw); assumption || lia) end
  | Hw : wfm ?D ?m |- context [mi ?m CellsOnVertex [?c; ?j]] =>
      lazymatch goal with H : 0 <= mi m CellsOnVertex [c; j] < _ |- _ => fail | _ =>
        assert (0 <= mi m CellsOnVertex [c; j] < d_ncells D) by (apply (wf_cov D m Hw); assumption || lia) end
  end.

Ltac vld :=
  cbn [validb rext iext app]; rng;
  first [apply inb1 | apply inb2 | apply inb3]; repeat split;
  first [assumption | lia
        | match goal with H : forall i, 0 <= i < _ -> 0 <= _ + i < _ |- _ => apply H; (assumption || lia) end ].
Ltac rok :=
  first [ left; reflexivity
        | left; cbn [own2 own3]; match goal with H : _ = false |- _ => rewrite H; reflexivity end
        | right; cbn [own2 own3 app]; try match goal with H : _ = true |- _ => rewrite H end;
          match goal with H : forall i, 0 <= i < _ -> (_ + i) / _ = _ |- _ => rewrite H by (assumption || lia); reflexivity end ].
Ltac wok :=
  unfold Wr; cbn [own2 own3 app]; try match goal with H : _ = true |- _ => rewrite H end;
  match goal with H : forall i, 0 <= i < _ -> (_ + i) / _ = _ |- _ => rewrite H by (assumption || lia); reflexivity end.
Ltac sx1 :=
  cbv beta zeta;
  lazymatch goal with
  | |- safe _ (bind (for_ _ _ _) _) _ _ _ _ => fail
  | |- safe _ (bind (for_u _ _) _) _ _ _ _ => fail
  | |- safe _ (bind (vstore _ _ _ _ _ _) _) _ _ _ _ => fail
  | |- safe _ (bind _ _) _ _ _ _ => apply safe_bind
  | |- safe _ (rdi _ _) _ _ _ _ => apply safe_rdi; [vld | rok | ]
  | |- safe _ (rdr _ _) _ _ _ _ => apply safe_rdr; [vld | rok | ]
  | |- safe _ (iadd _ _) _ _ _ _ =>
      apply safe_iadd; [match goal with H : forall i, 0 <= i < _ -> INT_MIN <= _ + i <= INT_MAX |- _ => apply H; assumption end | ]
  | |- safe _ (vload ?cf ?D _ [_] _) _ _ _ _ =>
      let v := fresh "v" in let i := fresh "i" in let Hi := fresh "Hi" in let Hv := fresh "Hv" in
      apply safe_vload1; [assumption | assumption | assumption | intros i Hi; vld | intros i Hi; rok | intros v Hv]
  | |- safe _ (vload ?cf ?D _ [_; _] _) _ _ _ _ =>
      let v := fresh "v" in let i := fresh "i" in let Hi := fresh "Hi" in let Hv := fresh "Hv" in
      apply safe_vload2; [assumption | assumption | rng; assumption | assumption | intros i Hi; vld | intros i Hi; rok | intros v Hv]
  | |- safe _ (Ret _) _ _ _ _ => apply safe_ret
  end.
Ltac sx := repeat sx1; cbv beta zeta.
(** Start of a kernel: [kstart]. *)
Ltac kstart Hd Hkc :=
  apply safe_bind; apply safe_imul;
    [ first [exact (chunk_int0 _ _ Hd _ Hkc) | rewrite Z.mul_comm; exact (chunk_int0 _ _ Hd _ Hkc)] | ];
  cbv beta;
  try match goal with |- context [vector_length ?cf * ?k] => rewrite (Z.mul_comm (vector_length cf) k) end;
  match goal with |- context [?k * vector_length ?cf] =>
    let Hr := fresh "Hks" in let Hdv := fresh "Hdiv" in let Hi := fresh "Hint" in let ks := fresh "ks" in
    pose proof (fun i => chunk_range cf _ Hd k i Hkc) as Hr;
    pose proof (chunk_div cf k) as Hdv;
    pose proof (fun i => chunk_int cf _ Hd k i Hkc) as Hi;
    set (ks := k * vector_length cf) in *; clearbody ks
  end.
Ltac lanes :=
  repeat match goal with
  | H : forall i, 0 <= i < _ -> ?v i = _ |- context [?v ?i0] => rewrite H by assumption
  | H : forall i, 0 <= i < _ -> fst ?v i = _ |- context [fst ?v ?i0] => rewrite H by assumption
  | H : forall i, 0 <= i < _ -> snd ?v i = _ |- context [snd ?v ?i0] => rewrite H by assumption
  end.
(** Accumulation loop of a vector kernel and of a scalar kernel; [st] is the step in layer [k]. *)
Ltac acc_simd ks cf st :=
  apply safe_bind; apply safe_acc with (VL := vector_length cf) (step := fun i => st (ks + i));
  [ rng; lia
  | let j := fresh "j" in let a := fresh "a" in let Hj := fresh "Hj" in let i := fresh "i" in let Hi := fresh "Hi" in
    intros j a Hj; sx; split; [reflexivity|]; intros i Hi; lanes; reflexivity
  | let a := fresh "acc" in let Ha := fresh "Hacc" in intros a Ha; cbv beta in Ha |- * ].
Ltac acc_scalar ks cf st :=
  apply safe_bind; apply safe_acc with (VL := vector_length cf) (step := fun i => st (ks + i));
  [ rng; lia
  | let j := fresh "j" in let a := fresh "a" in let Hj := fresh "Hj" in let i := fresh "i" in let Hi := fresh "Hi" in
    let a' := fresh "a'" in let Ha := fresh "Ha" in
    intros j a Hj; sx; apply safe_lanes with (f := fun i => st (ks + i) j);
    [ lia | intros i a' Hi; sx; split; reflexivity | intros a' Ha; split; [reflexivity | exact Ha] ]
  | let a := fresh "acc" in let Ha := fresh "Hacc" in intros a Ha; cbv beta in Ha |- * ].
