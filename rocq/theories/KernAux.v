(** What the auxiliary variable kernels compute. *)
From Coq Require Import ZArith List Bool Lia.
From Verif Require Import Arith Arrays Prog Conc Launch Mesh AuxVars Tend Over Formulas KernBase Terms.
Import ListNotations.
Open Scope Z_scope.

(** Whole arrays indexed by entity and layer. *)
Definition lT2 {A} (D : dims) (Sf : rarr -> option (Z -> Z -> F A)) (a : rarr) (ix : list Z) : option (F A) :=
  match Sf a with
  | Some f => match ix with [i; k] => if inb (rext D a) [i; k] then Some (f i k) else None | _ => None end
  | None => None
  end.
(** The part of [Sf] that belongs to entity [i]. *)
Definition at1 {A} (Sf : rarr -> option (Z -> Z -> F A)) (i : Z) (a : rarr) : option (Z -> F A) :=
  match Sf a with Some f => Some (f i) | None => None end.

Section KernAux.
Context {A : Arith} (cf : config) (D : dims) (Hd : wfd cf D).
Local Notation VL := (vector_length cf).

Lemma hs_set2 n (body : Z -> Z -> prog A unit) (m : mem A) wr (Sf : rarr -> option (Z -> Z -> F A)) :
  (forall a, wr a = match Sf a with Some _ => true | None => false end) ->
  (forall a f, Sf a = Some f -> rext D a = [n; d_nlayers D]) ->
  (forall i kc, 0 <= i < n -> 0 <= kc < d_nlayers_vec D ->
     safe D (body i kc) m (Rd (own2 VL wr) [i; kc]) (Wr (own2 VL wr) [i; kc])
       (fun _ m' => meq m' (over m (chunkT (at1 Sf i) [i] (kc * VL) (kc * VL + VL))))) ->
  hsafe D [par2 n (d_nlayers_vec D) body] m (fun M => meq M (over m (lT2 D Sf))).
Proof.
  intros Hwr Hex Hb. unfold par2. pose proof (wd_vl _ _ Hd) as HVL. pose proof (wd_nl _ _ Hd) as Hnl.
  apply hs_over with (own := own2 VL wr).
  - reflexivity.
  - intros t Ht. destruct t as [|i [|kc [|z t]]]; try (cbn in Ht; rewrite ?andb_false_r in Ht; discriminate).
    apply inb2 in Ht. destruct Ht as [Hi Hkc]. eapply safe_post; [apply (Hb i kc Hi Hkc)|].
    cbn [own2]. intros _ m' Hm b ix Ho. rewrite (proj2 Hm). cbn [mr over].
    rewrite Hwr in Ho. unfold chunkT, lT2, at1. destruct (Sf b) as [f|] eqn:E; [|reflexivity].
    destruct ix as [|i' [|k [|z [|z' ix]]]]; try discriminate Ho.
    + injection Ho as -> Hk. cbn [strip]. rewrite Z.eqb_refl.
      pose proof (Z.mul_div_le k VL ltac:(lia)). pose proof (Z.mul_succ_div_gt k VL ltac:(lia)).
      replace ((kc * VL <=? k) && (k <? kc * VL + VL)) with true
        by (symmetry; rewrite andb_true_iff, Z.leb_le, Z.ltb_lt; subst kc; lia).
      rewrite (Hex _ _ E). replace (inb [n; d_nlayers D] [i; k]) with true; [reflexivity|].
      symmetry. apply inb2. split; [exact Hi|]. subst kc. nia.
    + cbn [strip]. destruct (i =? i'); reflexivity.
  - intros b ix Hno. unfold lT2. destruct (Sf b) as [f|] eqn:E; [|reflexivity].
    destruct ix as [|i [|k [|z ix]]]; try reflexivity. rewrite (Hex _ _ E).
    destruct (inb [n; d_nlayers D] [i; k]) eqn:Hin; [|reflexivity]. exfalso.
    apply inb2 in Hin. destruct Hin as [Hi Hk]. apply (Hno [i; k / VL]).
    + apply inb2. split; [exact Hi|]. rewrite Hnl in Hk. split; [apply Z.div_pos; lia|].
      apply Z.div_lt_upper_bound; nia.
    + cbn. rewrite Hwr, E. reflexivity.
Qed.

(** Two or three vector stores in a row. *)
Lemma over2 (m : mem A) a1 f1 a2 f2 (Sf : rarr -> option (Z -> F A)) pre lo hi :
  (forall a, Sf a = if rarr_eq_dec a2 a then Some f2 else if rarr_eq_dec a1 a then Some f1 else None) ->
  meq (over (over m (chunkT (S1 a1 f1) pre lo hi)) (chunkT (S1 a2 f2) pre lo hi)) (over m (chunkT Sf pre lo hi)).
Proof.
  intros H. split; intros a ix; [reflexivity|]. cbn. unfold chunkT. rewrite H. unfold S1.
  destruct (rarr_eq_dec a2 a), (rarr_eq_dec a1 a); try reflexivity; destruct (strip pre ix); try reflexivity;
    destruct ((lo <=? z) && (z <? hi)); reflexivity.
Qed.
Lemma over3 (m : mem A) a1 f1 a2 f2 a3 f3 (Sf : rarr -> option (Z -> F A)) pre lo hi :
  (forall a, Sf a = if rarr_eq_dec a3 a then Some f3 else
     if rarr_eq_dec a2 a then Some f2 else if rarr_eq_dec a1 a then Some f1 else None) ->
  meq (over (over (over m (chunkT (S1 a1 f1) pre lo hi)) (chunkT (S1 a2 f2) pre lo hi)) (chunkT (S1 a3 f3) pre lo hi))
      (over m (chunkT Sf pre lo hi)).
Proof.
  intros H. split; intros a ix; [reflexivity|]. cbn. unfold chunkT. rewrite H. unfold S1.
  destruct (rarr_eq_dec a3 a), (rarr_eq_dec a2 a), (rarr_eq_dec a1 a); try reflexivity; destruct (strip pre ix); try reflexivity;
    destruct ((lo <=? z) && (z <? hi)); reflexivity.
Qed.

Ltac vst f' :=
  let i := fresh "i" in let Hi := fresh "Hi" in
  apply safe_vstore1 with (f := f');
  [exact Hd | assumption | assumption | intros i Hi; vld | intros i Hi; wok | intros i Hi; lanes; reflexivity].
Ltac nodup := repeat constructor; cbn; intuition discriminate.
Ltac vals :=
  let a := fresh "a" in let x := fresh "x" in let Hx := fresh "Hx" in let E := fresh "E" in
  intros a x Hx; repeat destruct Hx as [E|Hx]; [..|destruct Hx]; injection E as <- <-;
  eexists; (split; [reflexivity|]); lanes; reflexivity.
Ltac doms :=
  let a := fresh "a" in let f := fresh "f" in let E := fresh "E" in
  intros a f; destruct a; cbn; intros E; try discriminate; tauto.

(** ** Vertex kernel *)
Definition wr_va (a : rarr) : bool :=
  match a with RvortVertex | NormRvortVertex | NormPvortVertex => true | _ => false end.
Definition S_va (m : mem A) (s : sid) (a : rarr) : option (Z -> Z -> F A) :=
  match a with
  | RvortVertex => Some (f_rvort m s)
  | NormRvortVertex => Some (f_nrv m (ksimd cf) s)
  | NormPvortVertex => Some (f_npv m s)
  | _ => None
  end.

Ltac acc2_simd ks st st' :=
  apply safe_bind; apply safe_acc2 with (VL := VL) (step := fun i => st (ks + i)) (step' := fun i => st' (ks + i));
  [ rng; lia
  | let j := fresh "j" in let a := fresh "a" in let Hj := fresh "Hj" in let i := fresh "i" in let Hi := fresh "Hi" in
    intros j a Hj; sx; split; [reflexivity|]; split; intros i Hi; cbn [fst snd]; lanes; reflexivity
  | let a := fresh "acc" in let Ha := fresh "Hacc" in let Ha' := fresh "Hacc'" in intros a Ha Ha'; cbv beta in Ha, Ha' |- * ].
Ltac acc2_scalar ks st st' :=
  apply safe_bind; apply safe_acc2 with (VL := VL) (step := fun i => st (ks + i)) (step' := fun i => st' (ks + i));
  [ rng; lia
  | let j := fresh "j" in let a := fresh "a" in let Hj := fresh "Hj" in let i := fresh "i" in let Hi := fresh "Hi" in
    let a' := fresh "a'" in let Ha := fresh "Ha" in let Hb := fresh "Hb" in
    intros j a Hj; sx; apply safe_lanes2 with (f := fun i => st (ks + i) j) (g := fun i => st' (ks + i) j);
    [ lia | intros i a' Hi; sx; split; reflexivity | intros a' Ha Hb; split; [reflexivity | split; [exact Ha | exact Hb]] ]
  | let a := fresh "acc" in let Ha := fresh "Hacc" in let Ha' := fresh "Hacc'" in intros a Ha Ha'; cbv beta in Ha, Ha' |- * ].

Lemma k_vort_vertex s (m : mem A) v kc :
  wfm D m -> 0 <= v < d_nvertices D -> 0 <= kc < d_nlayers_vec D ->
  safe D (compute_vort_vertex cf D s v kc) m (Rd (own2 VL wr_va) [v; kc]) (Wr (own2 VL wr_va) [v; kc])
    (fun _ m' => meq m' (over m (chunkT (at1 (S_va m s) v) [v] (kc * VL) (kc * VL + VL)))).
Proof.
  intros Hm Hv Hkc. pose proof (wd_vl _ _ Hd) as HVL. unfold compute_vort_vertex, S_va. destruct (ksimd cf) eqn:Hs.
  - unfold compute_vort_vertex_simd. kstart Hd Hkc. sx. acc2_simd ks (s_rvort m s v) (s_hvert m s v).
    eapply safe_seq;
      [vst (f_rvort m s v)|].
    eapply safe_seq;
      [vst (f_nrv m true s v)|].
    sx. eapply safe_post;
      [vst (f_npv m s v)|].
    cbv beta. intros _ m' Hm'. eapply meq_trans; [exact Hm'|]. apply over3.
    intros a. destruct a; reflexivity.
  - unfold compute_vort_vertex_scalar. kstart Hd Hkc. sx. acc2_scalar ks (s_rvort m s v) (s_hvert m s v).
    apply safe_wloop; [lia|]. intros i Hi. sx.
    apply safe_str; [vld|wok|]. sx. apply safe_str; [vld|wok|]. sx. apply safe_str; [vld|wok|].
    apply (wrrs_chunk m _ [v] ks (ks + i)
             [(RvortVertex, _); (NormRvortVertex, _); (NormPvortVertex, _)]); [lia| | |].
    + nodup.
    + vals.
    + doms.
Qed.

Lemma hs_vertex s (m : mem A) :
  wfm D m -> hsafe D [compute_vertex_auxiliarys cf D s] m (fun M => meq M (over m (lT2 D (S_va m s)))).
Proof.
  intros Hm. unfold compute_vertex_auxiliarys. apply hs_set2 with (wr := wr_va).
  - intros a; destruct a; reflexivity.
  - intros a f. destruct a; cbn; intros; try discriminate; reflexivity.
  - intros i kc Hi Hkc. now apply k_vort_vertex.
Qed.

Lemma overS (m : mem A) (Sa Sb Sf : rarr -> option (Z -> F A)) pre lo hi :
  (forall a, Sf a = match Sb a with Some f => Some f | None => Sa a end) ->
  meq (over (over m (chunkT Sa pre lo hi)) (chunkT Sb pre lo hi)) (over m (chunkT Sf pre lo hi)).
Proof.
  intros H. split; intros a ix; [reflexivity|]. cbn. unfold chunkT. rewrite H.
  destruct (Sb a), (Sa a); try reflexivity; destruct (strip pre ix); try reflexivity;
    destruct ((lo <=? z) && (z <? hi)); reflexivity.
Qed.

(** ** Edge kernel *)
Definition wr_ea (a : rarr) : bool :=
  match a with MeanHEdge | FluxHEdge | NormRvortEdge | NormPvortEdge => true | _ => false end.
Definition S_th (m : mem A) (s : sid) (a : rarr) : option (Z -> Z -> F A) :=
  match a with MeanHEdge | FluxHEdge => Some (f_mean m s) | _ => None end.
Definition S_vo (m : mem A) (a : rarr) : option (Z -> Z -> F A) :=
  match a with NormRvortEdge => Some (f_nre m) | NormPvortEdge => Some (f_npe m) | _ => None end.
Definition S_ea (m : mem A) (s : sid) (a : rarr) : option (Z -> Z -> F A) :=
  match a with
  | MeanHEdge | FluxHEdge => Some (f_mean m s)
  | NormRvortEdge => Some (f_nre m)
  | NormPvortEdge => Some (f_npe m)
  | _ => None
  end.

Lemma k_thickness_edge s (m : mem A) e kc :
  wfm D m -> 0 <= e < d_nedges D -> 0 <= kc < d_nlayers_vec D ->
  safe D (compute_thickness_edge cf D s e kc) m (Rd (own2 VL wr_ea) [e; kc]) (Wr (own2 VL wr_ea) [e; kc])
    (fun _ m' => meq m' (over m (chunkT (at1 (S_th m s) e) [e] (kc * VL) (kc * VL + VL)))).
Proof.
  intros Hm He Hkc. pose proof (wd_vl _ _ Hd) as HVL. unfold compute_thickness_edge. destruct (ksimd cf) eqn:Hs.
  - unfold compute_thickness_edge_simd. kstart Hd Hkc. sx.
    eapply safe_seq; [vst (f_mean m s e)|].
    eapply safe_post; [vst (f_mean m s e)|].
    cbv beta. intros _ m' Hm'. eapply meq_trans; [exact Hm'|]. apply over2.
    intros a. destruct a; reflexivity.
  - unfold compute_thickness_edge_scalar. kstart Hd Hkc. sx.
    apply safe_bind. apply safe_lanes with (f := fun i _ => f_mean m s e (ks + i)); [lia| |].
    { intros i a' Hi. sx. split; reflexivity. }
    intros acc Hacc. cbv beta in Hacc |- *.
    apply safe_wloop; [lia|]. intros i Hi. sx.
    apply safe_str; [vld|wok|]. sx. apply safe_str; [vld|wok|].
    apply (wrrs_chunk m _ [e] ks (ks + i) [(MeanHEdge, _); (FluxHEdge, _)]); [lia|nodup|vals|doms].
Qed.

Lemma k_vort_edge (m : mem A) e kc :
  wfm D m -> 0 <= e < d_nedges D -> 0 <= kc < d_nlayers_vec D ->
  safe D (compute_vort_edge cf D e kc) m (Rd (own2 VL wr_ea) [e; kc]) (Wr (own2 VL wr_ea) [e; kc])
    (fun _ m' => meq m' (over m (chunkT (at1 (S_vo m) e) [e] (kc * VL) (kc * VL + VL)))).
Proof.
  intros Hm He Hkc. pose proof (wd_vl _ _ Hd) as HVL. unfold compute_vort_edge. destruct (ksimd cf) eqn:Hs.
  - unfold compute_vort_edge_simd. kstart Hd Hkc. sx.
    eapply safe_seq; [vst (f_nre m e)|].
    eapply safe_post; [vst (f_npe m e)|].
    cbv beta. intros _ m' Hm'. eapply meq_trans; [exact Hm'|]. apply over2.
    intros a. destruct a; reflexivity.
  - unfold compute_vort_edge_scalar. kstart Hd Hkc. sx.
    apply safe_wloop; [lia|]. intros i Hi. sx.
    apply safe_str; [vld|wok|]. sx. apply safe_str; [vld|wok|].
    apply (wrrs_chunk m _ [e] ks (ks + i) [(NormRvortEdge, _); (NormPvortEdge, _)]); [lia|nodup|vals|doms].
Qed.

Lemma wfm_over (m : mem A) T : wfm D m -> wfm D (over m T).
Proof. intros [H1 H2 H3 H4 H5 H6 H7 H8]. constructor; assumption. Qed.

Lemma hs_edge s (m : mem A) :
  wfm D m -> hsafe D [compute_edge_auxiliarys cf D s] m (fun M => meq M (over m (lT2 D (S_ea m s)))).
Proof.
  intros Hm. unfold compute_edge_auxiliarys. apply hs_set2 with (wr := wr_ea).
  - intros a; destruct a; reflexivity.
  - intros a f. destruct a; cbn; intros; try discriminate; reflexivity.
  - intros i kc Hi Hkc. eapply safe_seq; [now apply k_thickness_edge|].
    eapply safe_post; [apply k_vort_edge; auto using wfm_over|].
    cbv beta. intros _ m' Hm'. eapply meq_trans; [exact Hm'|]. apply overS.
    intros a. destruct a; reflexivity.
Qed.

(** ** Cell kernel *)
Definition wr_ca (a : rarr) : bool :=
  match a with KeCell | VelDivCell | NormTrCell => true | _ => false end.
Definition S_ki (m : mem A) (s : sid) (a : rarr) : option (Z -> Z -> F A) :=
  match a with KeCell => Some (f_ke m s) | VelDivCell => Some (f_div m s) | _ => None end.

Lemma k_kinetic s (m : mem A) c kc :
  wfm D m -> 0 <= c < d_ncells D -> 0 <= kc < d_nlayers_vec D ->
  safe D (compute_kinetic_cell cf D s c kc) m (Rd (own2 VL wr_ca) [c; kc]) (Wr (own2 VL wr_ca) [c; kc])
    (fun _ m' => meq m' (over m (chunkT (at1 (S_ki m s) c) [c] (kc * VL) (kc * VL + VL)))).
Proof.
  intros Hm Hc Hkc. pose proof (wd_vl _ _ Hd) as HVL. pose proof (wf_noc D m Hm c Hc).
  unfold compute_kinetic_cell. destruct (ksimd cf) eqn:Hs.
  - unfold compute_kinetic_cell_simd. kstart Hd Hkc. sx. acc2_simd ks (s_ke m s c) (s_div m s c).
    eapply safe_seq; [vst (f_div m s c)|].
    eapply safe_post; [vst (f_ke m s c)|].
    cbv beta. intros _ m' Hm'. eapply meq_trans; [exact Hm'|]. apply over2.
    intros a. destruct a; reflexivity.
  - unfold compute_kinetic_cell_scalar. kstart Hd Hkc. sx. acc2_scalar ks (s_ke m s c) (s_div m s c).
    apply safe_wloop; [lia|]. intros i Hi. sx.
    apply safe_str; [vld|wok|]. sx. apply safe_str; [vld|wok|].
    apply (wrrs_chunk m _ [c] ks (ks + i) [(VelDivCell, _); (KeCell, _)]); [lia|nodup|vals|doms].
Qed.

Lemma k_norm_tracer s (m : mem A) l c kc :
  wfm D m -> 0 <= l < d_ntracers D -> 0 <= c < d_ncells D -> 0 <= kc < d_nlayers_vec D ->
  safe D (compute_norm_tracer_cell cf D s l c kc) m (Rd (own2 VL wr_ca) [c; kc]) (Wr (own2 VL wr_ca) [c; kc])
    (fun _ m' => meq m' (over m (chunkT (S1 NormTrCell (f_ntr m s l c)) [l; c] (kc * VL) (kc * VL + VL)))).
Proof.
  intros Hm Hl Hc Hkc. pose proof (wd_vl _ _ Hd) as HVL.
  unfold compute_norm_tracer_cell. destruct (ksimd cf) eqn:Hs.
  - unfold compute_norm_tracer_cell_simd. kstart Hd Hkc. sx.
    apply safe_vstore2; try assumption; intros i Hi; [vld|wok|lanes; reflexivity].
  - unfold compute_norm_tracer_cell_scalar. kstart Hd Hkc. sx.
    apply safe_bind. apply safe_lanes with (f := fun i _ => f_ntr m s l c (ks + i)); [lia| |].
    { intros i a' Hi. sx. split; reflexivity. }
    intros acc Hacc. cbv beta in Hacc |- *.
    apply safe_wloop; [lia|]. intros i Hi. sx.
    apply safe_str; [vld|wok|]. apply (S1_step m NormTrCell _ [l; c]); [lia|]. lanes. reflexivity.
Qed.

(** All tracers of one thread. *)
Definition trT (m : mem A) (s : sid) (c lo hi n : Z) (a : rarr) (ix : list Z) : option (F A) :=
  match a with
  | NormTrCell =>
      match ix with
      | [l; c'; k] => if (0 <=? l) && (l <? n) && (c =? c') && (lo <=? k) && (k <? hi) then Some (f_ntr m s l c k) else None
      | _ => None
      end
  | _ => None
  end.

Lemma k_norm_tracers s (m : mem A) c kc :
  wfm D m -> 0 <= d_ntracers D -> 0 <= c < d_ncells D -> 0 <= kc < d_nlayers_vec D ->
  safe D (for_u (d_ntracers D) (fun l => compute_norm_tracer_cell cf D s l c kc)) m
    (Rd (own2 VL wr_ca) [c; kc]) (Wr (own2 VL wr_ca) [c; kc])
    (fun _ m' => meq m' (over m (trT m s c (kc * VL) (kc * VL + VL) (d_ntracers D)))).
Proof.
  intros Hm Hn Hc Hkc. unfold for_u.
  apply safe_for with (I := fun n _ m' => meq m' (over m (trT m s c (kc * VL) (kc * VL + VL) n))); [exact Hn| | |].
  - split; intros a ix; [reflexivity|]. cbn. destruct a; try reflexivity. cbn.
    destruct ix as [|l [|c' [|k [|z ix]]]]; try reflexivity.
    destruct (Z.leb_spec 0 l), (Z.ltb_spec l 0); try reflexivity; lia.
  - intros l _ m' Hl Hm'. eapply safe_meq; [apply meq_sym; exact Hm'| |apply k_norm_tracer; auto using wfm_over].
    cbv beta. intros _ n n' Hn' Ha. eapply meq_trans; [apply meq_sym; exact Hn'|]. eapply meq_trans; [exact Ha|].
    split; intros a ix; [reflexivity|]. cbn [mr over]. destruct a; try reflexivity.
    unfold chunkT. rewrite S1_same.
    destruct (strip [l; c] ix) as [k|] eqn:E.
    + apply strip_spec in E. subst ix. cbn [app trT]. rewrite Z.eqb_refl.
      replace (0 <=? l) with true by (symmetry; apply Z.leb_le; lia).
      replace (l <? l + 1) with true by (symmetry; apply Z.ltb_lt; lia).
      replace (l <? l) with false by (symmetry; apply Z.ltb_ge; lia).
      cbn [andb]. destruct ((kc * VL <=? k) && (k <? kc * VL + VL)); reflexivity.
    + destruct ix as [|l' [|c' [|k [|z ix]]]]; try reflexivity. cbn [trT].
      cbn [strip] in E. destruct (Z.eqb_spec l l') as [->|Hne].
      * destruct (Z.eqb_spec c c') as [->|Hne]; [discriminate|]. rewrite !andb_false_r. reflexivity.
      * destruct (Z.ltb_spec l' l), (Z.ltb_spec l' (l + 1)); try reflexivity; lia.
  - intros _ m' Hm'. exact Hm'.
Qed.

Definition cellT (m : mem A) (s : sid) (a : rarr) (ix : list Z) : option (F A) :=
  match a with
  | KeCell => match ix with [c; k] => if inb (rext D KeCell) ix then Some (f_ke m s c k) else None | _ => None end
  | VelDivCell => match ix with [c; k] => if inb (rext D VelDivCell) ix then Some (f_div m s c k) else None | _ => None end
  | NormTrCell => match ix with [l; c; k] => if inb (rext D NormTrCell) ix then Some (f_ntr m s l c k) else None | _ => None end
  | _ => None
  end.

Lemma hs_cell s (m : mem A) :
  wfm D m -> 0 <= d_ntracers D ->
  hsafe D [compute_cell_auxiliarys cf D s] m (fun M => meq M (over m (cellT m s))).
Proof.
  intros Hm Hn. unfold compute_cell_auxiliarys, par2.
  pose proof (wd_vl _ _ Hd) as HVL. pose proof (wd_nl _ _ Hd) as Hnl.
  apply hs_over with (own := own2 VL wr_ca).
  - reflexivity.
  - intros t Ht. destruct t as [|c [|kc [|z t]]]; try (cbn in Ht; rewrite ?andb_false_r in Ht; discriminate).
    apply inb2 in Ht. destruct Ht as [Hc Hkc].
    eapply safe_post; [eapply safe_seq; [now apply k_kinetic|apply k_norm_tracers; auto using wfm_over]|].
    cbn [own2]. intros _ m' Hm' a ix Ho. rewrite (proj2 Hm'). cbn [mr over].
    destruct (wr_ca a) eqn:Hwr; [|discriminate].
    assert (Hch : forall k, k / VL = kc -> (kc * VL <=? k) && (k <? kc * VL + VL) = true /\ 0 <= k < d_nlayers D).
    { intros k Hk. pose proof (Z.mul_div_le k VL ltac:(lia)). pose proof (Z.mul_succ_div_gt k VL ltac:(lia)).
      rewrite andb_true_iff, Z.leb_le, Z.ltb_lt. subst kc. nia. }
    destruct ix as [|i [|k [|k' [|z' ix]]]]; try discriminate Ho.
    + injection Ho as -> Hk. destruct (Hch k Hk) as [E Hr].
      destruct a; try discriminate Hwr; cbn [trT cellT]; try reflexivity;
        unfold chunkT; cbn [at1 S_ki strip]; rewrite Z.eqb_refl, E;
        (replace (inb (rext D _) [c; k]) with true by (symmetry; apply inb2; split; assumption)); reflexivity.
    + injection Ho as -> Hk. destruct (Hch k' Hk) as [E Hr].
      destruct a; try discriminate Hwr; cbn [trT cellT]; unfold chunkT; cbn [at1 S_ki strip].
      * destruct (c =? i); reflexivity.
      * destruct (c =? i); reflexivity.
      * rewrite Z.eqb_refl, andb_true_r. rewrite <- (andb_assoc _ _ (k' <? _)), E, andb_true_r.
        destruct ((0 <=? i) && (i <? d_ntracers D)) eqn:El.
        -- replace (inb (rext D NormTrCell) [i; c; k']) with true; [reflexivity|].
           symmetry. apply inb3. rewrite andb_true_iff, Z.leb_le, Z.ltb_lt in El. tauto.
        -- replace (inb (rext D NormTrCell) [i; c; k']) with false; [reflexivity|].
           symmetry. cbn [rext inb]. rewrite El. reflexivity.
  - assert (Hdiv : forall k, 0 <= k < d_nlayers D -> 0 <= k / VL < d_nlayers_vec D).
    { intros k Hk. rewrite Hnl in Hk. split; [apply Z.div_pos; lia|]. apply Z.div_lt_upper_bound; nia. }
    intros a ix Hno. destruct a; try reflexivity; cbn [cellT].
    + destruct ix as [|c [|k [|z ix]]]; try reflexivity.
      destruct (inb (rext D KeCell) [c; k]) eqn:E; [|reflexivity]. exfalso. apply inb2 in E.
      apply (Hno [c; k / VL]); [|reflexivity]. apply inb2. split; [tauto|]. apply Hdiv. tauto.
    + destruct ix as [|c [|k [|z ix]]]; try reflexivity.
      destruct (inb (rext D VelDivCell) [c; k]) eqn:E; [|reflexivity]. exfalso. apply inb2 in E.
      apply (Hno [c; k / VL]); [|reflexivity]. apply inb2. split; [tauto|]. apply Hdiv. tauto.
    + destruct ix as [|l [|c [|k [|z ix]]]]; try reflexivity.
      destruct (inb (rext D NormTrCell) [l; c; k]) eqn:E; [|reflexivity]. exfalso. apply inb3 in E.
      apply (Hno [c; k / VL]); [|reflexivity]. apply inb2. split; [tauto|]. apply Hdiv. tauto.
Qed.

(** ** The three kernels in a row *)
Definition aux_fn (s : sid) (m : mem A) : mem A :=
  let m1 := over m (lT2 D (S_va m s)) in
  let m2 := over m1 (cellT m1 s) in
  over m2 (lT2 D (S_ea m2 s)).

Lemma hs_aux s (m : mem A) :
  wfm D m -> 0 <= d_ntracers D -> hsafe D (aux_compute cf D s) m (fun M => meq M (aux_fn s m)).
Proof.
  intros Hm Hn. unfold aux_compute, aux_fn.
  apply (hsafe_seq D [_] [_; _] _ (over m (lT2 D (S_va m s)))); [now apply hs_vertex|].
  eapply (hsafe_seq D [_] [_]); [apply hs_cell; auto using wfm_over|]. apply hs_edge; auto using wfm_over.
Qed.
End KernAux.
