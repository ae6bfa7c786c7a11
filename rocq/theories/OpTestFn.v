(** What the kernels of the operator test leave behind, in every arithmetic. *)
From Coq Require Import ZArith List Bool Lia.
From Verif Require Import Arith Arrays Prog Conc Launch Mesh Model Hex MeshProof MeshMem Over KernBase TendFn StepFn OpTest.
Import ListNotations.
Open Scope Z_scope.

Definition memb (l : list rarr) (a : rarr) : bool := existsb (fun b => if rarr_eq_dec a b then true else false) l.
Lemma memb_in l a : memb l a = true <-> In a l.
Proof.
  unfold memb. rewrite existsb_exists. split.
  - intros (b & Hb & E). destruct (rarr_eq_dec a b); [now subst|discriminate].
  - intros H. exists a. split; [exact H|]. destruct (rarr_eq_dec a a); congruence.
Qed.
Definition ownl (l : list rarr) (x : loc) : option tid :=
  match x with LI _ _ => None | LR a ix => if memb l a then Some ix else None end.

(** The views of the tests. *)
Definition tview (a : rarr) : bool :=
  match a with CellField _ | EdgeField _ | VertexField _ => true | _ => false end.

Section OpFn.
Context {A : Arith} (D : dims).

(** Element [i] of the views in [L] has the given values, for [i] in [0, n); the rest is unchanged. *)
Definition wrote (L : list (rarr * (Z -> F A))) (n : Z) (m M : mem A) : Prop :=
  (forall a f i, In (a, f) L -> 0 <= i < n -> mr M a [i] = f i) /\
  (forall a ix, ~ In a (map fst L) -> mr M a ix = mr m a ix) /\
  (forall a ix, mi M a ix = mi m a ix).

Lemma hs_multi (L : list (rarr * (Z -> F A))) n (f : Z -> prog A unit) m :
  (forall i, 0 <= i < n ->
     safe D (f i) m (Rd (ownl (map fst L)) [i]) (Wr (ownl (map fst L)) [i])
       (fun _ m' => forall a g, In (a, g) L -> mr m' a [i] = g i)) ->
  hsafe D [par1 n f] m (wrote L n m).
Proof.
  intros H. unfold par1. apply hs_par with (own := ownl (map fst L))
    (Q := fun t m' => match t with [i] => forall a g, In (a, g) L -> mr m' a [i] = g i | _ => False end).
  - intros t Ht. destruct t as [|i [|]]; try discriminate Ht; [|cbn in Ht; rewrite andb_false_r in Ht; discriminate].
    apply H. cbn in Ht. lia.
  - intros M H1 H2. apply hs_nil. split; [|split].
    + intros a g i Hin Hi. destruct (H1 [i]) as (mt & Q & E); [now apply inb1|].
      specialize (E (LR a [i])). cbn in E. assert (Hm : memb (map fst L) a = true) by (apply memb_in; now apply (in_map fst) in Hin).
      rewrite Hm in E. specialize (E eq_refl). cbn in E. injection E as ->. now apply Q.
    + intros a ix Hn. specialize (H2 (LR a ix)). cbn in H2.
      destruct (memb (map fst L) a) eqn:E; [apply memb_in in E; contradiction|]. 
      assert (Hq : @inr Z (F A) (mr M a ix) = inr (mr m a ix)) by (apply H2; discriminate). now injection Hq.
    + intros a ix. specialize (H2 (LI a ix)). cbn in H2.
      assert (Hq : @inl Z (F A) (mi M a ix) = inl (mi m a ix)) by (apply H2; discriminate). now injection Hq.
Qed.

(** Only the views of the tests may differ. *)
Definition same_mesh (m M : mem A) : Prop :=
  (forall a ix, tview a = false -> mr M a ix = mr m a ix) /\ (forall a ix, mi M a ix = mi m a ix).
Lemma sm_refl m : same_mesh m m. Proof. split; auto. Qed.
Lemma sm_trans m m' m'' : same_mesh m m' -> same_mesh m' m'' -> same_mesh m m''.
Proof. intros [H1 H2] [K1 K2]. split; intros; [rewrite K1, H1|rewrite K2, H2]; auto. Qed.
Lemma wrote_mesh L n m M : forallb tview (map fst L) = true -> wrote L n m M -> same_mesh m M.
Proof.
  intros HL (_ & H2 & H3). split; [|exact H3]. intros a ix Ha. apply H2. intros Hin.
  rewrite forallb_forall in HL. apply HL in Hin. congruence.
Qed.
End OpFn.

Section OpLevel.
Context {A : Arith} (cf : config) (h : hexargs A) (Hok : mesh_ok cf h).
Local Notation D := (dims_of cf h 0).
Local Notation NC := (nx h * ny h).
Implicit Types m M : mem A.

Lemma hs_views3 a b c m : hsafe D (views cf h [a; b; c]) m
  (fun M => (forall x ix, ~ In x [a; b; c] -> mr M x ix = mr m x ix) /\ (forall x ix, mi M x ix = mi m x ix)).
Proof.
  unfold views. cbn [map].
  apply (hsafe_app D [_] [_; _] m (fun M => (forall x ix, x <> a -> mr M x ix = mr m x ix) /\ (forall x ix, mi M x ix = mi m x ix))).
  { eapply hsafe_post; [apply hs_fill|]. cbv beta. intros M [Ei Er]. split; intros; [rewrite Er; now apply upd_other|rewrite Ei; reflexivity]. }
  intros m1 [R1 I1].
  apply (hsafe_app D [_] [_] m1 (fun M => (forall x ix, x <> b -> mr M x ix = mr m1 x ix) /\ (forall x ix, mi M x ix = mi m1 x ix))).
  { eapply hsafe_post; [apply hs_fill|]. cbv beta. intros M [Ei Er]. split; intros; [rewrite Er; now apply upd_other|rewrite Ei; reflexivity]. }
  intros m2 [R2 I2]. eapply hsafe_post; [apply hs_fill|]. cbv beta. intros M [Ei Er]. split.
  - intros x ix Hx. cbn in Hx. rewrite Er, upd_other by (intros ->; tauto). rewrite R2, R1; [reflexivity|intros ->; tauto|intros ->; tauto].
  - intros. rewrite Ei. cbn. now rewrite I2, I1.
Qed.

(** ** The values of the views *)
Section Vals.
Context (m : mem A).
Local Open Scope fp_scope.
Local Notation ri a ix := (mi m a ix%Z).
Local Notation rr a ix := (mr m a ix%Z).
Definition v_phi (c : Z) : F A := o_phi h (rr XCell [c]) (rr YCell [c]).
Definition v_grad (e : Z) : F A := (v_phi (ri CellsOnEdge [e; 1]) - v_phi (ri CellsOnEdge [e; 0])) / rr DcEdge [e].
Definition v_gradx (e : Z) : F A :=
  fcos (rr AngleEdge [e]) * o_gx h (rr XEdge [e]) (rr YEdge [e]) + fsin (rr AngleEdge [e]) * o_gy h (rr XEdge [e]) (rr YEdge [e]).
Definition e_grad (e : Z) : F A := fabs (v_gradx e - v_grad e).
Definition v_n (e : Z) : F A :=
  fcos (rr AngleEdge [e]) * o_vx h (rr XEdge [e]) (rr YEdge [e]) + fsin (rr AngleEdge [e]) * o_vy h (rr XEdge [e]) (rr YEdge [e]).
Definition v_t (e : Z) : F A :=
  - fsin (rr AngleEdge [e]) * o_vx h (rr XEdge [e]) (rr YEdge [e]) + fcos (rr AngleEdge [e]) * o_vy h (rr XEdge [e]) (rr YEdge [e]).
Definition v_div (c : Z) : F A :=
  iterZ (ri NedgesOnCell [c]) (fun j accum => let e := ri EdgesOnCell [c; j] in
    accum + rr DvEdge [e] * rr EdgeSignOnCell [c; j] * v_n e) (#0) / rr AreaCell [c].
Definition e_div (c : Z) : F A := fabs (o_div h (rr XCell [c]) (rr YCell [c]) - v_div c).
Definition v_curl (v : Z) : F A :=
  iterZ 3 (fun j accum => let e := ri EdgesOnVertex [v; j] in
    accum + rr DcEdge [e] * rr EdgeSignOnVertex [v; j] * v_n e) (#0) / rr AreaTriangle [v].
Definition e_curl (v : Z) : F A := fabs (o_curl h (rr XVertex [v]) (rr YVertex [v]) - v_curl v).
Definition v_recon (e : Z) : F A :=
  iterZ (ri NedgesOnEdge [e]) (fun j accum => accum + rr WeightsOnEdge [e; j] * v_n (ri EdgesOnEdge [e; j])) (#0).
Definition e_recon (e : Z) : F A := fabs (v_t e - v_recon e).
End Vals.

Section Kernels.
Context (m0 : mem A) (Hw : wfm D m0).

Ltac ext_ := lazymatch goal with Hs : same_mesh m0 _ |- _ =>
  let Hr := fresh "Hr" in let Hi := fresh "Hi" in destruct Hs as [Hr Hi] end.
Ltac rng1 := first [ lia | assumption
  | apply (wf_coe _ _ Hw); rng1 | apply (wf_eoc _ _ Hw); rng1 | apply (wf_eov _ _ Hw); rng1 | apply (wf_eoe _ _ Hw); rng1].
Ltac vld := cbn [validb rext iext]; first [apply inb1 | apply inb2]; repeat split; rng1.
Ltac wnorm := repeat first [rewrite wrr_same | rewrite wrr_arr by discriminate].
Ltac hr Hr := repeat match goal with |- context [mr _ ?a ?ix] => rewrite (Hr a ix) by reflexivity end.
Ltac st Hr Hi :=
  repeat (cbv beta zeta;
    lazymatch goal with
    | |- safe _ (bind _ _) _ _ _ _ => apply safe_bind
    | |- safe _ (Ret _) _ _ _ _ => apply safe_ret
    | |- safe _ (rdr _ _) _ _ _ _ => apply safe_rdr; [vld | first [left; reflexivity | right; reflexivity] | wnorm; hr Hr ]
    | |- safe _ (rdi _ _) _ _ _ _ => apply safe_rdi; [vld | left; reflexivity | rewrite ?mi_wrr, ?Hi ]
    | |- safe _ (str _ _ _) _ _ _ _ => apply safe_str; [vld | reflexivity | ]
    end).
Ltac fin := intros a g Hin; cbn [In] in Hin; repeat (destruct Hin as [Hin|Hin]; [injection Hin as <- <-; wnorm|]); [..|destruct Hin].

Lemma k_phi m : same_mesh m0 m -> hsafe D
  [par1 (d_ncells D) (fun icell =>
     (x <- rdr XCell [icell] ;; y <- rdr YCell [icell] ;; str (CellField 0) [icell] (o_phi h x y))%fp)] m
  (wrote [(CellField 0, v_phi m0)] (d_ncells D) m).
Proof.
  intros Hs. apply hs_multi. intros i Hi0. destruct Hs as [Hr Hi]. st Hr Hi. fin. reflexivity.
Qed.

Lemma k_grad m : same_mesh m0 m -> (forall c, 0 <= c < d_ncells D -> mr m (CellField 0) [c] = v_phi m0 c) -> hsafe D
  [par1 (d_nedges D) (fun iedge =>
     (icell0 <- rdi CellsOnEdge [iedge; 0%Z] ;; icell1 <- rdi CellsOnEdge [iedge; 1%Z] ;;
     f1 <- rdr (CellField 0) [icell1] ;; f0 <- rdr (CellField 0) [icell0] ;; dc <- rdr DcEdge [iedge] ;;
     str (EdgeField 1) [iedge] ((f1 - f0) / dc) ;;;
     a <- rdr AngleEdge [iedge] ;; x <- rdr XEdge [iedge] ;; y <- rdr YEdge [iedge] ;;
     str (EdgeField 2) [iedge] (fcos a * o_gx h x y + fsin a * o_gy h x y) ;;;
     abs_diff (EdgeField 2) (EdgeField 1) iedge)%fp)] m
  (wrote [(EdgeField 1, v_grad m0); (EdgeField 2, e_grad m0)] (d_nedges D) m).
Proof.
  intros Hs Hc. apply hs_multi. intros i Hi0. destruct Hs as [Hr Hi]. unfold abs_diff. st Hr Hi.
  fin; rewrite !Hc by rng1; reflexivity.
Qed.

Lemma k_n b m : tview b = true -> rext D b = [d_nedges D] -> same_mesh m0 m -> hsafe D [normal_kernel cf h b] m (wrote [(b, v_n m0)] (d_nedges D) m).
Proof.
  intros Hb Hx Hs. unfold normal_kernel. apply hs_multi. intros i Hi0. destruct Hs as [Hr Hi].
  assert (Hm : forall a, tview a = false -> memb (map fst [(b, v_n m0)]) a = false).
  { intros a Ha. cbn. destruct (rarr_eq_dec a b); [congruence|reflexivity]. }
  repeat (apply safe_bind; apply safe_rdr; [vld | left; unfold ownl; now rewrite Hm | hr Hr]).
  apply safe_str; [cbn [validb]; rewrite Hx; now apply inb1| |].
  - unfold Wr, ownl. cbn. destruct (rarr_eq_dec b b); [reflexivity|congruence].
  - fin. reflexivity.
Qed.

Lemma k_div m : same_mesh m0 m -> (forall e, 0 <= e < d_nedges D -> mr m (EdgeField 3) [e] = v_n m0 e) -> hsafe D
  [par1 (d_ncells D) (fun icell =>
     (n <- rdi NedgesOnCell [icell] ;;
     accum <- for_ n (#0) (fun j accum =>
       jedge <- rdi EdgesOnCell [icell; j] ;; dv <- rdr DvEdge [jedge] ;; sg <- rdr EdgeSignOnCell [icell; j] ;;
       v <- rdr (EdgeField 3) [jedge] ;; Ret (accum + dv * sg * v)) ;;
     ac <- rdr AreaCell [icell] ;; str (CellField 4) [icell] (accum / ac) ;;;
     x <- rdr XCell [icell] ;; y <- rdr YCell [icell] ;; str (CellField 5) [icell] (o_div h x y) ;;;
     abs_diff (CellField 5) (CellField 4) icell)%fp)] m
  (wrote [(CellField 4, v_div m0); (CellField 5, e_div m0)] (d_ncells D) m).
Proof.
  intros Hs Hc. apply hs_multi. intros i Hi0. destruct Hs as [Hr Hi]. unfold abs_diff. st Hr Hi.
  pose proof (wf_noc _ _ Hw i Hi0) as Hn.
  apply safe_for_ro with (g := fun j accum => let e := mi m0 EdgesOnCell [i; j] in
    (accum + mr m0 DvEdge [e] * mr m0 EdgeSignOnCell [i; j] * v_n m0 e)%fp); [lia| |].
  - intros j s Hj. st Hr Hi. rewrite Hc by rng1. split; reflexivity.
  - st Hr Hi. fin; reflexivity.
Qed.

Lemma k_curl m : same_mesh m0 m -> (forall e, 0 <= e < d_nedges D -> mr m (EdgeField 6) [e] = v_n m0 e) -> hsafe D
  [par1 (d_nvertices D) (fun ivertex =>
     (accum <- for_ 3 (#0) (fun j accum =>
       jedge <- rdi EdgesOnVertex [ivertex; j] ;; dc <- rdr DcEdge [jedge] ;; sg <- rdr EdgeSignOnVertex [ivertex; j] ;;
       v <- rdr (EdgeField 6) [jedge] ;; Ret (accum + dc * sg * v)) ;;
     at_ <- rdr AreaTriangle [ivertex] ;; str (VertexField 7) [ivertex] (accum / at_) ;;;
     x <- rdr XVertex [ivertex] ;; y <- rdr YVertex [ivertex] ;; str (VertexField 8) [ivertex] (o_curl h x y) ;;;
     abs_diff (VertexField 8) (VertexField 7) ivertex)%fp)] m
  (wrote [(VertexField 7, v_curl m0); (VertexField 8, e_curl m0)] (d_nvertices D) m).
Proof.
  intros Hs Hc. apply hs_multi. intros i Hi0. destruct Hs as [Hr Hi]. unfold abs_diff. apply safe_bind.
  apply safe_for_ro with (g := fun j accum => let e := mi m0 EdgesOnVertex [i; j] in
    (accum + mr m0 DcEdge [e] * mr m0 EdgeSignOnVertex [i; j] * v_n m0 e)%fp); [lia| |].
  - intros j s Hj. st Hr Hi. rewrite Hc by rng1. split; reflexivity.
  - st Hr Hi. fin; reflexivity.
Qed.

Lemma k_nt m : same_mesh m0 m -> hsafe D
  [par1 (d_nedges D) (fun iedge =>
     (al <- rdr AngleEdge [iedge] ;; let nx := fcos al in let ny := fsin al in let tx := - ny in let ty := nx in
     x <- rdr XEdge [iedge] ;; y <- rdr YEdge [iedge] ;;
     str (EdgeField 9) [iedge] (nx * o_vx h x y + ny * o_vy h x y) ;;;
     str (EdgeField 11) [iedge] (tx * o_vx h x y + ty * o_vy h x y))%fp)] m
  (wrote [(EdgeField 9, v_n m0); (EdgeField 11, v_t m0)] (d_nedges D) m).
Proof.
  intros Hs. apply hs_multi. intros i Hi0. destruct Hs as [Hr Hi]. st Hr Hi. fin; reflexivity.
Qed.

Lemma k_recon m : same_mesh m0 m -> (forall e, 0 <= e < d_nedges D -> mr m (EdgeField 9) [e] = v_n m0 e) ->
  (forall e, 0 <= e < d_nedges D -> mr m (EdgeField 11) [e] = v_t m0 e) -> hsafe D
  [par1 (d_nedges D) (fun iedge =>
     (n <- rdi NedgesOnEdge [iedge] ;;
     accum <- for_ n (#0) (fun j accum =>
       iedge2 <- rdi EdgesOnEdge [iedge; j] ;; w <- rdr WeightsOnEdge [iedge; j] ;;
       v <- rdr (EdgeField 9) [iedge2] ;; Ret (accum + w * v)) ;;
     str (EdgeField 10) [iedge] accum ;;;
     abs_diff (EdgeField 11) (EdgeField 10) iedge)%fp)] m
  (wrote [(EdgeField 10, v_recon m0); (EdgeField 11, e_recon m0)] (d_nedges D) m).
Proof.
  intros Hs Hc Ht. apply hs_multi. intros i Hi0. destruct Hs as [Hr Hi]. unfold abs_diff. st Hr Hi.
  pose proof (wf_noe _ _ Hw i Hi0) as Hn.
  apply safe_for_ro with (g := fun j accum =>
    (accum + mr m0 WeightsOnEdge [i; j] * v_n m0 (mi m0 EdgesOnEdge [i; j]))%fp); [lia| |].
  - intros j s Hj. st Hr Hi. rewrite Hc by rng1. split; reflexivity.
  - st Hr Hi. fin; [reflexivity|]. rewrite Ht by assumption. reflexivity.
Qed.

(** What is there after all kernels. *)
Definition op_vals M : Prop :=
  same_mesh m0 M /\
  (forall e, 0 <= e < d_nedges D -> mr M (EdgeField 2) [e] = e_grad m0 e) /\
  (forall c, 0 <= c < d_ncells D -> mr M (CellField 5) [c] = e_div m0 c) /\
  (forall v, 0 <= v < d_nvertices D -> mr M (VertexField 8) [v] = e_curl m0 v) /\
  (forall e, 0 <= e < d_nedges D -> mr M (EdgeField 11) [e] = e_recon m0 e).

Lemma views_mesh a b c m M : forallb tview [a; b; c] = true -> same_mesh m0 m ->
  (forall x ix, ~ In x [a; b; c] -> mr M x ix = mr m x ix) /\ (forall x ix, mi M x ix = mi m x ix) -> same_mesh m0 M.
Proof.
  intros Hf [H1 H2] [K1 K2]. split; intros; [rewrite K1, H1; auto|rewrite K2; apply H2].
  intros Hin. rewrite forallb_forall in Hf. apply Hf in Hin. congruence.
Qed.
Ltac ni := intros Hin; cbn in Hin; repeat (destruct Hin as [Hin|Hin]; [discriminate|]); destruct Hin.
Ltac inl := cbn; tauto.

Lemma gradient_hsafe m : same_mesh m0 m -> hsafe D (gradient_kernels cf h) m
  (fun M => same_mesh m0 M /\ (forall e, 0 <= e < d_nedges D -> mr M (EdgeField 2) [e] = e_grad m0 e)).
Proof.
  intros Hs. unfold gradient_kernels. eapply hsafe_app; [apply hs_views3|]. cbv beta. intros m1 H1.
  apply views_mesh in H1; [|reflexivity|exact Hs].
  apply (hsafe_app D [_] [_] m1 (wrote [(CellField 0, v_phi m0)] (d_ncells D) m1)); [now apply k_phi|].
  intros m2 W2. assert (Hs2 : same_mesh m0 m2) by (eapply sm_trans; [exact H1|eapply wrote_mesh; [|exact W2]; reflexivity]).
  destruct W2 as (W2 & _). eapply hsafe_post; [apply k_grad; [exact Hs2|]|].
  - intros c Hc. apply (W2 _ (v_phi m0) c); [inl|exact Hc].
  - intros M W3. split; [eapply sm_trans; [exact Hs2|eapply wrote_mesh; [|exact W3]; reflexivity]|].
    intros e He. apply (proj1 W3 _ (e_grad m0) e); [inl|exact He].
Qed.
Lemma divergence_hsafe m : same_mesh m0 m -> hsafe D (divergence_kernels cf h) m
  (fun M => same_mesh m0 M /\ (forall c, 0 <= c < d_ncells D -> mr M (CellField 5) [c] = e_div m0 c) /\
    forall ix, mr M (EdgeField 2) ix = mr m (EdgeField 2) ix).
Proof.
  intros Hs. unfold divergence_kernels. eapply hsafe_app; [apply hs_views3|]. cbv beta. intros m1 H1.
  assert (F1 : forall ix, mr m1 (EdgeField 2) ix = mr m (EdgeField 2) ix) by (intros; apply (proj1 H1); ni).
  apply views_mesh in H1; [|reflexivity|exact Hs].
  apply (hsafe_app D [_] [_] m1 (wrote [(EdgeField 3, v_n m0)] (d_nedges D) m1)); [now apply k_n|].
  intros m2 W2. assert (Hs2 : same_mesh m0 m2) by (eapply sm_trans; [exact H1|eapply wrote_mesh; [|exact W2]; reflexivity]).
  destruct W2 as (W2 & F2 & _). eapply hsafe_post; [apply k_div; [exact Hs2|]|].
  - intros c Hc. apply (W2 _ (v_n m0) c); [inl|exact Hc].
  - intros M W3. split; [eapply sm_trans; [exact Hs2|eapply wrote_mesh; [|exact W3]; reflexivity]|]. split.
    + intros c Hc. apply (proj1 W3 _ (e_div m0) c); [inl|exact Hc].
    + intros ix. rewrite (proj1 (proj2 W3)) by ni. rewrite F2 by ni. apply F1.
Qed.
Lemma curl_hsafe m : same_mesh m0 m -> hsafe D (curl_kernels cf h) m
  (fun M => same_mesh m0 M /\ (forall v, 0 <= v < d_nvertices D -> mr M (VertexField 8) [v] = e_curl m0 v) /\
    forall ix, mr M (EdgeField 2) ix = mr m (EdgeField 2) ix /\ mr M (CellField 5) ix = mr m (CellField 5) ix).
Proof.
  intros Hs. unfold curl_kernels. eapply hsafe_app; [apply hs_views3|]. cbv beta. intros m1 H1.
  assert (F1 : forall ix, mr m1 (EdgeField 2) ix = mr m (EdgeField 2) ix /\ mr m1 (CellField 5) ix = mr m (CellField 5) ix)
    by (intros; split; apply (proj1 H1); ni).
  apply views_mesh in H1; [|reflexivity|exact Hs].
  apply (hsafe_app D [_] [_] m1 (wrote [(EdgeField 6, v_n m0)] (d_nedges D) m1)); [now apply k_n|].
  intros m2 W2. assert (Hs2 : same_mesh m0 m2) by (eapply sm_trans; [exact H1|eapply wrote_mesh; [|exact W2]; reflexivity]).
  destruct W2 as (W2 & F2 & _). eapply hsafe_post; [apply k_curl; [exact Hs2|]|].
  - intros c Hc. apply (W2 _ (v_n m0) c); [inl|exact Hc].
  - intros M W3. split; [eapply sm_trans; [exact Hs2|eapply wrote_mesh; [|exact W3]; reflexivity]|]. split.
    + intros c Hc. apply (proj1 W3 _ (e_curl m0) c); [inl|exact Hc].
    + intros ix. rewrite !(proj1 (proj2 W3)) by ni. rewrite !F2 by ni. apply F1.
Qed.
Lemma reconstruction_hsafe m : same_mesh m0 m -> hsafe D (reconstruction_kernels cf h) m
  (fun M => same_mesh m0 M /\ (forall e, 0 <= e < d_nedges D -> mr M (EdgeField 11) [e] = e_recon m0 e) /\
    forall ix, mr M (EdgeField 2) ix = mr m (EdgeField 2) ix /\ mr M (CellField 5) ix = mr m (CellField 5) ix /\
      mr M (VertexField 8) ix = mr m (VertexField 8) ix).
Proof.
  intros Hs. unfold reconstruction_kernels. eapply hsafe_app; [apply hs_views3|]. cbv beta. intros m1 H1.
  assert (F1 : forall ix, mr m1 (EdgeField 2) ix = mr m (EdgeField 2) ix /\ mr m1 (CellField 5) ix = mr m (CellField 5) ix /\
    mr m1 (VertexField 8) ix = mr m (VertexField 8) ix) by (intros; repeat split; apply (proj1 H1); ni).
  apply views_mesh in H1; [|reflexivity|exact Hs].
  apply (hsafe_app D [_] [_] m1 (wrote [(EdgeField 9, v_n m0); (EdgeField 11, v_t m0)] (d_nedges D) m1)); [now apply k_nt|].
  intros m2 W2. assert (Hs2 : same_mesh m0 m2) by (eapply sm_trans; [exact H1|eapply wrote_mesh; [|exact W2]; reflexivity]).
  destruct W2 as (W2 & F2 & _). eapply hsafe_post; [apply k_recon; [exact Hs2| |]|].
  - intros c Hc. apply (W2 _ (v_n m0) c); [inl|exact Hc].
  - intros c Hc. apply (W2 _ (v_t m0) c); [inl|exact Hc].
  - intros M W3. split; [eapply sm_trans; [exact Hs2|eapply wrote_mesh; [|exact W3]; reflexivity]|]. split.
    + intros c Hc. apply (proj1 W3 _ (e_recon m0) c); [inl|exact Hc].
    + intros ix. rewrite !(proj1 (proj2 W3)) by ni. rewrite !F2 by ni. apply F1.
Qed.
Lemma kernels_hsafe m : same_mesh m0 m ->
  hsafe D (gradient_kernels cf h ++ divergence_kernels cf h ++ curl_kernels cf h ++ reconstruction_kernels cf h) m op_vals.
Proof.
  intros Hs. eapply hsafe_app; [now apply gradient_hsafe|]. cbv beta. intros m1 (S1 & E1).
  eapply hsafe_app; [now apply divergence_hsafe|]. cbv beta. intros m2 (S2 & E2 & F2).
  eapply hsafe_app; [now apply curl_hsafe|]. cbv beta. intros m3 (S3 & E3 & F3).
  eapply hsafe_post; [now apply reconstruction_hsafe|]. cbv beta. intros M (S4 & E4 & F4).
  split; [exact S4|]. repeat split; auto; intros.
  - rewrite (proj1 (F4 _)), (proj1 (F3 _)), F2. auto.
  - rewrite (proj1 (proj2 (F4 _))), (proj2 (F3 _)). auto.
  - rewrite (proj2 (proj2 (F4 _))). auto.
Qed.
End Kernels.

Lemma hex_wfm K m : hexmem h K m -> wfm D m.
Proof.
  intros Hh. destruct Hok as (Hx & Hy & _). constructor; cbn [dims_of d_ncells d_nedges d_nvertices].
  - intros c Hc. rewrite (hm_noc _ _ _ Hh) by assumption. lia.
  - intros c j Hc Hj. rewrite (hm_eoc _ _ _ Hh) by assumption. now apply hE_range.
  - intros c j Hc Hj. rewrite (hm_coe _ _ _ Hh) by assumption. apply hcoe_range; auto.
  - intros c j Hc Hj. rewrite (hm_voe _ _ _ Hh) by assumption. apply hvoe_range; auto.
  - intros e He. rewrite (hm_noe _ _ _ Hh) by assumption. lia.
  - intros e j He. rewrite (hm_noe _ _ _ Hh) by assumption. intros Hj. rewrite (hm_eoe _ _ _ Hh) by lia.
    apply heoe_range; auto; lia.
  - intros v j Hv Hj. rewrite (hm_eov _ _ _ Hh) by assumption. apply heov_range; auto.
  - intros v j Hv Hj. rewrite (hm_cov _ _ _ Hh) by assumption. apply hcov_range; auto.
Qed.

Definition op_post M : Prop := exists m0, hexmem h (d_nlayers D) m0 /\ op_vals m0 M.
Lemma op_hsafe : hsafe D (op_level cf h) (mzero A) op_post.
Proof.
  unfold op_level. eapply hsafe_app; [apply (mesh_ctor_hsafe cf h 0 Hok); apply meq_refl|]. cbv beta.
  intros m1 (Hm & _). eapply hsafe_post; [apply kernels_hsafe with (m0 := m1); [now apply hex_wfm with (d_nlayers D)|apply sm_refl]|].
  intros M HM. exists m1. split; assumption.
Qed.
End OpLevel.
