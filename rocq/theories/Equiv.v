(** Two configured models side by side, up to a renumbering of the cells, the edges, the vertices and
    the tracers: when does the second compute the renumbered values of the first?  Used for translations
    of the torus and for the independence of the dynamics and of each tracer from (other) tracers. *)
From Coq Require Import ZArith List Bool Lia.
From Verif Require Import Arith Arrays Prog Conc Launch Mesh AuxVars Tend Model Over Formulas KernBase Terms KernAux KernTend TendFn StepFn Rel.
Import ListNotations.
Open Scope Z_scope.

Definition hd1 (p : Z -> Z) (ix : list Z) : list Z := match ix with i :: r => p i :: r | [] => [] end.

(** Renumberings: of cells, edges, vertices and tracers. *)
Record renum := { pc : Z -> Z; pe : Z -> Z; pv : Z -> Z; pt : Z -> Z }.

(** The renumbered element of an array. *)
Definition rn (p : renum) (a : rarr) (ix : list Z) : list Z :=
  match a with
  | AreaCell | LatCell | LonCell | XCell | YCell | ZCell | MeshDensity | EdgeSignOnCell
  | HCell _ | KeCell | VelDivCell | VelDel2DivCell | CellField _ => hd1 (pc p) ix
  | DcEdge | DvEdge | AngleEdge | LatEdge | LonEdge | XEdge | YEdge | ZEdge | WeightsOnEdge | MeshScalingDel2
  | MeshScalingDel4 | EdgeMask | VnEdge _ | NormRvortEdge | NormPvortEdge | MeanHEdge | FluxHEdge | VelDel2Edge
  | FEdge | EdgeField _ => hd1 (pe p) ix
  | AreaTriangle | LatVertex | LonVertex | XVertex | YVertex | ZVertex | KiteareasOnVertex | EdgeSignOnVertex
  | RvortVertex | NormRvortVertex | NormPvortVertex | VelDel2RvortVertex | FVertex | VertexField _ => hd1 (pv p) ix
  | TrCell _ | NormTrCell | TracerDel2Cell =>
      match ix with l :: c :: r => pt p l :: pc p c :: r | _ => ix end
  end.

(** Mesh views read by the kernels (the hook also reads the positions). *)
Definition kmesh_arr (a : rarr) : bool :=
  match a with
  | AreaCell | EdgeSignOnCell | DcEdge | DvEdge | AngleEdge | WeightsOnEdge
  | MeshScalingDel2 | MeshScalingDel4 | EdgeMask | AreaTriangle | KiteareasOnVertex | EdgeSignOnVertex => true
  | _ => false
  end.

Section Equiv.
Context {A : Arith} (D1 D2 : dims) (p : renum).
Implicit Types (V : rarr -> Prop) (m : mem A) (s t : sid).
Local Notation pc := (pc p).
Local Notation pe := (pe p).
Local Notation pv := (pv p).
Local Notation pt := (pt p).

(** The sizes match. *)
Record psize : Prop := {
  ps_nc : d_ncells D2 = d_ncells D1; ps_ne : d_nedges D2 = d_nedges D1; ps_nv : d_nvertices D2 = d_nvertices D1;
  ps_nl : d_nlayers D2 = d_nlayers D1;
  ps_pc : forall c, 0 <= c < d_ncells D1 -> 0 <= pc c < d_ncells D1;
  ps_pe : forall e, 0 <= e < d_nedges D1 -> 0 <= pe e < d_nedges D1;
  ps_pv : forall v, 0 <= v < d_nvertices D1 -> 0 <= pv v < d_nvertices D1;
  ps_pt : forall l, 0 <= l < d_ntracers D1 -> 0 <= pt l < d_ntracers D2
}.

(** The renumbering preserves the connectivity, slot by slot. *)
Record eqi m1 m2 : Prop := {
  ei_noc : forall c, 0 <= c < d_ncells D1 -> mi m2 NedgesOnCell [pc c] = mi m1 NedgesOnCell [c];
  ei_noe : forall e, 0 <= e < d_nedges D1 -> mi m2 NedgesOnEdge [pe e] = mi m1 NedgesOnEdge [e];
  ei_eoc : forall c j, 0 <= c < d_ncells D1 -> 0 <= j < 6 -> pe (mi m1 EdgesOnCell [c; j]) = mi m2 EdgesOnCell [pc c; j];
  ei_coe : forall e j, 0 <= e < d_nedges D1 -> 0 <= j < 2 -> pc (mi m1 CellsOnEdge [e; j]) = mi m2 CellsOnEdge [pe e; j];
  ei_voe : forall e j, 0 <= e < d_nedges D1 -> 0 <= j < 2 -> pv (mi m1 VerticesOnEdge [e; j]) = mi m2 VerticesOnEdge [pe e; j];
  ei_eoe : forall e j, 0 <= e < d_nedges D1 -> 0 <= j < mi m1 NedgesOnEdge [e] -> pe (mi m1 EdgesOnEdge [e; j]) = mi m2 EdgesOnEdge [pe e; j];
  ei_eov : forall v j, 0 <= v < d_nvertices D1 -> 0 <= j < 3 -> pe (mi m1 EdgesOnVertex [v; j]) = mi m2 EdgesOnVertex [pv v; j];
  ei_cov : forall v j, 0 <= v < d_nvertices D1 -> 0 <= j < 3 -> pc (mi m1 CellsOnVertex [v; j]) = mi m2 CellsOnVertex [pv v; j]
}.

(** The arrays in [V] of the second memory are the renumbered ones of the first. *)
Definition eqv V m1 m2 : Prop :=
  eqi m1 m2 /\ (forall a ix, V a -> inb (rext D1 a) ix = true -> mr m1 a ix = mr m2 a (rn p a ix)).

Lemma eqv_weaken V V' m1 m2 : eqv V m1 m2 -> (forall a, V' a -> V a) -> eqv V' m1 m2.
Proof. intros [Hi Hr] H. split; auto. Qed.
Lemma eqi_same m1 m2 m1' m2' : (forall a ix, mi m1' a ix = mi m1 a ix) -> (forall a ix, mi m2' a ix = mi m2 a ix) ->
  eqi m1 m2 -> eqi m1' m2'.
Proof.
  intros E1 E2 [H1 H2 H3 H4 H5 H6 H7 H8]. constructor; intros *; rewrite ?E1, ?E2; auto.
Qed.
Lemma eqv_meq V m1 m2 m1' m2' : meq m1' m1 -> meq m2' m2 -> eqv V m1 m2 -> eqv V m1' m2'.
Proof.
  intros [E1 E1'] [E2 E2'] [Hi Hr]. split; [now apply (eqi_same m1 m2)|]. intros; rewrite E1', E2'; auto.
Qed.

Context (HS : psize).
Lemma rn_inb a ix : inb (rext D1 a) ix = true -> inb (rext D2 a) (rn p a ix) = true.
Proof.
  destruct HS as [N1 N2 N3 N4 P1 P2 P3 P4].
  destruct a; cbn [rext rn]; rewrite ?N1, ?N2, ?N3, ?N4;
  destruct ix as [|i [|j [|k [|z ix]]]]; cbn [hd1 inb]; try discriminate; rewrite ?andb_false_r; try discriminate;
  rewrite ?andb_true_r, !andb_true_iff, !Z.leb_le, !Z.ltb_lt; intuition auto;
  first [apply P1 | apply P2 | apply P3 | apply P4]; lia.
Qed.

Lemma eqv_over V V' m1 m2 T1 T2 :
  eqv V m1 m2 ->
  (forall a ix, V' a -> inb (rext D1 a) ix = true -> inb (rext D2 a) (rn p a ix) = true ->
     match T1 a ix, T2 a (rn p a ix) with
     | Some x, Some y => x = y
     | None, None => V a
     | _, _ => False
     end) ->
  eqv V' (over m1 T1) (over m2 T2).
Proof using HS.
  intros [Hi Hr] H. split; [apply (eqi_same m1 m2); try exact Hi; reflexivity|]. intros a ix HV I1. specialize (H a ix HV I1 (rn_inb a ix I1)).
  cbn. destruct (T1 a ix), (T2 a (rn p a ix)); try contradiction; auto.
Qed.

Lemma eqv_upd V a m1 m2 g1 g2 (ign : Prop) :
  eqv V m1 m2 -> ign \/ V a ->
  (forall ix x y, inb (rext D1 a) ix = true -> ign \/ x = y -> g1 ix x = g2 (rn p a ix) y) ->
  eqv (fun b => V b \/ b = a) (upd D1 a m1 g1) (upd D2 a m2 g2).
Proof using HS.
  intros Ha Hold Hg. apply eqv_over with V; [exact Ha|]. intros b ix HV I1 I2.
  destruct (rarr_eq_dec a b) as [<-|Hne'].
  - unfold ext. rewrite I1, I2. apply Hg; auto. destruct Hold; [now left|right]. now apply Ha; auto.
  - destruct HV; [assumption|congruence].
Qed.
(** An update of the second memory only. *)
Lemma eqv_right V a m1 m2 g2 : eqv V m1 m2 -> (V a -> forall ix, inb (rext D1 a) ix = false) -> eqv V m1 (upd D2 a m2 g2).
Proof using Type.
  intros [Hi Hr] Hn. split; [apply (eqi_same m1 m2); try exact Hi; reflexivity|].
  intros b ix HV I. cbn. destruct (rarr_eq_dec a b) as [<-|Hne]; [|now apply Hr]. rewrite (Hn HV) in I. discriminate.
Qed.

(** ** The formulas *)
Section Formula.
Set Default Proof Using "All".
Context V m1 m2 (Hm1 : wfm D1 m1) (Hag : eqv V m1 m2) (HV : forall a, kmesh_arr a = true -> V a).
Let Hei := proj1 Hag.

Lemma agr a ix : V a -> inb (rext D1 a) ix = true -> mr m1 a ix = mr m2 a (rn p a ix).
Proof. apply Hag. Qed.

Ltac inbs := first [apply inb1 | apply inb2 | apply inb3]; repeat split; first [assumption | lia].
Ltac vld1 := cbn [rext iext]; rng; inbs.
Ltac inv := first [assumption | apply HV; reflexivity].
Ltac cgr :=
  repeat match goal with
  | |- context [mr m1 ?a ?ix] => rewrite (agr a ix); [ | inv | vld1 ]; cbn [rn hd1]
  end.
Ltac side := rng; first [assumption | lia].
Ltac cgi :=
  repeat match goal with
  | |- context [pe (mi m1 EdgesOnCell [?c; ?j])] => rewrite (ei_eoc _ _ Hei c j) by side
  | |- context [pc (mi m1 CellsOnEdge [?c; ?j])] => rewrite (ei_coe _ _ Hei c j) by side
  | |- context [pv (mi m1 VerticesOnEdge [?c; ?j])] => rewrite (ei_voe _ _ Hei c j) by side
  | |- context [pe (mi m1 EdgesOnEdge [?c; ?j])] => rewrite (ei_eoe _ _ Hei c j) by side
  | |- context [pe (mi m1 EdgesOnVertex [?c; ?j])] => rewrite (ei_eov _ _ Hei c j) by side
  | |- context [pc (mi m1 CellsOnVertex [?c; ?j])] => rewrite (ei_cov _ _ Hei c j) by side
  end.
Ltac cg := cbv zeta; cgr; cgi; try reflexivity.

Lemma c_ke s c k : V (VnEdge s) -> 0 <= c < d_ncells D1 -> 0 <= k < d_nlayers D1 -> f_ke m1 s c k = f_ke m2 s (pc c) k.
Proof.
  intros Hv Hc Hk. pose proof (wf_noc D1 m1 Hm1 c Hc). unfold f_ke. rewrite (ei_noc _ _ Hei c Hc).
  apply iterZ_ext. intros j x Hj. unfold s_ke. cg.
Qed.
Lemma c_div s c k : V (VnEdge s) -> 0 <= c < d_ncells D1 -> 0 <= k < d_nlayers D1 -> f_div m1 s c k = f_div m2 s (pc c) k.
Proof.
  intros Hv Hc Hk. pose proof (wf_noc D1 m1 Hm1 c Hc). unfold f_div. rewrite (ei_noc _ _ Hei c Hc).
  apply iterZ_ext. intros j x Hj. unfold s_div. cg.
Qed.
Lemma c_mean s e k : V (HCell s) -> 0 <= e < d_nedges D1 -> 0 <= k < d_nlayers D1 -> f_mean m1 s e k = f_mean m2 s (pe e) k.
Proof. intros Hv Hc Hk. unfold f_mean. cg. Qed.
Lemma c_ntr s l c k : V (HCell s) -> V (TrCell s) -> 0 <= l < d_ntracers D1 -> 0 <= c < d_ncells D1 -> 0 <= k < d_nlayers D1 ->
  f_ntr m1 s l c k = f_ntr m2 s (pt l) (pc c) k.
Proof. intros Hv Ht Hl Hc Hk. unfold f_ntr. cg. Qed.
Lemma c_rvort s v k : V (VnEdge s) -> 0 <= v < d_nvertices D1 -> 0 <= k < d_nlayers D1 -> f_rvort m1 s v k = f_rvort m2 s (pv v) k.
Proof. intros Hv Hc Hk. unfold f_rvort. apply iterZ_ext. intros j x Hj. unfold s_rvort. cg. Qed.
Lemma c_hvert s v k : V (HCell s) -> 0 <= v < d_nvertices D1 -> 0 <= k < d_nlayers D1 -> f_hvert m1 s v k = f_hvert m2 s (pv v) k.
Proof. intros Hv Hc Hk. unfold f_hvert. apply iterZ_ext. intros j x Hj. unfold s_hvert. cg. Qed.
Lemma c_nrv sd s v k : V (HCell s) -> V (VnEdge s) -> 0 <= v < d_nvertices D1 -> 0 <= k < d_nlayers D1 ->
  f_nrv m1 sd s v k = f_nrv m2 sd s (pv v) k.
Proof.
  intros Hh Hv Hc Hk. unfold f_nrv. now rewrite c_rvort, c_hvert by assumption.
Qed.
Lemma c_npv s v k : V (HCell s) -> V FVertex -> 0 <= v < d_nvertices D1 -> 0 <= k < d_nlayers D1 ->
  f_npv m1 s v k = f_npv m2 s (pv v) k.
Proof. intros Hh Hf Hc Hk. unfold f_npv. rewrite c_hvert by assumption. cg. Qed.
Lemma c_nre e k : V NormRvortVertex -> 0 <= e < d_nedges D1 -> 0 <= k < d_nlayers D1 -> f_nre m1 e k = f_nre m2 (pe e) k.
Proof. intros Hv Hc Hk. unfold f_nre. cg. Qed.
Lemma c_npe e k : V NormPvortVertex -> 0 <= e < d_nedges D1 -> 0 <= k < d_nlayers D1 -> f_npe m1 e k = f_npe m2 (pe e) k.
Proof. intros Hv Hc Hk. unfold f_npe. cg. Qed.
Lemma c_hadv s c k x : V (VnEdge s) -> V FluxHEdge -> 0 <= c < d_ncells D1 -> 0 <= k < d_nlayers D1 ->
  t_hadv m1 s c k x = t_hadv m2 s (pc c) k x.
Proof.
  intros Hv Hf Hc Hk. pose proof (wf_noc D1 m1 Hm1 c Hc). unfold t_hadv. rewrite (ei_noc _ _ Hei c Hc).
  f_equal. apply iterZ_ext. intros j y Hj. unfold s_hadv. cg.
Qed.
Lemma c_pv sd s e k x : 
  V (VnEdge s) -> V FluxHEdge -> V NormRvortEdge -> V NormPvortEdge -> 0 <= e < d_nedges D1 -> 0 <= k < d_nlayers D1 ->
  t_pv m1 sd s e k x = t_pv m2 sd s (pe e) k x.
Proof.
  intros Hv Hf Hr Hp Hc Hk. pose proof (wf_noe D1 m1 Hm1 e Hc).
  unfold t_pv. rewrite (ei_noe _ _ Hei e Hc).
  f_equal. apply iterZ_ext. intros j y Hj.
  unfold s_pv. cbv zeta. cg.
Qed.
Lemma c_kegrad e k x : V KeCell -> 0 <= e < d_nedges D1 -> 0 <= k < d_nlayers D1 -> t_kegrad m1 e k x = t_kegrad m2 (pe e) k x.
Proof. intros Hv Hc Hk. unfold t_kegrad. cg. Qed.
Lemma c_sshgrad g s e k x : V (HCell s) -> 0 <= e < d_nedges D1 -> 0 <= k < d_nlayers D1 ->
  t_sshgrad m1 g s e k x = t_sshgrad m2 g s (pe e) k x.
Proof. intros Hv Hc Hk. unfold t_sshgrad. cg. Qed.
Lemma c_vdiff sd nu e k x : 
  V VelDivCell -> V RvortVertex -> 0 <= e < d_nedges D1 -> 0 <= k < d_nlayers D1 ->
  t_vdiff m1 sd nu e k x = t_vdiff m2 sd nu (pe e) k x.
Proof.
  intros Hv Hr Hc Hk. unfold t_vdiff. cg.
Qed.
Lemma c_del2 e k : V VelDivCell -> V RvortVertex -> 0 <= e < d_nedges D1 -> 0 <= k < d_nlayers D1 -> f_del2 m1 e k = f_del2 m2 (pe e) k.
Proof. intros Hv Hr Hc Hk. unfold f_del2. cg. Qed.
Lemma c_del2r v k : V VelDel2Edge -> 0 <= v < d_nvertices D1 -> 0 <= k < d_nlayers D1 -> f_del2r m1 v k = f_del2r m2 (pv v) k.
Proof. intros Hv Hc Hk. unfold f_del2r. apply iterZ_ext. intros j x Hj. unfold s_del2r. cg. Qed.
Lemma c_del2d c k : V VelDel2Edge -> 0 <= c < d_ncells D1 -> 0 <= k < d_nlayers D1 -> f_del2d m1 c k = f_del2d m2 (pc c) k.
Proof.
  intros Hv Hc Hk. pose proof (wf_noc D1 m1 Hm1 c Hc). unfold f_del2d. rewrite (ei_noc _ _ Hei c Hc).
  apply iterZ_ext. intros j x Hj. unfold s_del2d. cg.
Qed.
Lemma c_vhyp nu e k x : V VelDel2DivCell -> V VelDel2RvortVertex -> 0 <= e < d_nedges D1 -> 0 <= k < d_nlayers D1 ->
  t_vhyp m1 nu e k x = t_vhyp m2 nu (pe e) k x.
Proof. intros Hv Hr Hc Hk. unfold t_vhyp. cg. Qed.
Lemma c_trhadv sd s l c k x : 
  V (VnEdge s) -> V MeanHEdge -> V NormTrCell -> 0 <= l < d_ntracers D1 -> 0 <= c < d_ncells D1 -> 0 <= k < d_nlayers D1 ->
  t_trhadv m1 sd MeanHEdge s l c k x = t_trhadv m2 sd MeanHEdge s (pt l) (pc c) k x.
Proof.
  intros Hv Hf Ht Hl Hc Hk. pose proof (wf_noc D1 m1 Hm1 c Hc).
  unfold t_trhadv. rewrite (ei_noc _ _ Hei c Hc).
  f_equal. apply iterZ_ext. intros j y Hj. unfold s_trhadv. cg.
Qed.
Lemma c_trdiff sd kap l c k x : 
  V FluxHEdge -> V NormTrCell -> 0 <= l < d_ntracers D1 -> 0 <= c < d_ncells D1 -> 0 <= k < d_nlayers D1 ->
  t_trdiff m1 sd kap FluxHEdge l c k x = t_trdiff m2 sd kap FluxHEdge (pt l) (pc c) k x.
Proof.
  intros Hf Ht Hl Hc Hk. pose proof (wf_noc D1 m1 Hm1 c Hc).
  unfold t_trdiff. rewrite (ei_noc _ _ Hei c Hc).
  f_equal. apply iterZ_ext. intros j y Hj. unfold s_trdiff. cg.
Qed.
Lemma c_trdel2 l c k : V FluxHEdge -> V NormTrCell -> 0 <= l < d_ntracers D1 -> 0 <= c < d_ncells D1 -> 0 <= k < d_nlayers D1 ->
  f_trdel2 m1 FluxHEdge l c k = f_trdel2 m2 FluxHEdge (pt l) (pc c) k.
Proof.
  intros Hf Ht Hl Hc Hk. pose proof (wf_noc D1 m1 Hm1 c Hc).
  unfold f_trdel2. rewrite (ei_noc _ _ Hei c Hc).
  apply iterZ_ext. intros j y Hj. unfold s_trdel2. cg.
Qed.
Lemma c_trhyp kap l c k x : V TracerDel2Cell -> 0 <= l < d_ntracers D1 -> 0 <= c < d_ncells D1 -> 0 <= k < d_nlayers D1 ->
  t_trhyp m1 kap l c k x = t_trhyp m2 kap (pt l) (pc c) k x.
Proof.
  intros Ht Hl Hc Hk. pose proof (wf_noc D1 m1 Hm1 c Hc).
  unfold t_trhyp. rewrite (ei_noc _ _ Hei c Hc).
  f_equal. apply iterZ_ext. intros j y Hj. unfold s_trhyp. cg.
Qed.
Unset Default Proof Using.
End Formula.
End Equiv.
