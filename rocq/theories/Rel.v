(** Two configured models side by side: when do they compute the same values in a set [K] of layers?
    Used for independence of the vector length, of the launch structure, of other layers, of
    leftovers in work arrays and of parameters that are not used. *)
From Coq Require Import ZArith List Bool Lia.
From Verif Require Import Arith Arrays Prog Conc Launch Mesh AuxVars Tend Model Over Formulas KernBase Terms KernAux KernTend TendFn StepFn.
Import ListNotations.
Open Scope Z_scope.

(** Arrays with a layer index. *)
Definition layered (a : rarr) : bool :=
  match a with
  | EdgeMask | HCell _ | VnEdge _ | TrCell _ | RvortVertex | NormRvortVertex | NormPvortVertex | NormRvortEdge
  | NormPvortEdge | KeCell | VelDivCell | MeanHEdge | FluxHEdge | NormTrCell | VelDel2Edge | VelDel2RvortVertex
  | VelDel2DivCell | TracerDel2Cell => true
  | _ => false
  end.
Definition inK (K : Z -> Prop) (a : rarr) (ix : list Z) : Prop :=
  if layered a then match ix with [_; k] => K k | [_; _; k] => K k | _ => False end else True.

(** Mesh views read by the tendencies. *)
Definition mesh_arr (a : rarr) : bool :=
  match a with
  | AreaCell | XCell | YCell | EdgeSignOnCell | DcEdge | DvEdge | AngleEdge | XEdge | YEdge | WeightsOnEdge
  | MeshScalingDel2 | MeshScalingDel4 | EdgeMask | AreaTriangle | KiteareasOnVertex | EdgeSignOnVertex => true
  | _ => false
  end.
Definition mesh_iarr (a : iarr) : bool :=
  match a with
  | NedgesOnCell | EdgesOnCell | NedgesOnEdge | EdgesOnEdge | CellsOnEdge | VerticesOnEdge | EdgesOnVertex
  | CellsOnVertex => true
  | _ => false
  end.

Definition mul_AC (A : Arith) : Prop :=
  (forall x y : F A, (x * y)%fp = (y * x)%fp) /\ (forall x y z : F A, (x * (y * z))%fp = (x * y * z)%fp).

Lemma mul_swap (A : Arith) (x y z : F A) : mul_AC A -> (x * y * z)%fp = (x * z * y)%fp.
Proof. intros [Hc Ha]. rewrite <- 2!Ha. f_equal. apply Hc. Qed.

Section Rel.
Context {A : Arith} (D1 D2 : dims) (K : Z -> Prop).
Context (Hnc : d_ncells D2 = d_ncells D1) (Hne : d_nedges D2 = d_nedges D1) (Hnv : d_nvertices D2 = d_nvertices D1)
  (Hnt : d_ntracers D2 = d_ntracers D1).
Context (HK1 : forall k, K k -> 0 <= k < d_nlayers D1) (HK2 : forall k, K k -> 0 <= k < d_nlayers D2).
Implicit Types (V : rarr -> Prop) (m : mem A) (s t : sid).

Definition agree V m1 m2 : Prop :=
  (forall a ix, mesh_iarr a = true -> inb (iext D1 a) ix = true -> mi m1 a ix = mi m2 a ix) /\
  (forall a ix, V a -> inb (rext D1 a) ix = true -> inb (rext D2 a) ix = true -> inK K a ix ->
     mr m1 a ix = mr m2 a ix).

Lemma agree_weaken V V' m1 m2 : agree V m1 m2 -> (forall a, V' a -> V a) -> agree V' m1 m2.
Proof. intros [Hi Hr] H. split; auto. Qed.
Lemma agree_meq V m1 m2 m1' m2' : meq m1' m1 -> meq m2' m2 -> agree V m1 m2 -> agree V m1' m2'.
Proof.
  intros [E1 E1'] [E2 E2'] [Hi Hr]. split; intros; [rewrite E1, E2|rewrite E1', E2']; auto.
Qed.
Lemma agree_wfm V m1 m2 : agree V m1 m2 -> wfm D1 m1 -> wfm D1 m2.
Proof.
  intros [Hi _] [H1 H2 H3 H4 H5 H6 H7 H8]. constructor.
  - intros; rewrite <- Hi by (reflexivity || apply inb1; lia); auto.
  - intros; rewrite <- Hi by (reflexivity || apply inb2; lia); auto.
  - intros; rewrite <- Hi by (reflexivity || apply inb2; lia); auto.
  - intros; rewrite <- Hi by (reflexivity || apply inb2; lia); auto.
  - intros; rewrite <- Hi by (reflexivity || apply inb1; lia); auto.
  - intros e j He. rewrite <- Hi by (reflexivity || apply inb1; lia). intros Hj. pose proof (H5 e He).
    rewrite <- Hi by (reflexivity || apply inb2; lia). auto.
  - intros; rewrite <- Hi by (reflexivity || apply inb2; lia); auto.
  - intros; rewrite <- Hi by (reflexivity || apply inb2; lia); auto.
Qed.

(** Updates. *)
Lemma agree_over V V' m1 m2 T1 T2 :
  agree V m1 m2 ->
  (forall a ix, V' a -> inb (rext D1 a) ix = true -> inb (rext D2 a) ix = true -> inK K a ix ->
     match T1 a ix, T2 a ix with
     | Some x, Some y => x = y
     | None, None => V a
     | _, _ => False
     end) ->
  agree V' (over m1 T1) (over m2 T2).
Proof.
  intros [Hi Hr] H. split; [exact Hi|]. intros a ix HV I1 I2 IK. specialize (H a ix HV I1 I2 IK).
  cbn. destruct (T1 a ix), (T2 a ix); try contradiction; auto.
Qed.

Lemma agree_upd V a m1 m2 g1 g2 (ign : Prop) :
  agree V m1 m2 -> ign \/ V a ->
  (forall ix x y, inb (rext D1 a) ix = true -> inb (rext D2 a) ix = true -> inK K a ix ->
     ign \/ x = y -> g1 ix x = g2 ix y) ->
  agree (fun b => V b \/ b = a) (upd D1 a m1 g1) (upd D2 a m2 g2).
Proof.
  intros Ha Hold Hg. apply agree_over with V; [exact Ha|]. intros b ix HV I1 I2 IK.
  destruct (rarr_eq_dec a b) as [<-|Hne'].
  - unfold ext. rewrite I1, I2. apply Hg; auto. destruct Hold; [now left|right]. now apply Ha; auto.
  - destruct HV; [assumption|congruence].
Qed.

(** ** The formulas *)
Section Formula.
Set Default Proof Using "All".
Context V m1 m2 (Hm1 : wfm D1 m1) (Hm2 : wfm D1 m2) (Hag : agree V m1 m2) (HV : forall a, mesh_arr a = true -> V a).

Lemma agi a ix : mesh_iarr a = true -> inb (iext D1 a) ix = true -> mi m1 a ix = mi m2 a ix.
Proof. apply Hag. Qed.
Lemma agr a ix : V a -> inb (rext D1 a) ix = true -> inb (rext D2 a) ix = true -> inK K a ix -> mr m1 a ix = mr m2 a ix.
Proof. apply Hag. Qed.

Ltac inbs := first [apply inb1 | apply inb2 | apply inb3]; repeat split; first [assumption | lia].
Ltac vld1 := cbn [rext iext]; rng; inbs.
Ltac vld2 := cbn [rext iext]; rewrite ?Hnc, ?Hne, ?Hnv, ?Hnt; rng; inbs.
Ltac inv := first [assumption | apply HV; reflexivity].
Ltac cgr :=
  repeat match goal with
  | |- context [mr m1 ?a ?ix] => rewrite (agr a ix); [ | inv | vld1 | vld2 | first [assumption | exact I] ]
  end.
Ltac cgi :=
  repeat match goal with
  | |- context [mi m1 ?a ?ix] => rewrite (agi a ix); [ | reflexivity | vld1 ]
  end.
Ltac cg := cbv zeta; cgr; cgi; try reflexivity.
(** Start: [k] is a layer of [K]. *)
Ltac st Hk := pose proof (HK1 _ Hk); pose proof (HK2 _ Hk).

Lemma c_ke s c k : V (VnEdge s) -> 0 <= c < d_ncells D1 -> K k -> f_ke m1 s c k = f_ke m2 s c k.
Proof.
  intros Hv Hc Hk. st Hk. pose proof (wf_noc D1 m1 Hm1 c Hc). unfold f_ke. rewrite <- (agi NedgesOnCell) by (reflexivity || vld1).
  apply iterZ_ext. intros j x Hj. unfold s_ke. cg.
Qed.
Lemma c_div s c k : V (VnEdge s) -> 0 <= c < d_ncells D1 -> K k -> f_div m1 s c k = f_div m2 s c k.
Proof.
  intros Hv Hc Hk. st Hk. pose proof (wf_noc D1 m1 Hm1 c Hc). unfold f_div. rewrite <- (agi NedgesOnCell) by (reflexivity || vld1).
  apply iterZ_ext. intros j x Hj. unfold s_div. cg.
Qed.
Lemma c_mean s e k : V (HCell s) -> 0 <= e < d_nedges D1 -> K k -> f_mean m1 s e k = f_mean m2 s e k.
Proof. intros Hv Hc Hk. st Hk. unfold f_mean. cg. Qed.
Lemma c_ntr s l c k : V (HCell s) -> V (TrCell s) -> 0 <= l < d_ntracers D1 -> 0 <= c < d_ncells D1 -> K k ->
  f_ntr m1 s l c k = f_ntr m2 s l c k.
Proof. intros Hv Ht Hl Hc Hk. st Hk. unfold f_ntr. cg. Qed.
Lemma c_rvort s v k : V (VnEdge s) -> 0 <= v < d_nvertices D1 -> K k -> f_rvort m1 s v k = f_rvort m2 s v k.
Proof. intros Hv Hc Hk. st Hk. unfold f_rvort. apply iterZ_ext. intros j x Hj. unfold s_rvort. cg. Qed.
Lemma c_hvert s v k : V (HCell s) -> 0 <= v < d_nvertices D1 -> K k -> f_hvert m1 s v k = f_hvert m2 s v k.
Proof. intros Hv Hc Hk. st Hk. unfold f_hvert. apply iterZ_ext. intros j x Hj. unfold s_hvert. cg. Qed.
Lemma c_nrv sd1 sd2 s v k : sd1 = sd2 \/ mul_AC A -> V (HCell s) -> V (VnEdge s) -> 0 <= v < d_nvertices D1 -> K k ->
  f_nrv m1 sd1 s v k = f_nrv m2 sd2 s v k.
Proof.
  intros Hsd Hh Hv Hc Hk. unfold f_nrv. rewrite c_rvort, c_hvert by assumption.
  destruct Hsd as [->|[Hc' _]]; [reflexivity|]. destruct sd1, sd2; auto.
Qed.
Lemma c_npv s v k : V (HCell s) -> V FVertex -> 0 <= v < d_nvertices D1 -> K k ->
  f_npv m1 s v k = f_npv m2 s v k.
Proof. intros Hh Hf Hc Hk. st Hk. unfold f_npv. rewrite c_hvert by assumption. cg. Qed.
Lemma c_nre e k : V NormRvortVertex -> 0 <= e < d_nedges D1 -> K k -> f_nre m1 e k = f_nre m2 e k.
Proof. intros Hv Hc Hk. st Hk. unfold f_nre. cg. Qed.
Lemma c_npe e k : V NormPvortVertex -> 0 <= e < d_nedges D1 -> K k -> f_npe m1 e k = f_npe m2 e k.
Proof. intros Hv Hc Hk. st Hk. unfold f_npe. cg. Qed.
Lemma c_hadv s c k x : V (VnEdge s) -> V FluxHEdge -> 0 <= c < d_ncells D1 -> K k ->
  t_hadv m1 s c k x = t_hadv m2 s c k x.
Proof.
  intros Hv Hf Hc Hk. st Hk. pose proof (wf_noc D1 m1 Hm1 c Hc). unfold t_hadv. rewrite <- (agi NedgesOnCell) by (reflexivity || vld1).
  f_equal. apply iterZ_ext. intros j y Hj. unfold s_hadv. cg.
Qed.
Lemma c_pv sd1 sd2 s e k x : sd1 = sd2 \/ mul_AC A ->
  V (VnEdge s) -> V FluxHEdge -> V NormRvortEdge -> V NormPvortEdge -> 0 <= e < d_nedges D1 -> K k ->
  t_pv m1 sd1 s e k x = t_pv m2 sd2 s e k x.
Proof.
  intros Hsd Hv Hf Hr Hp Hc Hk. st Hk. pose proof (wf_noe D1 m1 Hm1 e Hc). pose proof (wf_noe D1 m2 Hm2 e Hc).
  unfold t_pv. rewrite <- (agi NedgesOnEdge) by (reflexivity || vld1).
  f_equal. apply iterZ_ext. intros j y Hj.
  assert (0 <= j < mi m2 NedgesOnEdge [e]) by (rewrite <- (agi NedgesOnEdge) by (reflexivity || vld1); lia).
  unfold s_pv. cbv zeta. cgr. cgi. do 2 f_equal.
  destruct Hsd as [->|[Hc' _]]; [reflexivity|]. destruct sd1, sd2; auto.
Qed.
Lemma c_kegrad e k x : V KeCell -> 0 <= e < d_nedges D1 -> K k -> t_kegrad m1 e k x = t_kegrad m2 e k x.
Proof. intros Hv Hc Hk. st Hk. unfold t_kegrad. cg. Qed.
Lemma c_sshgrad g s e k x : V (HCell s) -> 0 <= e < d_nedges D1 -> K k ->
  t_sshgrad m1 g s e k x = t_sshgrad m2 g s e k x.
Proof. intros Hv Hc Hk. st Hk. unfold t_sshgrad. cg. Qed.
Lemma c_vdiff sd1 sd2 nu e k x : sd1 = sd2 \/ mul_AC A ->
  V VelDivCell -> V RvortVertex -> 0 <= e < d_nedges D1 -> K k ->
  t_vdiff m1 sd1 nu e k x = t_vdiff m2 sd2 nu e k x.
Proof.
  intros Hsd Hv Hr Hc Hk. st Hk. unfold t_vdiff. cg.
  destruct Hsd as [->|[Hc' Ha]]; [reflexivity|].
  destruct sd1, sd2; try reflexivity; do 2 f_equal; rewrite <- (Ha (mr m2 EdgeMask _)); apply Hc'.
Qed.
Lemma c_del2 e k : V VelDivCell -> V RvortVertex -> 0 <= e < d_nedges D1 -> K k -> f_del2 m1 e k = f_del2 m2 e k.
Proof. intros Hv Hr Hc Hk. st Hk. unfold f_del2. cg. Qed.
Lemma c_del2r v k : V VelDel2Edge -> 0 <= v < d_nvertices D1 -> K k -> f_del2r m1 v k = f_del2r m2 v k.
Proof. intros Hv Hc Hk. st Hk. unfold f_del2r. apply iterZ_ext. intros j x Hj. unfold s_del2r. cg. Qed.
Lemma c_del2d c k : V VelDel2Edge -> 0 <= c < d_ncells D1 -> K k -> f_del2d m1 c k = f_del2d m2 c k.
Proof.
  intros Hv Hc Hk. st Hk. pose proof (wf_noc D1 m1 Hm1 c Hc). unfold f_del2d. rewrite <- (agi NedgesOnCell) by (reflexivity || vld1).
  apply iterZ_ext. intros j x Hj. unfold s_del2d. cg.
Qed.
Lemma c_vhyp nu e k x : V VelDel2DivCell -> V VelDel2RvortVertex -> 0 <= e < d_nedges D1 -> K k ->
  t_vhyp m1 nu e k x = t_vhyp m2 nu e k x.
Proof. intros Hv Hr Hc Hk. st Hk. unfold t_vhyp. cg. Qed.
Lemma c_trhadv sd1 sd2 s l c k x : sd1 = sd2 \/ mul_AC A ->
  V (VnEdge s) -> V MeanHEdge -> V NormTrCell -> 0 <= l < d_ntracers D1 -> 0 <= c < d_ncells D1 -> K k ->
  t_trhadv m1 sd1 MeanHEdge s l c k x = t_trhadv m2 sd2 MeanHEdge s l c k x.
Proof.
  intros Hsd Hv Hf Ht Hl Hc Hk. st Hk. pose proof (wf_noc D1 m1 Hm1 c Hc).
  unfold t_trhadv. rewrite <- (agi NedgesOnCell) by (reflexivity || vld1).
  f_equal. apply iterZ_ext. intros j y Hj. unfold s_trhadv. cg. do 3 f_equal.
  destruct Hsd as [->|[Hc' _]]; [reflexivity|]. destruct sd1, sd2; auto.
Qed.
Lemma c_trdiff sd1 sd2 kap l c k x : sd1 = sd2 \/ mul_AC A ->
  V FluxHEdge -> V NormTrCell -> 0 <= l < d_ntracers D1 -> 0 <= c < d_ncells D1 -> K k ->
  t_trdiff m1 sd1 kap FluxHEdge l c k x = t_trdiff m2 sd2 kap FluxHEdge l c k x.
Proof.
  intros Hsd Hf Ht Hl Hc Hk. st Hk. pose proof (wf_noc D1 m1 Hm1 c Hc).
  unfold t_trdiff. rewrite <- (agi NedgesOnCell) by (reflexivity || vld1).
  f_equal. apply iterZ_ext. intros j y Hj. unfold s_trdiff. cg.
  destruct Hsd as [->|[Hc' Ha]]; [reflexivity|].
  destruct sd1, sd2; try reflexivity; do 2 f_equal; apply mul_swap; split; assumption.
Qed.
Lemma c_trdel2 l c k : V FluxHEdge -> V NormTrCell -> 0 <= l < d_ntracers D1 -> 0 <= c < d_ncells D1 -> K k ->
  f_trdel2 m1 FluxHEdge l c k = f_trdel2 m2 FluxHEdge l c k.
Proof.
  intros Hf Ht Hl Hc Hk. st Hk. pose proof (wf_noc D1 m1 Hm1 c Hc).
  unfold f_trdel2. rewrite <- (agi NedgesOnCell) by (reflexivity || vld1).
  apply iterZ_ext. intros j y Hj. unfold s_trdel2. cg.
Qed.
Lemma c_trhyp kap l c k x : V TracerDel2Cell -> 0 <= l < d_ntracers D1 -> 0 <= c < d_ncells D1 -> K k ->
  t_trhyp m1 kap l c k x = t_trhyp m2 kap l c k x.
Proof.
  intros Ht Hl Hc Hk. st Hk. pose proof (wf_noc D1 m1 Hm1 c Hc).
  unfold t_trhyp. rewrite <- (agi NedgesOnCell) by (reflexivity || vld1).
  f_equal. apply iterZ_ext. intros j y Hj. unfold s_trhyp. cg.
Qed.
Unset Default Proof Using.
End Formula.
End Rel.

(** ** Whole computations *)
(** Two hooks with the same values at the times in [Ht]. *)
Definition hook_eq {A} (Ht : F A -> Prop) (o1 o2 : option (forcing A)) : Prop :=
  match o1, o2 with
  | None, None => True
  | Some f, Some g => forall x y t, Ht t -> force_h f x y t = force_h g x y t /\
      force_vx f x y t = force_vx g x y t /\ force_vy f x y t = force_vy g x y t
  | _, _ => False
  end.
Record rel_ok {A : Arith} (S1 S2 : setup A) (K : Z -> Prop) (Ht : F A -> Prop) : Prop := {
  ro_nc : d_ncells (sdims S2) = d_ncells (sdims S1);
  ro_ne : d_nedges (sdims S2) = d_nedges (sdims S1);
  ro_nv : d_nvertices (sdims S2) = d_nvertices (sdims S1);
  ro_nt : ntracers (par_of S2) = ntracers (par_of S1);
  ro_K1 : forall k, K k -> 0 <= k < d_nlayers (sdims S1);
  ro_K2 : forall k, K k -> 0 <= k < d_nlayers (sdims S2);
  ro_dh : disable_h (par_of S2) = disable_h (par_of S1);
  ro_dv : disable_vn (par_of S2) = disable_vn (par_of S1);
  ro_hook : hook_eq Ht (hook S1) (hook S2);
  ro_sd : ksimd (cfg_of S1) = ksimd (cfg_of S2) \/ mul_AC A;
  ro_grav : disable_vn (par_of S1) = false -> grav (par_of S1) = grav (par_of S2);
  ro_vd : disable_vn (par_of S1) = false -> vel_diff_enabled (par_of S1) = vel_diff_enabled (par_of S2) /\
    (vel_diff_enabled (par_of S1) = true -> visc_del2 (par_of S1) = visc_del2 (par_of S2));
  ro_vh : disable_vn (par_of S1) = false -> vel_hyperdiff_enabled (par_of S1) = vel_hyperdiff_enabled (par_of S2) /\
    (vel_hyperdiff_enabled (par_of S1) = true -> visc_del4 (par_of S1) = visc_del4 (par_of S2) /\
       forall k, K k -> K (rv_layer (cfg_of S1) k) /\ rv_layer (cfg_of S1) k = rv_layer (cfg_of S2) k);
  ro_td : 0 < ntracers (par_of S1) -> tracer_diff_enabled (par_of S1) = tracer_diff_enabled (par_of S2) /\
    (tracer_diff_enabled (par_of S1) = true -> eddy_diff2 (par_of S1) = eddy_diff2 (par_of S2));
  ro_th : 0 < ntracers (par_of S1) -> tracer_hyperdiff_enabled (par_of S1) = tracer_hyperdiff_enabled (par_of S2) /\
    (tracer_hyperdiff_enabled (par_of S1) = true -> eddy_diff4 (par_of S1) = eddy_diff4 (par_of S2))
}.

Section RelStep.
Context {A : Arith} (S1 S2 : setup A) (K : Z -> Prop) (Ht : F A -> Prop) (HR : rel_ok S1 S2 K Ht).
Local Notation D1 := (sdims S1).
Local Notation D2 := (sdims S2).
Local Notation P1 := (par_of S1).
Local Notation P2 := (par_of S2).
Local Notation cf1 := (cfg_of S1).
Local Notation cf2 := (cfg_of S2).
Implicit Types (V : rarr -> Prop) (m : mem A) (s t : sid).
Let Hnc := ro_nc _ _ _ _ HR.
Let Hne := ro_ne _ _ _ _ HR.
Let Hnv := ro_nv _ _ _ _ HR.
Let Hnt : d_ntracers D2 = d_ntracers D1 := ro_nt _ _ _ _ HR.
Let HK1 := ro_K1 _ _ _ _ HR.
Let HK2 := ro_K2 _ _ _ _ HR.
Let Hsd := ro_sd _ _ _ _ HR.
Local Notation ag := (agree D1 D2 K).

Definition meshV V : Prop := forall a, mesh_arr a = true -> V a.

(** Arrays known to agree after the auxiliary variables have been computed. *)
Definition auxV V (a : rarr) : Prop :=
  match a with
  | RvortVertex | NormRvortVertex | NormRvortEdge | KeCell | VelDivCell | MeanHEdge | FluxHEdge | NormTrCell => True
  | NormPvortVertex | NormPvortEdge => V FVertex
  | _ => V a
  end.

Ltac dix := intros [|?i [|?k [|?z ?ix]]] || intros [|?l [|?i [|?k [|?z ?ix]]]].
Ltac bad H := cbn in H; rewrite ?andb_false_r in H; discriminate.

Ltac fm := lazymatch goal with |- ag _ _ _ => eassumption | _ => first [eassumption | tauto] end.
Lemma r_aux V s m1 m2 :
  wfm D1 m1 -> ag V m1 m2 -> meshV V -> V (HCell s) -> V (VnEdge s) -> V (TrCell s) \/ ntracers P1 <= 0 ->
  ag (auxV V) (aux_fn cf1 D1 s m1) (aux_fn cf2 D2 s m2).
Proof.
  intros Hw1 Ha HV Hh Hv Htr. pose proof (agree_wfm _ _ _ _ _ _ Ha Hw1) as Hw2. unfold aux_fn. cbv zeta.
  (* vertices *)
  assert (A1 : ag (fun a => match a with RvortVertex | NormRvortVertex => True | NormPvortVertex => V FVertex | _ => V a end)
    (over m1 (lT2 D1 (S_va cf1 m1 s))) (over m2 (lT2 D2 (S_va cf2 m2 s)))).
  { eapply agree_over; [exact Ha|]. intros a ix Hva I1 I2 IK. unfold lT2.
    destruct a; cbn [S_va]; try exact Hva; destruct ix as [|v [|k [|z ix]]]; try bad I1; rewrite I1, I2;
      apply inb2 in I1; cbn in IK.
    - eapply c_rvort; fm.
    - eapply c_nrv; fm.
    - eapply c_npv; fm. }
  set (n1 := over m1 _) in A1 |- *. set (n2 := over m2 _) in A1 |- *.
  assert (W1 : wfm D1 n1) by now apply wfm_over. assert (W2 : wfm D1 n2) by now apply wfm_over.
  clearbody n1 n2. set (V1 := fun a => _) in A1.
  assert (HV1 : meshV V1) by (intros a Hm; specialize (HV a Hm); destruct a; try discriminate Hm; exact HV).
  (* cells *)
  assert (A2 : ag (fun a => match a with KeCell | VelDivCell | NormTrCell => True | _ => V1 a end)
    (over n1 (cellT D1 n1 s)) (over n2 (cellT D2 n2 s))).
  { eapply agree_over; [exact A1|]. intros a ix Hva I1 I2 IK. unfold cellT.
    destruct a; try exact Hva.
    - destruct ix as [|c [|k [|z ix]]]; try bad I1; rewrite I1, I2; apply inb2 in I1; cbn in IK. eapply c_ke; fm.
    - destruct ix as [|c [|k [|z ix]]]; try bad I1; rewrite I1, I2; apply inb2 in I1; cbn in IK. eapply c_div; fm.
    - destruct ix as [|l [|c [|k [|z ix]]]]; try bad I1; rewrite I1, I2; apply inb3 in I1; cbn in IK.
      destruct Htr as [Htr|Htr]; [eapply c_ntr; fm|]. change (d_ntracers D1) with (ntracers P1) in I1. lia. }
  set (p1 := over n1 _) in A2 |- *. set (p2 := over n2 _) in A2 |- *.
  assert (U1 : wfm D1 p1) by now apply wfm_over. assert (U2 : wfm D1 p2) by now apply wfm_over.
  clearbody p1 p2. set (V2 := fun a => _) in A2.
  assert (HV2 : meshV V2) by (intros a Hm; specialize (HV1 a Hm); destruct a; try discriminate Hm; exact HV1).
  eapply agree_over; [exact A2|]. intros a ix Hva I1 I2 IK. unfold lT2.
  destruct a; cbn [S_ea]; try exact Hva; destruct ix as [|e [|k [|z ix]]]; try bad I1; rewrite I1, I2;
    apply inb2 in I1; cbn in IK.
  - eapply c_nre; fm.
  - eapply c_npe; fm.
  - eapply c_mean; fm.
  - eapply c_mean; fm.
Qed.

(** Arrays known to agree after a term has been applied to array [a]. *)
Definition plus V (a b : rarr) : Prop := V b \/ b = a.

Lemma r_h V t s md m1 m2 :
  wfm D1 m1 -> ag V m1 m2 -> meshV V -> V (VnEdge s) -> V FluxHEdge -> md = Replace \/ V (HCell t) ->
  ag (plus V (HCell t)) (h_fn S1 t s md m1) (h_fn S2 t s md m2).
Proof.
  intros Hw1 Ha HV Hv Hf Hmd. pose proof (agree_wfm _ _ _ _ _ _ Ha Hw1) as Hw2.
  unfold h_fn. apply agree_upd with (ign := md = Replace); [exact Ha|exact Hmd|].
  intros ix x y I1 I2 IK Hxy. destruct ix as [|c [|k [|z ix]]]; try bad I1. cbn [on2]. apply inb2 in I1. cbn in IK.
  replace (zr md y) with (zr md x) by (destruct Hxy as [->| ->]; reflexivity).
  eapply c_hadv; fm.
Qed.

Lemma r_vn V t s md m1 m2 :
  disable_vn P1 = false ->
  wfm D1 m1 -> ag V m1 m2 -> meshV V -> V (HCell s) -> V (VnEdge s) -> V FluxHEdge -> V NormRvortEdge -> V NormPvortEdge ->
  V KeCell -> V VelDivCell -> V RvortVertex -> md = Replace \/ V (VnEdge t) ->
  ag (plus V (VnEdge t)) (vn_fn S1 t s md m1) (vn_fn S2 t s md m2).
Proof.
  intros Hen Hw1 Ha HV Hh Hv Hf Hr Hp Hk Hdv Hrv Hmd. pose proof (agree_wfm _ _ _ _ _ _ Ha Hw1) as Hw2.
  pose proof (ro_grav _ _ _ _ HR Hen) as Eg. destruct (ro_vd _ _ _ _ HR Hen) as [Evd Evd'].
  destruct (ro_vh _ _ _ _ HR Hen) as [Evh Evh'].
  unfold vn_fn. cbv zeta.
  assert (A1 : ag (fun a => V a \/ (vel_hyperdiff_enabled P1 = true /\ (a = VelDel2DivCell \/ a = VelDel2RvortVertex)))
     (hyp_fn S1 m1) (hyp_fn S2 m2)).
  { unfold hyp_fn. rewrite <- Evh. destruct (vel_hyperdiff_enabled P1); [|eapply agree_weaken; [exact Ha|]; intuition discriminate].
    destruct (Evh' eq_refl) as [_ Hrl].
    assert (A1 : ag (plus V VelDel2Edge) (del2_fn S1 m1) (del2_fn S2 m2)).
    { apply agree_upd with (ign := True); auto.
      intros ix x y I1 I2 IK Hxy. destruct ix as [|c [|k [|z ix]]]; try bad I1. cbn [on2]. apply inb2 in I1. cbn in IK.
      eapply c_del2; fm. }
    set (V1 := plus V VelDel2Edge) in *. assert (HV1 : meshV V1) by (intros a Hm; left; auto).
    assert (Hd1 : V1 VelDel2Edge) by now right.
    assert (W1 : wfm D1 (del2_fn S1 m1)) by now apply wfm_upd. assert (W2 : wfm D1 (del2_fn S2 m2)) by now apply wfm_over.
    set (n1 := del2_fn S1 m1) in *. set (n2 := del2_fn S2 m2) in *.
    assert (A2 : ag (plus V1 VelDel2RvortVertex) (del2r_fn S1 n1) (del2r_fn S2 n2)).
    { apply agree_upd with (ign := True); auto.
      intros ix x y I1 I2 IK Hxy. destruct ix as [|c [|k [|z ix]]]; try bad I1. cbn [on2]. apply inb2 in I1. cbn in IK.
      destruct (Hrl k IK) as [Hk' Ek]. rewrite <- Ek. eapply c_del2r; fm. }
    set (V2 := plus V1 VelDel2RvortVertex) in *. assert (HV2 : meshV V2) by (intros a Hm; left; auto).
    assert (Hd2 : V2 VelDel2Edge) by now left.
    assert (X1 : wfm D1 (del2r_fn S1 n1)) by now apply wfm_upd. assert (X2 : wfm D1 (del2r_fn S2 n2)) by now apply wfm_over.
    eapply agree_weaken; [apply agree_upd with (ign := True); [exact A2|now left|]|].
    - intros ix x y I1 I2 IK Hxy. destruct ix as [|c [|k [|z ix]]]; try bad I1. cbn [on2]. apply inb2 in I1. cbn in IK.
      eapply c_del2d; fm.
    - unfold V2, V1, plus. intros a. tauto. }
  set (V1 := fun a => _) in A1. assert (HV1 : meshV V1) by (intros a Hm; left; auto).
  assert (W1 : wfm D1 (hyp_fn S1 m1)) by now apply wfm_hyp.
  assert (W2 : wfm D1 (hyp_fn S2 m2)) by now apply (agree_wfm _ _ _ _ _ _ A1).
  set (n1 := hyp_fn S1 m1) in *. set (n2 := hyp_fn S2 m2) in *. clearbody n1 n2.
  eapply agree_weaken; [apply agree_upd with (ign := md = Replace); [exact A1|unfold V1; tauto|]|unfold plus, V1; tauto].
  intros ix x y I1 I2 IK Hxy. destruct ix as [|e [|k [|z ix]]]; try bad I1. cbn [on2]. apply inb2 in I1. cbn in IK.
  unfold g_vn. replace (zr md y) with (zr md x) by (destruct Hxy as [->| ->]; reflexivity). cbv zeta.
  erewrite (c_pv D1 D2 K Hnc Hne Hnv Hnt HK1 HK2 V1 n1 n2) with (sd2 := ksimd cf2) by (unfold V1 in *; tauto).
  erewrite (c_kegrad D1 D2 K Hnc Hne Hnv Hnt HK1 HK2 V1 n1 n2) by (unfold V1 in *; tauto).
  erewrite (c_sshgrad D1 D2 K Hnc Hne Hnv Hnt HK1 HK2 V1 n1 n2) by (unfold V1 in *; tauto).
  rewrite Eg, <- Evd, <- Evh.
  set (u := t_sshgrad _ _ _ _ _ _).
  assert (Eu : (if vel_diff_enabled P1 then t_vdiff n1 (ksimd cf1) (visc_del2 P1) e k u else u) =
     (if vel_diff_enabled P1 then t_vdiff n2 (ksimd cf2) (visc_del2 P2) e k u else u)).
  { destruct (vel_diff_enabled P1); [|reflexivity]. rewrite Evd' by reflexivity.
    apply (c_vdiff D1 D2 K Hnc Hne Hnv Hnt HK1 HK2 V1 n1 n2); unfold V1 in *; tauto. }
  rewrite Eu. destruct (vel_hyperdiff_enabled P1) eqn:Eh; [|reflexivity]. destruct (Evh' eq_refl) as [<- _].
  apply (c_vhyp D1 D2 K Hnc Hne Hnv Hnt HK1 HK2 V1 n1 n2); unfold V1 in *; tauto.
Qed.

Lemma r_tr V t s md m1 m2 :
  0 < ntracers P1 ->
  wfm D1 m1 -> ag V m1 m2 -> meshV V -> V (VnEdge s) -> V FluxHEdge -> V MeanHEdge -> V NormTrCell ->
  md = Replace \/ V (TrCell t) ->
  ag (plus V (TrCell t)) (tr_fn S1 t s md m1) (tr_fn S2 t s md m2).
Proof.
  intros Hen Hw1 Ha HV Hv Hf Hme Hn Hmd. pose proof (agree_wfm _ _ _ _ _ _ Ha Hw1) as Hw2.
  destruct (ro_td _ _ _ _ HR Hen) as [Evd Evd']. destruct (ro_th _ _ _ _ HR Hen) as [Evh Evh'].
  unfold tr_fn. cbv zeta.
  assert (A1 : ag (fun a => V a \/ (tracer_hyperdiff_enabled P1 = true /\ a = TracerDel2Cell)) (trdel2_fn S1 m1) (trdel2_fn S2 m2)).
  { unfold trdel2_fn. rewrite <- Evh. destruct (tracer_hyperdiff_enabled P1); [|eapply agree_weaken; [exact Ha|]; intuition discriminate].
    eapply agree_weaken; [apply agree_upd with (ign := True); [exact Ha|now left|]|intros a; tauto].
    intros ix x y I1 I2 IK Hxy. destruct ix as [|l [|c [|k [|z ix]]]]; try bad I1. cbn [on3]. apply inb3 in I1. cbn in IK.
    eapply c_trdel2; fm. }
  set (V1 := fun a => _) in A1. assert (HV1 : meshV V1) by (intros a Hm; left; auto).
  assert (W1 : wfm D1 (trdel2_fn S1 m1)) by now apply wfm_trdel2.
  assert (W2 : wfm D1 (trdel2_fn S2 m2)) by now apply (agree_wfm _ _ _ _ _ _ A1).
  set (n1 := trdel2_fn S1 m1) in *. set (n2 := trdel2_fn S2 m2) in *. clearbody n1 n2.
  eapply agree_weaken; [apply agree_upd with (ign := md = Replace); [exact A1|unfold V1; tauto|]|unfold plus, V1; tauto].
  intros ix x y I1 I2 IK Hxy. destruct ix as [|l [|c [|k [|z ix]]]]; try bad I1. cbn [on3]. apply inb3 in I1. cbn in IK.
  unfold g_tr. replace (zr md y) with (zr md x) by (destruct Hxy as [->| ->]; reflexivity). cbv zeta.
  erewrite (c_trhadv D1 D2 K Hnc Hne Hnv Hnt HK1 HK2 V1 n1 n2) with (sd2 := ksimd cf2) by (unfold V1 in *; tauto).
  rewrite <- Evd, <- Evh.
  set (u := t_trhadv _ _ _ _ _ _ _ _).
  assert (Eu : (if tracer_diff_enabled P1 then t_trdiff n1 (ksimd cf1) (eddy_diff2 P1) FluxHEdge l c k u else u) =
     (if tracer_diff_enabled P1 then t_trdiff n2 (ksimd cf2) (eddy_diff2 P2) FluxHEdge l c k u else u)).
  { destruct (tracer_diff_enabled P1); [|reflexivity]. rewrite Evd' by reflexivity.
    apply (c_trdiff D1 D2 K Hnc Hne Hnv Hnt HK1 HK2 V1 n1 n2); unfold V1 in *; tauto. }
  rewrite Eu. destruct (tracer_hyperdiff_enabled P1) eqn:Eh; [|reflexivity]. rewrite (Evh' eq_refl).
  apply (c_trhyp D1 D2 K Hnc Hne Hnv Hnt HK1 HK2 V1 n1 n2); unfold V1 in *; tauto.
Qed.

Lemma r_hook V t time m1 m2 :
  Ht time -> ag V m1 m2 -> meshV V -> V (HCell t) -> V (VnEdge t) -> ag V (hook_fn S1 t time m1) (hook_fn S2 t time m2).
Proof.
  intros Htm Ha HV Hh Hv. unfold hook_fn. pose proof (ro_hook _ _ _ _ HR) as Hk. unfold hook_eq in Hk.
  destruct (hook S1) as [fc|], (hook S2) as [fc'|]; try contradiction; [|exact Ha]. cbv zeta.
  assert (A1 : ag V (upd D1 (HCell t) m1 (on2 (hook_h fc time m1))) (upd D2 (HCell t) m2 (on2 (hook_h fc' time m2)))).
  { eapply agree_weaken; [apply agree_upd with (ign := False); [exact Ha|now right|]|tauto].
    intros ix x y I1 I2 IK Hxy. destruct ix as [|c [|k [|z ix]]]; try bad I1. cbn [on2].
    destruct Hxy as [[]| ->]. cbn [rext] in I1, I2. apply inb2 in I1, I2. unfold hook_h.
    rewrite !(proj2 Ha) by (try apply HV; try exact I; try reflexivity; apply inb1; lia). f_equal. now apply Hk. }
  eapply agree_weaken; [apply agree_upd with (ign := False); [exact A1|now right|]|tauto].
  intros ix x y I1 I2 IK Hxy. destruct ix as [|c [|k [|z ix]]]; try bad I1. cbn [on2].
  destruct Hxy as [[]| ->]. cbn [rext] in I1, I2. apply inb2 in I1, I2. unfold hook_v.
  rewrite !(proj2 A1) by (try apply HV; try exact I; try reflexivity; apply inb1; lia).
  do 3 f_equal; now apply Hk.
Qed.

(** Without tracers the tracer arrays have no elements. *)
Definition is_tr (a : rarr) : Prop := match a with TrCell _ | NormTrCell | TracerDel2Cell => True | _ => False end.
Lemma agree_tr0 V m1 m2 : ntracers P1 <= 0 -> ag V m1 m2 -> ag (fun a => V a \/ is_tr a) m1 m2.
Proof.
  intros Hn [Hi Hr]. split; [exact Hi|]. intros a ix [Hv|Hq] I1 I2 IK; [auto|].
  destruct a; try contradiction; destruct ix as [|l [|c [|k [|z ix]]]]; try bad I1; cbn [rext] in I1; apply inb3 in I1;
    change (d_ntracers D1) with (ntracers P1) in I1; lia.
Qed.

(** The tendencies. *)
Definition outV V t (a : rarr) : Prop := auxV V a \/ a = HCell t \/ a = VnEdge t \/ a = TrCell t.
Lemma r_tendency V t s time md m1 m2 :
  Ht time -> wfm D1 m1 -> ag V m1 m2 -> meshV V -> V (HCell s) -> V (VnEdge s) -> V (TrCell s) \/ ntracers P1 <= 0 ->
  (disable_vn P1 = false -> V FVertex) ->
  (md = Replace /\ disable_h P1 = false) \/ V (HCell t) ->
  (md = Replace /\ disable_vn P1 = false) \/ V (VnEdge t) ->
  md = Replace \/ V (TrCell t) \/ ntracers P1 <= 0 ->
  ag (outV V t) (tendency_fn S1 t s time md m1) (tendency_fn S2 t s time md m2).
Proof.
  intros Htm Hw1 Ha HV Hh Hv Htr Hf Oh Ov Ot. unfold tendency_fn. cbv zeta.
  pose proof (r_aux V s m1 m2 Hw1 Ha HV Hh Hv Htr) as A1.
  assert (W1 : wfm D1 (aux_fn cf1 D1 s m1)) by now apply wfm_aux.
  set (n1 := aux_fn cf1 D1 s m1) in *. set (n2 := aux_fn cf2 D2 s m2) in *. clearbody n1 n2.
  assert (HV1 : meshV (auxV V)) by (intros a Hm; specialize (HV a Hm); destruct a; try discriminate Hm; exact HV).
  assert (A2 : ag (plus (auxV V) (HCell t)) (if negb (disable_h P1) then h_fn S1 t s md n1 else n1)
                                            (if negb (disable_h P2) then h_fn S2 t s md n2 else n2)).
  { rewrite (ro_dh _ _ _ _ HR). destruct (disable_h P1).
    - cbn. eapply agree_weaken; [exact A1|]. unfold plus. intros a [H| ->]; [exact H|]. cbn. intuition discriminate.
    - apply r_h; auto. cbn. tauto. cbn. tauto. }
  assert (W2 : wfm D1 (if negb (disable_h P1) then h_fn S1 t s md n1 else n1)) by (apply wfm_if; auto using wfm_h).
  clear W1. set (p1 := if negb (disable_h P1) then h_fn S1 t s md n1 else n1) in *.
  set (p2 := if negb (disable_h P2) then h_fn S2 t s md n2 else n2) in *. clearbody p1 p2. clear n1 n2 A1.
  assert (HV2 : meshV (plus (auxV V) (HCell t))) by (intros a Hm; left; auto).
  assert (A3 : ag (plus (plus (auxV V) (HCell t)) (VnEdge t)) (if negb (disable_vn P1) then vn_fn S1 t s md p1 else p1)
                                            (if negb (disable_vn P2) then vn_fn S2 t s md p2 else p2)).
  { rewrite (ro_dv _ _ _ _ HR). destruct (disable_vn P1) eqn:Edv.
    - cbn. eapply agree_weaken; [exact A2|]. unfold plus. intros a [H| ->]; [exact H|]. cbn. intuition discriminate.
    - specialize (Hf eq_refl). apply r_vn; auto; unfold plus; cbn; tauto. }
  assert (W3 : wfm D1 (if negb (disable_vn P1) then vn_fn S1 t s md p1 else p1)) by (apply wfm_if; auto using wfm_vn).
  set (q1 := if negb (disable_vn P1) then vn_fn S1 t s md p1 else p1) in *.
  set (q2 := if negb (disable_vn P2) then vn_fn S2 t s md p2 else p2) in *. clearbody q1 q2. clear p1 p2 A2 W2.
  assert (A4 : ag (outV V t) (if 0 <? ntracers P1 then tr_fn S1 t s md q1 else q1)
                                            (if 0 <? ntracers P2 then tr_fn S2 t s md q2 else q2)).
  { rewrite (ro_nt _ _ _ _ HR). destruct (Z.ltb_spec 0 (ntracers P1)) as [Hn|Hn].
    - eapply agree_weaken; [apply r_tr; [exact Hn|exact W3|exact A3|intros a Hm; left; auto| | | | |]|];
        unfold outV, plus; cbn; try tauto. destruct Ot as [?|[?|?]]; [tauto|tauto|lia].
    - eapply agree_weaken; [apply agree_tr0; [exact Hn|exact A3]|]. unfold outV, plus. intros a [?|[?|[?| ->]]]; cbn; tauto. }
  apply r_hook; [exact Htm|exact A4|intros a Hm; left; auto| |]; unfold outV; tauto.
Qed.
End RelStep.
