(** compute_tr_tendency with other edge thicknesses than the code binds to the names. *)
From Coq Require Import ZArith List Bool Lia FunctionalExtensionality.
From Verif Require Import Arith Arrays Prog Conc Launch Mesh AuxVars Tend Model Over Formulas KernBase Terms KernAux KernTend TendFn StepFn TendVal.
Import ListNotations.
Open Scope Z_scope.

(** shallow_water_model.cpp l.221-311 with the two arrays of l.225-228 as parameters: [flux_h_edge] is the one used
    by the advection, [mean_h_edge] the one used by the diffusion and the first Laplacian of the hyperdiffusion.
    [compute_tr_tendency] is the case [MeanHEdge], [FluxHEdge] (see [C38_code_exchanges]). *)
Definition tr_tendency_with {A} (S : setup A) (flux_h_edge mean_h_edge : rarr) (t s : sid) (md : add_mode) : list (launch A) :=
  let cf := cfg_of S in let P := par_of S in let D := sdims S in
  let cells := par3 (ntracers P) (d_ncells D) (d_nlayers_vec D) in
  whenL (tracer_hyperdiff_enabled P)
    [cells (fun l icell kchunk => compute_tracer_del2 cf D mean_h_edge l icell kchunk)] ++
  if noif cf then
    whenL (is_replace md) [cells (fun l icell kchunk => zero_chunk cf (TrCell t) [l; icell] kchunk)] ++
    [cells (fun l icell kchunk => tracer_hadv_cell cf D flux_h_edge t s l icell kchunk)] ++
    whenL (tracer_diff_enabled P)
      [cells (fun l icell kchunk => tracer_diff_cell cf D (eddy_diff2 P) mean_h_edge t l icell kchunk)] ++
    whenL (tracer_hyperdiff_enabled P)
      [cells (fun l icell kchunk => tracer_hyperdiff_cell cf D (eddy_diff4 P) t l icell kchunk)]
  else
    [cells (fun l icell kchunk =>
       when (is_replace md) (zero_chunk cf (TrCell t) [l; icell] kchunk) ;;;
       tracer_hadv_cell cf D flux_h_edge t s l icell kchunk ;;;
       when (tracer_diff_enabled P) (tracer_diff_cell cf D (eddy_diff2 P) mean_h_edge t l icell kchunk) ;;;
       when (tracer_hyperdiff_enabled P) (tracer_hyperdiff_cell cf D (eddy_diff4 P) t l icell kchunk))].

(** [compute_tendency], shallow_water_model.cpp l.313-347, with that. *)
Definition tendency_with {A} (S : setup A) (flux_h_edge mean_h_edge : rarr) (t s : sid) (time : F A) (md : add_mode) : list (launch A) :=
  let cf := cfg_of S in let P := par_of S in let D := sdims S in
  aux_compute cf D s ++
  whenL (negb (disable_h P)) (compute_h_tendency S t s md) ++
  whenL (negb (disable_vn P)) (compute_vn_tendency S t s md) ++
  whenL (0 <? ntracers P) (tr_tendency_with S flux_h_edge mean_h_edge t s md) ++
  additional_tendency S t time.

Section With.
Context {A : Arith} (S : setup A).
Local Notation cf := (cfg_of S).
Local Notation P := (par_of S).
Local Notation D := (sdims S).
Local Notation VL := (vector_length cf).
Local Notation sd := (ksimd cf).
Context (Hd : wfd cf D) (Hnt : 0 <= d_ntracers D).
Implicit Types (m : mem A) (t s : sid) (md : add_mode).
Section Par.
Context (hf hm : rarr) (HF : edge_thickness hf) (HM : edge_thickness hm).
Definition g_tr_with t s md m (l c k : Z) (x : F A) : F A :=
  let x := zr md x in
  let x := t_trhadv m sd hf s l c k x in
  let x := if tracer_diff_enabled P then t_trdiff m sd (eddy_diff2 P) hm l c k x else x in
  if tracer_hyperdiff_enabled P then t_trhyp m (eddy_diff4 P) l c k x else x.
Definition trdel2_with m : mem A :=
  if tracer_hyperdiff_enabled P then upd D TracerDel2Cell m (on3 (fun l c k _ => f_trdel2 m hm l c k)) else m.
Definition tr_fn_with t s md m : mem A := let m := trdel2_with m in upd D (TrCell t) m (on3 (g_tr_with t s md m)).
Lemma wfm_trdel2_with m : wfm D m -> wfm D (trdel2_with m).
Proof. intros H. unfold trdel2_with. destruct (tracer_hyperdiff_enabled P); [|exact H]. now apply wfm_upd. Qed.
Lemma hs_tr_with t s md m :
  wfm D m -> hsafe D (tr_tendency_with S hf hm t s md) m (fun M => meq M (tr_fn_with t s md m)).
Proof.
  intros Hm0. unfold tr_tendency_with, tr_fn_with. cbv zeta. apply (hsafe_seq D _ _ _ (trdel2_with m)).
  { unfold trdel2_with. destruct (tracer_hyperdiff_enabled P); [|constructor; apply meq_refl].
    cbn [whenL]. apply hterm_set. apply hterm_par3 with (cf := cf); [exact Hd|reflexivity|].
    intros l c kc Hl Hc Hkc. apply term_of with (G := fun n k _ => f_trdel2 n hm l c k); [exact Hm0| |].
    - intros n Hn. apply k_trdel2; auto.
    - destruct HM as [E'|E']; rewrite ?E'; reflexivity. }
  pose proof (wfm_trdel2_with m Hm0) as Hm. set (m0 := trdel2_with m) in *. clearbody m0. clear m Hm0. rename m0 into m.
  apply hterm_set.
  assert (Hz : forall l c kc, 0 <= l < ntracers P -> 0 <= c < d_ncells D -> 0 <= kc < d_nlayers_vec D ->
    term D (TrCell t) m [l; c] (kc * VL) (kc * VL + VL)
      (Rd (own3 VL (only_a (TrCell t))) [l; c; kc]) (Wr (own3 VL (only_a (TrCell t))) [l; c; kc])
      (zero_chunk cf (TrCell t) [l; c] kc) (fun _ _ => (#0)%fp)).
  { intros. now apply tm_zero3 with (n := ntracers P) (n' := d_ncells D). }
  assert (Hha : forall l c kc, 0 <= l < ntracers P -> 0 <= c < d_ncells D -> 0 <= kc < d_nlayers_vec D ->
    term D (TrCell t) m [l; c] (kc * VL) (kc * VL + VL)
      (Rd (own3 VL (only_a (TrCell t))) [l; c; kc]) (Wr (own3 VL (only_a (TrCell t))) [l; c; kc])
      (tracer_hadv_cell cf D hf t s l c kc) (on3 (fun l c k x => t_trhadv m sd hf s l c k x))).
  { intros l c kc Hl Hi Hkc. apply term_of with (G := fun n => t_trhadv n sd hf s l c); [exact Hm| |].
    - intros n Hn. apply k_trhadv; auto.
    - destruct HF as [E|E], HM as [E'|E']; rewrite ?E, ?E'; reflexivity. }
  assert (Hdi : forall l c kc, 0 <= l < ntracers P -> 0 <= c < d_ncells D -> 0 <= kc < d_nlayers_vec D ->
    term D (TrCell t) m [l; c] (kc * VL) (kc * VL + VL)
      (Rd (own3 VL (only_a (TrCell t))) [l; c; kc]) (Wr (own3 VL (only_a (TrCell t))) [l; c; kc])
      (tracer_diff_cell cf D (eddy_diff2 P) hm t l c kc) (on3 (fun l c k x => t_trdiff m sd (eddy_diff2 P) hm l c k x))).
  { intros l c kc Hl Hi Hkc. apply term_of with (G := fun n => t_trdiff n sd (eddy_diff2 P) hm l c); [exact Hm| |].
    - intros n Hn. apply k_trdiff; auto.
    - destruct HF as [E|E], HM as [E'|E']; rewrite ?E, ?E'; reflexivity. }
  assert (Hhy : forall l c kc, 0 <= l < ntracers P -> 0 <= c < d_ncells D -> 0 <= kc < d_nlayers_vec D ->
    term D (TrCell t) m [l; c] (kc * VL) (kc * VL + VL)
      (Rd (own3 VL (only_a (TrCell t))) [l; c; kc]) (Wr (own3 VL (only_a (TrCell t))) [l; c; kc])
      (tracer_hyperdiff_cell cf D (eddy_diff4 P) t l c kc) (on3 (fun l c k x => t_trhyp m (eddy_diff4 P) l c k x))).
  { intros l c kc Hl Hi Hkc. apply term_of with (G := fun n => t_trhyp n (eddy_diff4 P) l c); [exact Hm| |].
    - intros n Hn. apply k_trhyp; auto.
    - destruct HF as [E|E], HM as [E'|E']; rewrite ?E, ?E'; reflexivity. }
  destruct (noif cf).
  - eapply hterm_ext.
    { apply hterm_app; [apply hterm_when; apply hterm_par3 with (cf := cf); [exact Hd|reflexivity|exact Hz]|].
    apply hterm_app; [apply hterm_par3 with (cf := cf); [exact Hd|reflexivity|exact Hha]|].
    apply hterm_app; [apply hterm_when; apply hterm_par3 with (cf := cf); [exact Hd|reflexivity|exact Hdi]|].
    apply hterm_when; apply hterm_par3 with (cf := cf); [exact Hd|reflexivity|exact Hhy]. }
    ix3; reflexivity.
  - eapply hterm_ext; [apply hterm_par3 with (cf := cf); [exact Hd|reflexivity|]|].
    + intros l c kc Hl Hc Hkc.
      apply term_seq; [apply term_when; exact (Hz l c kc Hl Hc Hkc)|].
      apply term_seq; [exact (Hha l c kc Hl Hc Hkc)|].
      apply term_seq; [apply term_when; exact (Hdi l c kc Hl Hc Hkc)|].
      apply term_when; exact (Hhy l c kc Hl Hc Hkc).
    + ix3; reflexivity.
Qed.

Definition tendency_fn_with t s time md m : mem A :=
  let m := aux_fn cf D s m in
  let m := if negb (disable_h P) then h_fn S t s md m else m in
  let m := if negb (disable_vn P) then vn_fn S t s md m else m in
  let m := if 0 <? ntracers P then tr_fn_with t s md m else m in
  hook_fn S t time m.
Lemma hs_tendency_with t s time md m : s <> t -> wfm D m ->
  hsafe D (tendency_with S hf hm t s time md) m (fun M => meq M (tendency_fn_with t s time md m)).
Proof.
  intros Hts Hm. unfold tendency_with, tendency_fn_with. cbv zeta.
  eapply hsafe_seq; [now apply hs_aux|].
  eapply hsafe_seq; [apply hsafe_when; apply hs_h; [exact Hd|]|].
  { repeat first [assumption | apply wfm_if | apply wfm_vn | apply wfm_h | apply wfm_aux]. }
  eapply hsafe_seq; [apply hsafe_when; apply hs_vn; [exact Hd|exact Hts|]|].
  { repeat first [assumption | apply wfm_if | apply wfm_vn | apply wfm_h | apply wfm_aux]. }
  eapply hsafe_seq; [apply hsafe_when; apply hs_tr_with|].
  { repeat first [assumption | apply wfm_if | apply wfm_vn | apply wfm_h | apply wfm_aux]. }
  apply hs_hook.
Qed.
End Par.

(** The two thicknesses agree. *)
Definition same_h m : Prop := forall e k, 0 <= e < d_nedges D -> 0 <= k < d_nlayers D -> mr m MeanHEdge [e; k] = mr m FluxHEdge [e; k].
Lemma same_h_aux s m : same_h (aux_fn cf D s m).
Proof. intros e k He Hk. rewrite (av_mean S Hd), (av_flux S Hd) by assumption. reflexivity. Qed.
Lemma same_h_upd a m g : a <> MeanHEdge -> a <> FluxHEdge -> same_h m -> same_h (upd D a m g).
Proof. intros N1 N2 H e k He Hk. rewrite !upd_other by congruence. now apply H. Qed.

Lemma upd_meq a m1 m2 g1 g2 : meq m1 m2 ->
  (forall ix, inb (rext D a) ix = true -> g1 ix (mr m1 a ix) = g2 ix (mr m2 a ix)) -> meq (upd D a m1 g1) (upd D a m2 g2).
Proof.
  intros [Ei Er] H. split; [exact Ei|]. intros b ix.
  destruct (rarr_eq_dec b a) as [->|N]; [|rewrite !upd_other by exact N; apply Er].
  destruct (inb (rext D a) ix) eqn:E; [rewrite !upd_same by exact E; now apply H|rewrite !upd_out by exact E; apply Er].
Qed.

Section Swap.
Context (m : mem A) (Hm : wfm D m) (Hs : same_h m).
Lemma sw_eoc c j : 0 <= c < d_ncells D -> 0 <= j < mi m NedgesOnCell [c] -> 0 <= mi m EdgesOnCell [c; j] < d_nedges D.
Proof. intros Hc Hj. apply (wf_eoc _ _ Hm); [exact Hc|]. pose proof (wf_noc _ _ Hm c Hc). lia. Qed.
Lemma sw_trhadv s l c k x : 0 <= c < d_ncells D -> 0 <= k < d_nlayers D ->
  t_trhadv m sd MeanHEdge s l c k x = t_trhadv m sd FluxHEdge s l c k x.
Proof.
  intros Hc Hk. unfold t_trhadv. f_equal. apply iterZ_ext. intros j y Hj. unfold s_trhadv. cbv zeta.
  now rewrite (Hs _ k (sw_eoc c j Hc Hj) Hk).
Qed.
Lemma sw_trdiff kap l c k x : 0 <= c < d_ncells D -> 0 <= k < d_nlayers D ->
  t_trdiff m sd kap FluxHEdge l c k x = t_trdiff m sd kap MeanHEdge l c k x.
Proof.
  intros Hc Hk. unfold t_trdiff. f_equal. apply iterZ_ext. intros j y Hj. unfold s_trdiff. cbv zeta.
  now rewrite (Hs _ k (sw_eoc c j Hc Hj) Hk).
Qed.
Lemma sw_trdel2 l c k : 0 <= c < d_ncells D -> 0 <= k < d_nlayers D ->
  f_trdel2 m FluxHEdge l c k = f_trdel2 m MeanHEdge l c k.
Proof.
  intros Hc Hk. unfold f_trdel2. apply iterZ_ext. intros j y Hj. unfold s_trdel2. cbv zeta.
  now rewrite (Hs _ k (sw_eoc c j Hc Hj) Hk).
Qed.
End Swap.
Lemma trdel2_with_swap m : wfm D m -> same_h m -> meq (trdel2_with FluxHEdge m) (trdel2_with MeanHEdge m).
Proof.
  intros Hm Hs. unfold trdel2_with. destruct (tracer_hyperdiff_enabled P); [|apply meq_refl].
  apply upd_meq; [apply meq_refl|]. intros ix Hi. cbn [rext] in Hi.
  destruct ix as [|l [|c [|k [|? ?]]]]; try (reflexivity || (cbn [inb] in Hi; rewrite ?andb_false_r in Hi; discriminate)).
  apply inb3 in Hi. cbn [on3]. apply sw_trdel2; tauto.
Qed.
Lemma same_h_if (b : bool) m m' : same_h m -> same_h m' -> same_h (if b then m' else m).
Proof. destruct b; auto. Qed.
Lemma same_h_h t s md m : same_h m -> same_h (h_fn S t s md m).
Proof. apply same_h_upd; discriminate. Qed.
Lemma same_h_vn t s md m : same_h m -> same_h (vn_fn S t s md m).
Proof.
  intros H. apply same_h_upd; [discriminate..|]. unfold hyp_fn. apply same_h_if; [exact H|].
  do 3 (apply same_h_upd; [discriminate..|]). exact H.
Qed.

Lemma meq_eq (m1 m2 : mem A) : meq m1 m2 -> m1 = m2.
Proof.
  destruct m1 as [i1 r1], m2 as [i2 r2]. intros [Hi Hr]. cbn in Hi, Hr.
  f_equal; repeat (apply functional_extensionality; intro); auto.
Qed.
Lemma tr_fn_swap t s md m : wfm D m -> same_h m -> meq (tr_fn_with MeanHEdge FluxHEdge t s md m) (tr_fn_with FluxHEdge MeanHEdge t s md m).
Proof.
  intros Hm Hs. unfold tr_fn_with. cbv zeta. rewrite <- (meq_eq _ _ (trdel2_with_swap m Hm Hs)).
  assert (Hm' : wfm D (trdel2_with FluxHEdge m)) by now apply wfm_trdel2_with.
  assert (Hs' : same_h (trdel2_with FluxHEdge m)) by (unfold trdel2_with; apply same_h_if; [exact Hs|]; apply same_h_upd; [discriminate..|exact Hs]).
  apply upd_meq; [apply meq_refl|]. intros ix Hi. cbn [rext] in Hi.
  destruct ix as [|l [|c [|k [|? ?]]]]; try (reflexivity || (cbn [inb] in Hi; rewrite ?andb_false_r in Hi; discriminate)).
  apply inb3 in Hi. cbn [on3]. unfold g_tr_with. cbv zeta. rewrite (sw_trhadv _ Hm' Hs') by tauto.
  destruct (tracer_diff_enabled P); [|reflexivity]. rewrite (sw_trdiff _ Hm' Hs') by tauto. reflexivity.
Qed.
Lemma tendency_fn_swap t s time md m : wfm D m -> tendency_fn S t s time md m = tendency_fn_with FluxHEdge MeanHEdge t s time md m.
Proof.
  intros Hm. change (tendency_fn S t s time md m) with (tendency_fn_with MeanHEdge FluxHEdge t s time md m).
  unfold tendency_fn_with. cbv zeta. f_equal. destruct (0 <? ntracers P); [|reflexivity]. apply meq_eq. apply tr_fn_swap.
  - repeat first [assumption | apply wfm_if | apply wfm_vn | apply wfm_h | apply wfm_aux].
  - apply same_h_if; [|apply same_h_vn]; (apply same_h_if; [|apply same_h_h]; apply same_h_aux).
Qed.
End With.
