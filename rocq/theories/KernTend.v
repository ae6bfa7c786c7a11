(** What the tendency kernels do to the array they update. *)
From Coq Require Import ZArith List Bool Lia.
From Verif Require Import Arith Arrays Prog Conc Launch Mesh AuxVars Tend Over Formulas KernBase Terms KernAux.
Import ListNotations.
Open Scope Z_scope.

(** The layer the vorticity of the velocity Laplacian is taken from: with OMEGA_KOKKOS_SIMD, always
    the first one of the chunk. *)
Definition rv_layer (cf : config) (k : Z) : Z := if ksimd cf then k / vector_length cf * vector_length cf else k.

Section KernTend.
Context {A : Arith} (cf : config) (D : dims) (Hd : wfd cf D).
Local Notation VL := (vector_length cf).
Implicit Types (m : mem A).

Ltac vadd1 := apply (safe_vadd1 cf D Hd); [assumption|assumption|intros i Hi; vld|intros i Hi; rok|intros i Hi; wok|intros i x Hi; lanes; reflexivity].
Ltac vadd2 := apply (safe_vadd2 cf D Hd); [assumption|assumption|assumption|intros i Hi; vld|intros i Hi; rok|intros i Hi; wok|intros i x Hi; lanes; reflexivity].
Ltac vsub1 := apply (safe_vsub1 cf D Hd); [assumption|assumption|intros i Hi; vld|intros i Hi; rok|intros i Hi; wok|intros i x Hi; lanes; reflexivity].
Ltac addc := apply (safe_add_chunk cf D Hd); [assumption|intros i Hi; vld|intros i Hi; rok|intros i Hi; wok|intros i x Hi; lanes; reflexivity].
Ltac vst1 f' := apply (safe_vstore1 cf D Hd) with (f := f'); [assumption|assumption|intros i Hi; vld|intros i Hi; wok|intros i Hi; lanes; reflexivity].
Ltac vst2 f' := apply (safe_vstore2 cf D Hd) with (f := f'); [assumption|assumption|assumption|intros i Hi; vld|intros i Hi; wok|intros i Hi; lanes; reflexivity].
(** Scalar loop with a single store, the read of the target going through the memory being built. *)
Ltac stl a pre f' :=
  apply safe_wloop; [lia|]; intros i Hi; sx; (apply safe_str; [vld|wok|]);
  apply (S1_step _ a f' pre); [lia|]; lanes; reflexivity.
Ltac upl a pre ks f' :=
  apply safe_wloop; [lia|]; intros i Hi; sx; (apply safe_str; [vld|wok|]);
  apply (S1_step _ a f' pre); [lia|]; symmetry;
  match goal with |- context [mr (over ?m (chunkT ?S ?p ks (ks + i))) a ?ix] =>
    change (mr (over m (chunkT S p ks (ks + i))) a ix) with (mr (over m (chunkT (S1 a f') pre ks (ks + i))) a (pre ++ [ks + i]));
    rewrite upd_old by lia end; reflexivity.

Lemma k_zero2 a m i kc n :
  rext D a = [n; d_nlayers D] -> 0 <= i < n -> 0 <= kc < d_nlayers_vec D ->
  safe D (zero_chunk cf a [i] kc) m (Rd (own2 VL (only_a a)) [i; kc]) (Wr (own2 VL (only_a a)) [i; kc])
    (fun _ m' => meq m' (over m (updT cf m a [i] (kc * VL) (fun _ _ => (#0)%fp)))).
Proof.
  intros He Hi Hkc. apply safe_zero_chunk; auto; intros j Hj.
  - cbn [validb app]. rewrite He. apply inb2. split; [exact Hi|]. now apply chunk_range.
  - unfold Wr. cbn [own2 app]. unfold only_a. destruct (rarr_eq_dec a a); [|congruence]. now rewrite chunk_div.
Qed.
Lemma k_zero3 a m l i kc n n' :
  rext D a = [n; n'; d_nlayers D] -> 0 <= l < n -> 0 <= i < n' -> 0 <= kc < d_nlayers_vec D ->
  safe D (zero_chunk cf a [l; i] kc) m (Rd (own3 VL (only_a a)) [l; i; kc]) (Wr (own3 VL (only_a a)) [l; i; kc])
    (fun _ m' => meq m' (over m (updT cf m a [l; i] (kc * VL) (fun _ _ => (#0)%fp)))).
Proof.
  intros He Hl Hi Hkc. apply safe_zero_chunk; auto; intros j Hj.
  - cbn [validb app]. rewrite He. apply inb3. split; [exact Hl|]. split; [exact Hi|]. now apply chunk_range.
  - unfold Wr. cbn [own3 app]. unfold only_a. destruct (rarr_eq_dec a a); [|congruence]. now rewrite chunk_div.
Qed.

(** ** Thickness *)
Lemma k_hadv t s m c kc :
  wfm D m -> 0 <= c < d_ncells D -> 0 <= kc < d_nlayers_vec D ->
  safe D (thickness_hadv_cell cf D t s c kc) m
    (Rd (own2 VL (only_a (HCell t))) [c; kc]) (Wr (own2 VL (only_a (HCell t))) [c; kc])
    (fun _ m' => meq m' (over m (updT cf m (HCell t) [c] (kc * VL) (t_hadv m s c)))).
Proof.
  intros Hm Hc Hkc. pose proof (wd_vl _ _ Hd) as HVL. pose proof (wf_noc D m Hm c Hc).
  assert (Hs : only_a (HCell t) (HCell t) = true) by (destruct t; reflexivity).
  unfold thickness_hadv_cell. destruct (ksimd cf) eqn:Hks.
  - unfold thickness_hadv_cell_simd. kstart Hd Hkc. sx. acc_simd ks cf (s_hadv m s c). vadd1.
  - unfold thickness_hadv_cell_scalar. kstart Hd Hkc. sx. acc_scalar ks cf (s_hadv m s c). addc.
Qed.

(** ** Velocity *)
Lemma k_pv t s m e kc : s <> t ->
  wfm D m -> 0 <= e < d_nedges D -> 0 <= kc < d_nlayers_vec D ->
  safe D (pv_flux_edge cf D t s e kc) m
    (Rd (own2 VL (only_a (VnEdge t))) [e; kc]) (Wr (own2 VL (only_a (VnEdge t))) [e; kc])
    (fun _ m' => meq m' (over m (updT cf m (VnEdge t) [e] (kc * VL) (t_pv m (ksimd cf) s e)))).
Proof.
  intros Hts Hm Hc Hkc. pose proof (wd_vl _ _ Hd) as HVL. pose proof (wf_noe D m Hm e Hc).
  assert (Hf : only_a (VnEdge t) (VnEdge s) = false) by (destruct t, s; congruence || reflexivity).
  assert (Hs : only_a (VnEdge t) (VnEdge t) = true) by (destruct t; reflexivity).
  unfold pv_flux_edge. destruct (ksimd cf) eqn:Hks.
  - unfold pv_flux_edge_simd. kstart Hd Hkc. sx. acc_simd ks cf (s_pv m true s e). vadd1.
  - unfold pv_flux_edge_scalar. kstart Hd Hkc. sx. acc_scalar ks cf (s_pv m false s e). addc.
Qed.

Lemma k_kegrad t m e kc :
  wfm D m -> 0 <= e < d_nedges D -> 0 <= kc < d_nlayers_vec D ->
  safe D (ke_grad_edge cf D t e kc) m
    (Rd (own2 VL (only_a (VnEdge t))) [e; kc]) (Wr (own2 VL (only_a (VnEdge t))) [e; kc])
    (fun _ m' => meq m' (over m (updT cf m (VnEdge t) [e] (kc * VL) (t_kegrad m e)))).
Proof.
  intros Hm Hc Hkc. pose proof (wd_vl _ _ Hd) as HVL.
  assert (Hs : only_a (VnEdge t) (VnEdge t) = true) by (destruct t; reflexivity).
  unfold ke_grad_edge. destruct (ksimd cf) eqn:Hks.
  - unfold ke_grad_edge_simd. kstart Hd Hkc. sx. vsub1.
  - unfold ke_grad_edge_scalar. kstart Hd Hkc. unfold updT. sx.
    upl (VnEdge t) [e] ks (fun k' => t_kegrad m e k' (mr m (VnEdge t) ([e] ++ [k']))).
Qed.

Lemma k_sshgrad g t s m e kc :
  wfm D m -> 0 <= e < d_nedges D -> 0 <= kc < d_nlayers_vec D ->
  safe D (ssh_grad_edge cf D g t s e kc) m
    (Rd (own2 VL (only_a (VnEdge t))) [e; kc]) (Wr (own2 VL (only_a (VnEdge t))) [e; kc])
    (fun _ m' => meq m' (over m (updT cf m (VnEdge t) [e] (kc * VL) (t_sshgrad m g s e)))).
Proof.
  intros Hm Hc Hkc. pose proof (wd_vl _ _ Hd) as HVL.
  assert (Hs : only_a (VnEdge t) (VnEdge t) = true) by (destruct t; reflexivity).
  unfold ssh_grad_edge. destruct (ksimd cf) eqn:Hks.
  - unfold ssh_grad_edge_simd. kstart Hd Hkc. sx. vsub1.
  - unfold ssh_grad_edge_scalar. kstart Hd Hkc. unfold updT. sx.
    upl (VnEdge t) [e] ks (fun k' => t_sshgrad m g s e k' (mr m (VnEdge t) ([e] ++ [k']))).
Qed.

Lemma k_vdiff nu t m e kc :
  wfm D m -> 0 <= e < d_nedges D -> 0 <= kc < d_nlayers_vec D ->
  safe D (vel_diff_edge cf D nu t e kc) m
    (Rd (own2 VL (only_a (VnEdge t))) [e; kc]) (Wr (own2 VL (only_a (VnEdge t))) [e; kc])
    (fun _ m' => meq m' (over m (updT cf m (VnEdge t) [e] (kc * VL) (t_vdiff m (ksimd cf) nu e)))).
Proof.
  intros Hm Hc Hkc. pose proof (wd_vl _ _ Hd) as HVL.
  assert (Hs : only_a (VnEdge t) (VnEdge t) = true) by (destruct t; reflexivity).
  unfold vel_diff_edge. destruct (ksimd cf) eqn:Hks.
  - unfold vel_diff_edge_simd. kstart Hd Hkc. sx. vadd1.
  - unfold vel_diff_edge_scalar. kstart Hd Hkc. unfold updT. sx.
    upl (VnEdge t) [e] ks (fun k' => t_vdiff m false nu e k' (mr m (VnEdge t) ([e] ++ [k']))).
Qed.

Lemma k_vhyp nu t m e kc :
  wfm D m -> 0 <= e < d_nedges D -> 0 <= kc < d_nlayers_vec D ->
  safe D (vel_hyperdiff_edge cf D nu t e kc) m
    (Rd (own2 VL (only_a (VnEdge t))) [e; kc]) (Wr (own2 VL (only_a (VnEdge t))) [e; kc])
    (fun _ m' => meq m' (over m (updT cf m (VnEdge t) [e] (kc * VL) (t_vhyp m nu e)))).
Proof.
  intros Hm Hc Hkc. pose proof (wd_vl _ _ Hd) as HVL.
  assert (Hs : only_a (VnEdge t) (VnEdge t) = true) by (destruct t; reflexivity).
  unfold vel_hyperdiff_edge. destruct (ksimd cf) eqn:Hks.
  - unfold vel_hyperdiff_edge_simd. kstart Hd Hkc. sx. vsub1.
  - unfold vel_hyperdiff_edge_scalar. kstart Hd Hkc. unfold updT. sx.
    upl (VnEdge t) [e] ks (fun k' => t_vhyp m nu e k' (mr m (VnEdge t) ([e] ++ [k']))).
Qed.

(** Work arrays of the hyperviscosity. *)
Lemma k_del2 m e kc :
  wfm D m -> 0 <= e < d_nedges D -> 0 <= kc < d_nlayers_vec D ->
  safe D (compute_vel_del2 cf D e kc) m
    (Rd (own2 VL (only_a VelDel2Edge)) [e; kc]) (Wr (own2 VL (only_a VelDel2Edge)) [e; kc])
    (fun _ m' => meq m' (over m (updT cf m VelDel2Edge [e] (kc * VL) (fun k _ => f_del2 m e k)))).
Proof.
  intros Hm Hc Hkc. pose proof (wd_vl _ _ Hd) as HVL. unfold updT.
  unfold compute_vel_del2. destruct (ksimd cf) eqn:Hks.
  - unfold compute_vel_del2_simd. kstart Hd Hkc. sx. vst1 (f_del2 m e).
  - unfold compute_vel_del2_scalar. kstart Hd Hkc. sx. stl VelDel2Edge [e] (f_del2 m e).
Qed.

Lemma k_del2r m v kc :
  wfm D m -> 0 <= v < d_nvertices D -> 0 <= kc < d_nlayers_vec D ->
  safe D (compute_vel_del2_rvort cf D v kc) m
    (Rd (own2 VL (only_a VelDel2RvortVertex)) [v; kc]) (Wr (own2 VL (only_a VelDel2RvortVertex)) [v; kc])
    (fun _ m' => meq m' (over m (updT cf m VelDel2RvortVertex [v] (kc * VL) (fun k _ => f_del2r m v (rv_layer cf k))))).
Proof.
  intros Hm Hc Hkc. pose proof (wd_vl _ _ Hd) as HVL. unfold updT, rv_layer.
  unfold compute_vel_del2_rvort. destruct (ksimd cf) eqn:Hks.
  - pose proof (Z.mul_comm kc VL) as Ek. unfold compute_vel_del2_rvort_simd. kstart Hd Hkc.
    assert (Hk0 : 0 <= ks < d_nlayers D) by (rewrite <- (Z.add_0_r ks); apply Hks0; lia).
    sx. acc_simd ks cf (fun k : Z => s_del2r m v ks).
    apply (safe_vstore1 cf D Hd) with (f := fun k => f_del2r m v (k / VL * VL));
      [assumption|assumption|intros i Hi; vld|intros i Hi; wok|intros i Hi].
    rewrite Hdiv by assumption. rewrite (Z.mul_comm kc), <- Ek. now apply Hacc.
  - unfold compute_vel_del2_rvort_scalar. kstart Hd Hkc. sx. acc_scalar ks cf (s_del2r m v).
    stl VelDel2RvortVertex [v] (f_del2r m v).
Qed.

Lemma k_del2d m c kc :
  wfm D m -> 0 <= c < d_ncells D -> 0 <= kc < d_nlayers_vec D ->
  safe D (compute_vel_del2_div cf D c kc) m
    (Rd (own2 VL (only_a VelDel2DivCell)) [c; kc]) (Wr (own2 VL (only_a VelDel2DivCell)) [c; kc])
    (fun _ m' => meq m' (over m (updT cf m VelDel2DivCell [c] (kc * VL) (fun k _ => f_del2d m c k)))).
Proof.
  intros Hm Hc Hkc. pose proof (wd_vl _ _ Hd) as HVL. pose proof (wf_noc D m Hm c Hc). unfold updT.
  unfold compute_vel_del2_div. destruct (ksimd cf) eqn:Hks.
  - unfold compute_vel_del2_div_simd. kstart Hd Hkc. sx. acc_simd ks cf (s_del2d m c). vst1 (f_del2d m c).
  - unfold compute_vel_del2_div_scalar. kstart Hd Hkc. sx. acc_scalar ks cf (s_del2d m c).
    stl VelDel2DivCell [c] (f_del2d m c).
Qed.

(** ** Tracers *)
Definition edge_thickness (a : rarr) : Prop := a = MeanHEdge \/ a = FluxHEdge.

Lemma k_trhadv hf t s m l c kc : edge_thickness hf ->
  wfm D m -> 0 <= l < d_ntracers D -> 0 <= c < d_ncells D -> 0 <= kc < d_nlayers_vec D ->
  safe D (tracer_hadv_cell cf D hf t s l c kc) m
    (Rd (own3 VL (only_a (TrCell t))) [l; c; kc]) (Wr (own3 VL (only_a (TrCell t))) [l; c; kc])
    (fun _ m' => meq m' (over m (updT cf m (TrCell t) [l; c] (kc * VL) (t_trhadv m (ksimd cf) hf s l c)))).
Proof.
  intros Hhf Hm Hl Hc Hkc. pose proof (wd_vl _ _ Hd) as HVL. pose proof (wf_noc D m Hm c Hc).
  assert (Hs : only_a (TrCell t) (TrCell t) = true) by (destruct t; reflexivity).
  destruct Hhf as [-> | ->]; unfold tracer_hadv_cell; destruct (ksimd cf) eqn:Hks.
  - unfold tracer_hadv_cell_simd. kstart Hd Hkc. sx. acc_simd ks cf (s_trhadv m true MeanHEdge s l c). vadd2.
  - unfold tracer_hadv_cell_scalar. kstart Hd Hkc. sx. acc_scalar ks cf (s_trhadv m false MeanHEdge s l c). addc.
  - unfold tracer_hadv_cell_simd. kstart Hd Hkc. sx. acc_simd ks cf (s_trhadv m true FluxHEdge s l c). vadd2.
  - unfold tracer_hadv_cell_scalar. kstart Hd Hkc. sx. acc_scalar ks cf (s_trhadv m false FluxHEdge s l c). addc.
Qed.

Lemma k_trdiff kap hm t m l c kc : edge_thickness hm ->
  wfm D m -> 0 <= l < d_ntracers D -> 0 <= c < d_ncells D -> 0 <= kc < d_nlayers_vec D ->
  safe D (tracer_diff_cell cf D kap hm t l c kc) m
    (Rd (own3 VL (only_a (TrCell t))) [l; c; kc]) (Wr (own3 VL (only_a (TrCell t))) [l; c; kc])
    (fun _ m' => meq m' (over m (updT cf m (TrCell t) [l; c] (kc * VL) (t_trdiff m (ksimd cf) kap hm l c)))).
Proof.
  intros Hhf Hm Hl Hc Hkc. pose proof (wd_vl _ _ Hd) as HVL. pose proof (wf_noc D m Hm c Hc).
  assert (Hs : only_a (TrCell t) (TrCell t) = true) by (destruct t; reflexivity).
  destruct Hhf as [-> | ->]; unfold tracer_diff_cell; destruct (ksimd cf) eqn:Hks.
  - unfold tracer_diff_cell_simd. kstart Hd Hkc. sx. acc_simd ks cf (s_trdiff m true kap MeanHEdge l c). vadd2.
  - unfold tracer_diff_cell_scalar. kstart Hd Hkc. sx. acc_scalar ks cf (s_trdiff m false kap MeanHEdge l c). addc.
  - unfold tracer_diff_cell_simd. kstart Hd Hkc. sx. acc_simd ks cf (s_trdiff m true kap FluxHEdge l c). vadd2.
  - unfold tracer_diff_cell_scalar. kstart Hd Hkc. sx. acc_scalar ks cf (s_trdiff m false kap FluxHEdge l c). addc.
Qed.

Lemma k_trdel2 hm m l c kc : edge_thickness hm ->
  wfm D m -> 0 <= l < d_ntracers D -> 0 <= c < d_ncells D -> 0 <= kc < d_nlayers_vec D ->
  safe D (compute_tracer_del2 cf D hm l c kc) m
    (Rd (own3 VL (only_a TracerDel2Cell)) [l; c; kc]) (Wr (own3 VL (only_a TracerDel2Cell)) [l; c; kc])
    (fun _ m' => meq m' (over m (updT cf m TracerDel2Cell [l; c] (kc * VL) (fun k _ => f_trdel2 m hm l c k)))).
Proof.
  intros Hhf Hm Hl Hc Hkc. pose proof (wd_vl _ _ Hd) as HVL. pose proof (wf_noc D m Hm c Hc). unfold updT.
  destruct Hhf as [-> | ->]; unfold compute_tracer_del2; destruct (ksimd cf) eqn:Hks.
  - unfold compute_tracer_del2_simd. kstart Hd Hkc. sx. acc_simd ks cf (s_trdel2 m MeanHEdge l c).
    vst2 (f_trdel2 m MeanHEdge l c).
  - unfold compute_tracer_del2_scalar. kstart Hd Hkc. sx. acc_scalar ks cf (s_trdel2 m MeanHEdge l c).
    stl TracerDel2Cell [l; c] (f_trdel2 m MeanHEdge l c).
  - unfold compute_tracer_del2_simd. kstart Hd Hkc. sx. acc_simd ks cf (s_trdel2 m FluxHEdge l c).
    vst2 (f_trdel2 m FluxHEdge l c).
  - unfold compute_tracer_del2_scalar. kstart Hd Hkc. sx. acc_scalar ks cf (s_trdel2 m FluxHEdge l c).
    stl TracerDel2Cell [l; c] (f_trdel2 m FluxHEdge l c).
Qed.

Lemma k_trhyp kap t m l c kc :
  wfm D m -> 0 <= l < d_ntracers D -> 0 <= c < d_ncells D -> 0 <= kc < d_nlayers_vec D ->
  safe D (tracer_hyperdiff_cell cf D kap t l c kc) m
    (Rd (own3 VL (only_a (TrCell t))) [l; c; kc]) (Wr (own3 VL (only_a (TrCell t))) [l; c; kc])
    (fun _ m' => meq m' (over m (updT cf m (TrCell t) [l; c] (kc * VL) (t_trhyp m kap l c)))).
Proof.
  intros Hm Hl Hc Hkc. pose proof (wd_vl _ _ Hd) as HVL. pose proof (wf_noc D m Hm c Hc).
  assert (Hs : only_a (TrCell t) (TrCell t) = true) by (destruct t; reflexivity).
  unfold tracer_hyperdiff_cell; destruct (ksimd cf) eqn:Hks.
  - unfold tracer_hyperdiff_cell_simd. kstart Hd Hkc. sx. acc_simd ks cf (s_trhyp m kap l c). vadd2.
  - unfold tracer_hyperdiff_cell_scalar. kstart Hd Hkc. sx. acc_scalar ks cf (s_trhyp m kap l c). addc.
Qed.
End KernTend.
