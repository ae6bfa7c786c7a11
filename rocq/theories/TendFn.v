(** [compute_tendency] as a function on memories: whatever the schedule, the launches end in
    exactly this memory, without undefined behaviour and without data races. *)
From Coq Require Import ZArith List Bool Lia.
From Verif Require Import Arith Arrays Prog Conc Launch Mesh AuxVars Tend Model Over Formulas KernBase Terms KernAux KernTend.
Import ListNotations.
Open Scope Z_scope.

Definition on2 {X} (f : Z -> Z -> X -> X) (ix : list Z) (x : X) : X :=
  match ix with [i; k] => f i k x | _ => x end.
Definition on3 {X} (f : Z -> Z -> Z -> X -> X) (ix : list Z) (x : X) : X :=
  match ix with [l; i; k] => f l i k x | _ => x end.

Section When.
Context {A : Arith} (D : dims) (a : rarr).
Lemma term_when b (m : mem A) pre lo hi R W p g :
  term D a m pre lo hi R W p g -> term D a m pre lo hi R W (when b p) (fun ix x => if b then g ix x else x).
Proof. intros H. destruct b; [exact H|apply term_ret]. Qed.
Lemma hterm_when b (m : mem A) Ls g :
  hterm D a m Ls g -> hterm D a m (whenL b Ls) (fun ix x => if b then g ix x else x).
Proof. intros H. destruct b; [exact H|apply hterm_nil]. Qed.
End When.

(** Every element of array [a] is replaced by [g ix] of its value. *)
Definition upd {A} (D : dims) (a : rarr) (m : mem A) (g : list Z -> F A -> F A) : mem A :=
  setA D a m (fun ix => g ix (mr m a ix)).

Lemma upd_same {A} D a (m : mem A) g ix : inb (rext D a) ix = true -> mr (upd D a m g) a ix = g ix (mr m a ix).
Proof. intros H. unfold upd, setA, over, ext. cbn [mr]. destruct (rarr_eq_dec a a); [|congruence]. now rewrite H. Qed.
Lemma upd_other {A} D a (m : mem A) g b ix : b <> a -> mr (upd D a m g) b ix = mr m b ix.
Proof. intros H. unfold upd, setA, over. cbn [mr]. destruct (rarr_eq_dec a b); [congruence|reflexivity]. Qed.
Lemma upd_out {A} D a (m : mem A) g b ix : inb (rext D a) ix = false -> mr (upd D a m g) b ix = mr m b ix.
Proof. intros H. unfold upd, setA, over, ext. cbn [mr]. destruct (rarr_eq_dec a b); [|reflexivity]. now rewrite H. Qed.

Lemma wfm_meq {A} D (m m' : mem A) : meq m m' -> wfm D m -> wfm D m'.
Proof.
  intros [Hi _] [H1 H2 H3 H4 H5 H6 H7 H8]. constructor; intros; rewrite <- ?Hi in *; auto.
Qed.

Ltac ix2 :=
  intros [|i [|k [|? ?]]] x Hix; try (cbn in Hix; rewrite ?andb_false_r in Hix; discriminate).
Ltac ix3 :=
  intros [|l [|i [|k [|? ?]]]] x Hix; try (cbn in Hix; rewrite ?andb_false_r in Hix; discriminate).

Section TendFn.
Context {A : Arith} (S : setup A).
Local Notation cf := (cfg_of S).
Local Notation P := (par_of S).
Local Notation D := (sdims S).
Local Notation VL := (vector_length cf).
Local Notation sd := (ksimd cf).
Context (Hd : wfd cf D).
Implicit Types (m : mem A) (t s : sid) (md : add_mode).

Definition zr md (x : F A) : F A := if is_replace md then (#0)%fp else x.

(** ** Thickness *)
Definition h_fn t s md m : mem A :=
  upd D (HCell t) m (on2 (fun c k x => t_hadv m s c k (zr md x))).

Lemma tm_zero2 a m n i kc :
  rext D a = [n; d_nlayers D] -> wfm D m -> 0 <= i < n -> 0 <= kc < d_nlayers_vec D ->
  term D a m [i] (kc * VL) (kc * VL + VL) (Rd (own2 VL (only_a a)) [i; kc]) (Wr (own2 VL (only_a a)) [i; kc])
    (zero_chunk cf a [i] kc) (fun _ _ => (#0)%fp).
Proof.
  intros He Hm Hi Hkc. apply term_of with (G := fun _ _ _ => (#0)%fp); auto.
  intros m' _. now apply (k_zero2 cf D Hd) with (n := n).
Qed.
Lemma tm_zero3 a m n n' l i kc :
  rext D a = [n; n'; d_nlayers D] -> wfm D m -> 0 <= l < n -> 0 <= i < n' -> 0 <= kc < d_nlayers_vec D ->
  term D a m [l; i] (kc * VL) (kc * VL + VL) (Rd (own3 VL (only_a a)) [l; i; kc]) (Wr (own3 VL (only_a a)) [l; i; kc])
    (zero_chunk cf a [l; i] kc) (fun _ _ => (#0)%fp).
Proof.
  intros He Hm Hl Hi Hkc. apply term_of with (G := fun _ _ _ => (#0)%fp); auto.
  intros m' _. now apply (k_zero3 cf D Hd) with (n := n) (n' := n').
Qed.

Lemma hs_h t s md m :
  wfm D m -> hsafe D (compute_h_tendency S t s md) m (fun M => meq M (h_fn t s md m)).
Proof.
  intros Hm. apply hterm_set.
  assert (Hz : forall c kc, 0 <= c < d_ncells D -> 0 <= kc < d_nlayers_vec D ->
    term D (HCell t) m [c] (kc * VL) (kc * VL + VL)
      (Rd (own2 VL (only_a (HCell t))) [c; kc]) (Wr (own2 VL (only_a (HCell t))) [c; kc])
      (zero_chunk cf (HCell t) [c] kc) (fun _ _ => (#0)%fp)).
  { intros. now apply tm_zero2 with (n := d_ncells D). }
  assert (Hh : forall c kc, 0 <= c < d_ncells D -> 0 <= kc < d_nlayers_vec D ->
    term D (HCell t) m [c] (kc * VL) (kc * VL + VL)
      (Rd (own2 VL (only_a (HCell t))) [c; kc]) (Wr (own2 VL (only_a (HCell t))) [c; kc])
      (thickness_hadv_cell cf D t s c kc) (on2 (fun c k x => t_hadv m s c k x))).
  { intros c kc Hc Hkc. apply term_of with (G := fun n => t_hadv n s c); auto.
    - intros n Hn. now apply k_hadv. }
  unfold compute_h_tendency. destruct (noif cf).
  - eapply hterm_ext; [apply hterm_app; [apply hterm_when|]; apply hterm_par2 with (cf := cf); eauto|].
    ix2; reflexivity.
  - eapply hterm_ext; [apply hterm_par2 with (cf := cf); [exact Hd|reflexivity|]|].
    + intros c kc Hc Hkc. apply term_seq; [apply term_when|]; eauto.
    + ix2; reflexivity.
Qed.

(** ** Velocity *)
Definition g_vn t s md m (e k : Z) (x : F A) : F A :=
  let x := zr md x in
  let x := t_pv m sd s e k x in
  let x := t_kegrad m e k x in
  let x := t_sshgrad m (grav P) s e k x in
  let x := if vel_diff_enabled P then t_vdiff m sd (visc_del2 P) e k x else x in
  if vel_hyperdiff_enabled P then t_vhyp m (visc_del4 P) e k x else x.

(** The work arrays. *)
Definition del2_fn m : mem A := upd D VelDel2Edge m (on2 (fun e k _ => f_del2 m e k)).
Definition del2r_fn m : mem A := upd D VelDel2RvortVertex m (on2 (fun v k _ => f_del2r m v (rv_layer cf k))).
Definition del2d_fn m : mem A := upd D VelDel2DivCell m (on2 (fun c k _ => f_del2d m c k)).
Definition hyp_fn m : mem A := if vel_hyperdiff_enabled P then del2d_fn (del2r_fn (del2_fn m)) else m.
Definition vn_fn t s md m : mem A := let m := hyp_fn m in upd D (VnEdge t) m (on2 (g_vn t s md m)).

Lemma wfm_upd a m g : wfm D m -> wfm D (upd D a m g).
Proof. apply wfm_over. Qed.
Lemma wfm_hyp m : wfm D m -> wfm D (hyp_fn m).
Proof. intros H. unfold hyp_fn. destruct (vel_hyperdiff_enabled P); [|exact H]. now repeat apply wfm_upd. Qed.

Lemma hs_del2 m :
  wfm D m -> hsafe D [par2 (d_nedges D) (d_nlayers_vec D) (fun e kc => compute_vel_del2 cf D e kc)] m (fun M => meq M (del2_fn m)).
Proof.
  intros Hm. apply hterm_set. apply hterm_par2 with (cf := cf); [exact Hd|reflexivity|].
  intros e kc He Hkc. apply term_of with (G := fun n k _ => f_del2 n e k); auto. intros n Hn. now apply k_del2.
Qed.
Lemma hs_del2r m :
  wfm D m -> hsafe D [par2 (d_nvertices D) (d_nlayers_vec D) (fun e kc => compute_vel_del2_rvort cf D e kc)] m (fun M => meq M (del2r_fn m)).
Proof.
  intros Hm. apply hterm_set. apply hterm_par2 with (cf := cf); [exact Hd|reflexivity|].
  intros e kc He Hkc. apply term_of with (G := fun n k _ => f_del2r n e (rv_layer cf k)); auto. intros n Hn. now apply k_del2r.
Qed.
Lemma hs_del2d m :
  wfm D m -> hsafe D [par2 (d_ncells D) (d_nlayers_vec D) (fun e kc => compute_vel_del2_div cf D e kc)] m (fun M => meq M (del2d_fn m)).
Proof.
  intros Hm. apply hterm_set. apply hterm_par2 with (cf := cf); [exact Hd|reflexivity|].
  intros e kc He Hkc. apply term_of with (G := fun n k _ => f_del2d n e k); auto. intros n Hn. now apply k_del2d.
Qed.

Lemma hs_vn t s md m :
  s <> t -> wfm D m -> hsafe D (compute_vn_tendency S t s md) m (fun M => meq M (vn_fn t s md m)).
Proof.
  intros Hts Hm0. unfold compute_vn_tendency, vn_fn. apply (hsafe_seq D _ _ _ (hyp_fn m)).
  { unfold hyp_fn. destruct (vel_hyperdiff_enabled P); [|constructor; apply meq_refl].
    cbn [whenL]. eapply (hsafe_seq D [_] [_; _]); [now apply hs_del2|].
    eapply (hsafe_seq D [_] [_]); [apply hs_del2r; now apply wfm_upd|]. apply hs_del2d. now repeat apply wfm_upd. }
  pose proof (wfm_hyp m Hm0) as Hm. set (m0 := hyp_fn m) in *. clearbody m0. clear m Hm0. rename m0 into m.
  cbv zeta. apply hterm_set.
  assert (Hz : forall e kc, 0 <= e < d_nedges D -> 0 <= kc < d_nlayers_vec D ->
    term D (VnEdge t) m [e] (kc * VL) (kc * VL + VL)
      (Rd (own2 VL (only_a (VnEdge t))) [e; kc]) (Wr (own2 VL (only_a (VnEdge t))) [e; kc])
      (zero_chunk cf (VnEdge t) [e] kc) (fun _ _ => (#0)%fp)).
  { intros. now apply tm_zero2 with (n := d_nedges D). }
  assert (Hpv : forall e kc, 0 <= e < d_nedges D -> 0 <= kc < d_nlayers_vec D ->
    term D (VnEdge t) m [e] (kc * VL) (kc * VL + VL)
      (Rd (own2 VL (only_a (VnEdge t))) [e; kc]) (Wr (own2 VL (only_a (VnEdge t))) [e; kc])
      (pv_flux_edge cf D t s e kc) (on2 (fun e k x => t_pv m sd s e k x))).
  { intros e kc Hi Hkc. apply term_of with (G := fun n => t_pv n sd s e); [exact Hm| |].
    - intros n Hn. now apply k_pv.
    - destruct t, s; congruence || reflexivity. }
  assert (Hke : forall e kc, 0 <= e < d_nedges D -> 0 <= kc < d_nlayers_vec D ->
    term D (VnEdge t) m [e] (kc * VL) (kc * VL + VL)
      (Rd (own2 VL (only_a (VnEdge t))) [e; kc]) (Wr (own2 VL (only_a (VnEdge t))) [e; kc])
      (ke_grad_edge cf D t e kc) (on2 (fun e k x => t_kegrad m e k x))).
  { intros e kc Hi Hkc. apply term_of with (G := fun n => t_kegrad n e); [exact Hm| |].
    - intros n Hn. now apply k_kegrad.
    - reflexivity. }
  assert (Hssh : forall e kc, 0 <= e < d_nedges D -> 0 <= kc < d_nlayers_vec D ->
    term D (VnEdge t) m [e] (kc * VL) (kc * VL + VL)
      (Rd (own2 VL (only_a (VnEdge t))) [e; kc]) (Wr (own2 VL (only_a (VnEdge t))) [e; kc])
      (ssh_grad_edge cf D (grav P) t s e kc) (on2 (fun e k x => t_sshgrad m (grav P) s e k x))).
  { intros e kc Hi Hkc. apply term_of with (G := fun n => t_sshgrad n (grav P) s e); [exact Hm| |].
    - intros n Hn. now apply k_sshgrad.
    - reflexivity. }
  assert (Hvd : forall e kc, 0 <= e < d_nedges D -> 0 <= kc < d_nlayers_vec D ->
    term D (VnEdge t) m [e] (kc * VL) (kc * VL + VL)
      (Rd (own2 VL (only_a (VnEdge t))) [e; kc]) (Wr (own2 VL (only_a (VnEdge t))) [e; kc])
      (vel_diff_edge cf D (visc_del2 P) t e kc) (on2 (fun e k x => t_vdiff m sd (visc_del2 P) e k x))).
  { intros e kc Hi Hkc. apply term_of with (G := fun n => t_vdiff n sd (visc_del2 P) e); [exact Hm| |].
    - intros n Hn. now apply k_vdiff.
    - reflexivity. }
  assert (Hvh : forall e kc, 0 <= e < d_nedges D -> 0 <= kc < d_nlayers_vec D ->
    term D (VnEdge t) m [e] (kc * VL) (kc * VL + VL)
      (Rd (own2 VL (only_a (VnEdge t))) [e; kc]) (Wr (own2 VL (only_a (VnEdge t))) [e; kc])
      (vel_hyperdiff_edge cf D (visc_del4 P) t e kc) (on2 (fun e k x => t_vhyp m (visc_del4 P) e k x))).
  { intros e kc Hi Hkc. apply term_of with (G := fun n => t_vhyp n (visc_del4 P) e); [exact Hm| |].
    - intros n Hn. now apply k_vhyp.
    - reflexivity. }
  destruct (noif cf).
  - eapply hterm_ext.
    { apply hterm_app; [apply hterm_when; apply hterm_par2 with (cf := cf); [exact Hd|reflexivity|exact Hz]|].
    apply hterm_app; [apply hterm_par2 with (cf := cf); [exact Hd|reflexivity|exact Hpv]|].
    apply hterm_app; [apply hterm_par2 with (cf := cf); [exact Hd|reflexivity|exact Hke]|].
    apply hterm_app; [apply hterm_par2 with (cf := cf); [exact Hd|reflexivity|exact Hssh]|].
    apply hterm_app; [apply hterm_when; apply hterm_par2 with (cf := cf); [exact Hd|reflexivity|exact Hvd]|].
    apply hterm_when; apply hterm_par2 with (cf := cf); [exact Hd|reflexivity|exact Hvh]. }
    ix2; reflexivity.
  - eapply hterm_ext; [apply hterm_par2 with (cf := cf); [exact Hd|reflexivity|]|].
    + intros e kc He Hkc.
      apply term_seq; [apply term_when; exact (Hz e kc He Hkc)|].
      apply term_seq; [exact (Hpv e kc He Hkc)|].
      apply term_seq; [exact (Hke e kc He Hkc)|].
      apply term_seq; [exact (Hssh e kc He Hkc)|].
      apply term_seq; [apply term_when; exact (Hvd e kc He Hkc)|].
      apply term_when; exact (Hvh e kc He Hkc).
    + ix2; reflexivity.
Qed.

(** ** Tracers *)
Definition g_tr t s md m (l c k : Z) (x : F A) : F A :=
  let x := zr md x in
  let x := t_trhadv m sd MeanHEdge s l c k x in
  let x := if tracer_diff_enabled P then t_trdiff m sd (eddy_diff2 P) FluxHEdge l c k x else x in
  if tracer_hyperdiff_enabled P then t_trhyp m (eddy_diff4 P) l c k x else x.
Definition trdel2_fn m : mem A :=
  if tracer_hyperdiff_enabled P then upd D TracerDel2Cell m (on3 (fun l c k _ => f_trdel2 m FluxHEdge l c k)) else m.
Definition tr_fn t s md m : mem A := let m := trdel2_fn m in upd D (TrCell t) m (on3 (g_tr t s md m)).

Lemma wfm_trdel2 m : wfm D m -> wfm D (trdel2_fn m).
Proof. intros H. unfold trdel2_fn. destruct (tracer_hyperdiff_enabled P); [|exact H]. now apply wfm_upd. Qed.

Lemma hs_tr t s md m :
  wfm D m -> hsafe D (compute_tr_tendency S t s md) m (fun M => meq M (tr_fn t s md m)).
Proof.
  intros Hm0. unfold compute_tr_tendency, tr_fn. cbv zeta. apply (hsafe_seq D _ _ _ (trdel2_fn m)).
  { unfold trdel2_fn. destruct (tracer_hyperdiff_enabled P); [|constructor; apply meq_refl].
    cbn [whenL]. apply hterm_set. apply hterm_par3 with (cf := cf); [exact Hd|reflexivity|].
    intros l c kc Hl Hc Hkc. apply term_of with (G := fun n k _ => f_trdel2 n FluxHEdge l c k); auto.
    intros n Hn. apply k_trdel2; auto. now right. }
  pose proof (wfm_trdel2 m Hm0) as Hm. set (m0 := trdel2_fn m) in *. clearbody m0. clear m Hm0. rename m0 into m.
  apply hterm_set.
  assert (Hz : forall l c kc, 0 <= l < ntracers P -> 0 <= c < d_ncells D -> 0 <= kc < d_nlayers_vec D ->
    term D (TrCell t) m [l; c] (kc * VL) (kc * VL + VL)
      (Rd (own3 VL (only_a (TrCell t))) [l; c; kc]) (Wr (own3 VL (only_a (TrCell t))) [l; c; kc])
      (zero_chunk cf (TrCell t) [l; c] kc) (fun _ _ => (#0)%fp)).
  { intros. now apply tm_zero3 with (n := ntracers P) (n' := d_ncells D). }
  assert (HM : edge_thickness MeanHEdge) by now left.
  assert (HF : edge_thickness FluxHEdge) by now right.
  assert (Hha : forall l c kc, 0 <= l < ntracers P -> 0 <= c < d_ncells D -> 0 <= kc < d_nlayers_vec D ->
    term D (TrCell t) m [l; c] (kc * VL) (kc * VL + VL)
      (Rd (own3 VL (only_a (TrCell t))) [l; c; kc]) (Wr (own3 VL (only_a (TrCell t))) [l; c; kc])
      (tracer_hadv_cell cf D MeanHEdge t s l c kc) (on3 (fun l c k x => t_trhadv m sd MeanHEdge s l c k x))).
  { intros l c kc Hl Hi Hkc. apply term_of with (G := fun n => t_trhadv n sd MeanHEdge s l c); [exact Hm| |].
    - intros n Hn. apply k_trhadv; auto.
    - reflexivity. }
  assert (Hdi : forall l c kc, 0 <= l < ntracers P -> 0 <= c < d_ncells D -> 0 <= kc < d_nlayers_vec D ->
    term D (TrCell t) m [l; c] (kc * VL) (kc * VL + VL)
      (Rd (own3 VL (only_a (TrCell t))) [l; c; kc]) (Wr (own3 VL (only_a (TrCell t))) [l; c; kc])
      (tracer_diff_cell cf D (eddy_diff2 P) FluxHEdge t l c kc) (on3 (fun l c k x => t_trdiff m sd (eddy_diff2 P) FluxHEdge l c k x))).
  { intros l c kc Hl Hi Hkc. apply term_of with (G := fun n => t_trdiff n sd (eddy_diff2 P) FluxHEdge l c); [exact Hm| |].
    - intros n Hn. apply k_trdiff; auto.
    - reflexivity. }
  assert (Hhy : forall l c kc, 0 <= l < ntracers P -> 0 <= c < d_ncells D -> 0 <= kc < d_nlayers_vec D ->
    term D (TrCell t) m [l; c] (kc * VL) (kc * VL + VL)
      (Rd (own3 VL (only_a (TrCell t))) [l; c; kc]) (Wr (own3 VL (only_a (TrCell t))) [l; c; kc])
      (tracer_hyperdiff_cell cf D (eddy_diff4 P) t l c kc) (on3 (fun l c k x => t_trhyp m (eddy_diff4 P) l c k x))).
  { intros l c kc Hl Hi Hkc. apply term_of with (G := fun n => t_trhyp n (eddy_diff4 P) l c); [exact Hm| |].
    - intros n Hn. apply k_trhyp; auto.
    - reflexivity. }
  destruct (noif cf).
  - eapply hterm_ext.
    { apply hterm_app; [apply hterm_when; apply hterm_par3 with (cf := cf); [exact Hd|reflexivity|exact Hz]|].
    apply hterm_app; [apply hterm_par3 with (cf := cf); [exact Hd|reflexivity|exact Hha]|].
    apply hterm_app; [apply hterm_when; apply hterm_par3 with (cf := cf); [exact Hd|reflexivity|exact Hdi]|].
    apply hterm_when; apply hterm_par3 with (cf := cf); [exact Hd|reflexivity|exact Hhy]. }
    ix3; reflexivity.
  - eapply hterm_ext; [apply hterm_par3 with (cf := cf); [exact Hd|reflexivity|]|].
    + intros l c kc Hl Hc Hkc.
      apply term_seq; [apply term_when; exact (Hz l c kc Hl Hc Hkc)|].
      apply term_seq; [exact (Hha l c kc Hl Hc Hkc)|].
      apply term_seq; [apply term_when; exact (Hdi l c kc Hl Hc Hkc)|].
      apply term_when; exact (Hhy l c kc Hl Hc Hkc).
    + ix3; reflexivity.
Qed.
End TendFn.
