(** Proofs of the properties of [PropsTrap.v]. *)
From Coq Require Import ZArith Reals List Bool Lia Lra.
From Verif Require Import Arith Arrays Prog Conc Launch Mesh AuxVars Tend Model Hex MeshProof MeshMem Over Formulas KernBase Terms KernAux KernTend TendFn StepFn Ready TendVal ConsThms Trap.
Import ListNotations.
Open Scope Z_scope.

Lemma C36_edge_thickness_between_proof :
  forall (S : setup RA), setup_ok S ->
  forall (t s : sid) (time : R) (md : add_mode) (m : mem RA), s <> t -> ready S m ->
  always (sdims S) (compute_tendency S t s time md) m (fun m' => forall e k lo hi, 0 <= e < d_nedges (sdims S) -> 0 <= k < d_nlayers (sdims S) ->
    (forall j, 0 <= j < 2 -> (lo <= (mr m (HCell s) [mi m CellsOnEdge [e; j]; k] : R) <= hi)%R) ->
    (lo <= (mr m' MeanHEdge [e; k] : R) <= hi)%R /\ (lo <= (mr m' FluxHEdge [e; k] : R) <= hi)%R).
Proof.
  intros S Hok t s time md m Hts Hr. apply (always_fn S (compute_tendency S t s time md) (tendency_fn S t s time md)); [now apply rd_tendency|].
  intros M [_ HM] e k lo hi He Hk B. rewrite !HM, !tend_aux by reflexivity.
  rewrite (av_mean S (ok_wfd S Hok)), (av_flux S (ok_wfd S Hok)) by assumption.
  pose proof (B 0 ltac:(lia)) as B0. pose proof (B 1 ltac:(lia)) as B1. unfold f_mean, fhalf.
  revert B0 B1. cbn [F RA fadd fmul fdiv fofZ]. intros. split; lra.
Qed.

Lemma C36_vertex_thickness_between_proof :
  forall (S : setup RA), setup_ok S -> (0 < (dc (mesh_of_setup S) : R))%R ->
  forall (t s : sid) (time : R) (md : add_mode) (m : mem RA), s <> t -> ready S m ->
  always (sdims S) (compute_tendency S t s time md) m (fun m' => forall v k lo hi, 0 <= v < d_nvertices (sdims S) -> 0 <= k < d_nlayers (sdims S) ->
    (forall j, 0 <= j < 3 -> (lo <= (mr m (HCell s) [mi m CellsOnVertex [v; j]; k] : R) <= hi)%R) ->
    exists H : R, (lo <= H <= hi)%R /\
      mr m' NormRvortVertex [v; k] = (mr m' RvortVertex [v; k] / H)%R /\
      mr m' NormPvortVertex [v; k] = (mr m FVertex [v] / H)%R).
Proof.
  intros S Hok Hdc t s time md m Hts Hr. apply (always_fn S (compute_tendency S t s time md) (tendency_fn S t s time md)); [now apply rd_tendency|].
  intros M [_ HM] v k lo hi Hv Hk B. rewrite !HM, !tend_aux by reflexivity.
  rewrite (av_nrv S (ok_wfd S Hok)), (av_npv S (ok_wfd S Hok)), (av_rvort S (ok_wfd S Hok)) by assumption.
  exists (f_hvert m s v k). pose proof (ready_hex S Hok m Hr) as Hh. split.
  - pose proof (B 0 ltac:(lia)) as B0. pose proof (B 1 ltac:(lia)) as B1. pose proof (B 2 ltac:(lia)) as B2.
    change (f_hvert m s v k) with (s_hvert m s v k 2 (s_hvert m s v k 1 (s_hvert m s v k 0 (#0)%fp))). unfold s_hvert. cbv zeta.
    assert (Q : forall j, 0 <= j < 3 -> (mr m KiteareasOnVertex [v; j] * (#1 / mr m AreaTriangle [v]))%fp = (1 / 3)%R).
    { intros j Hj. rewrite (hm_kite _ _ _ Hh), (hm_atri _ _ _ Hh) by assumption. unfold hkite, hatri.
      cbn [F RA fadd fmul fdiv fofZ fsqrt] in *. assert (0 < sqrt 3)%R by (apply sqrt_lt_R0; lra). field. split; lra. }
    rewrite !Q by lia. revert B0 B1 B2. cbn [F RA fadd fmul fdiv fofZ]. intros. lra.
  - unfold f_nrv, f_npv. cbn [F RA fadd fmul fdiv fofZ]. unfold Rdiv. destruct (ksimd (cfg_of S)); split; ring.
Qed.

Lemma C36_no_division_by_zero_proof :
  forall (S : setup OA), setup_ok S ->
  forall (t s : sid) (time : F OA) (md : add_mode) (m : mem OA) (k : Z), s <> t -> ready S m -> 0 <= k < d_nlayers (sdims S) ->
  let P := par_of S in
  (exists d : R, dc (mesh_of_setup S) = Some d /\ (0 < d)%R) ->
  (f0 P <> None /\ grav P <> None /\ visc_del2 P <> None /\ visc_del4 P <> None /\ eddy_diff2 P <> None /\ eddy_diff4 P <> None) ->
  match hook S with
  | None => True
  | Some f => forall x y : F OA, x <> None -> y <> None -> force_h f x y time <> None /\ force_vx f x y time <> None /\ force_vy f x y time <> None
  end ->
  (forall c, 0 <= c < d_ncells (sdims S) -> exists r : R, mr m (HCell s) [c; k] = Some r /\ (0 < r)%R) ->
  (forall e, 0 <= e < d_nedges (sdims S) -> mr m (VnEdge s) [e; k] <> None /\
     mr m (VnEdge s) [e; if ksimd (cfg_of S) then k / vector_length (cfg_of S) * vector_length (cfg_of S) else k] <> None) ->
  (forall l c, 0 <= l < ntracers P -> 0 <= c < d_ncells (sdims S) -> mr m (TrCell s) [l; c; k] <> None) ->
  always (sdims S) (compute_tendency S t s time md) m (fun m' =>
    (forall a ix, In a [RvortVertex; NormRvortVertex; NormPvortVertex; NormRvortEdge; NormPvortEdge; KeCell; VelDivCell; MeanHEdge; FluxHEdge; NormTrCell] ->
       inb (rext (sdims S) a) ix = true -> last ix 0 = k -> mr m' a ix <> None) /\
    (md = Replace ->
       (disable_h P = false -> forall c, 0 <= c < d_ncells (sdims S) -> mr m' (HCell t) [c; k] <> None) /\
       (disable_vn P = false -> forall e, 0 <= e < d_nedges (sdims S) -> mr m' (VnEdge t) [e; k] <> None) /\
       (forall l c, 0 <= l < ntracers P -> 0 <= c < d_ncells (sdims S) -> mr m' (TrCell t) [l; c; k] <> None)) /\
    (forall a ix, inb (rext (sdims S) a) ix = true -> last ix 0 = k -> mr m' a ix = None -> mr m a ix = None)).
Proof.
  intros S Hok t s time md m k Hts Hr Hk P Hdc (P0 & Pg & P2 & P4 & E2 & E4) Pf Hh Hv Ht.
  apply (always_fn S (compute_tendency S t s time md) (tendency_fn S t s time md)); [now apply rd_tendency|].
  assert (V1 : F2 m (VnEdge s) (d_nedges (sdims S)) k) by (intros e He; now apply Hv).
  assert (V2 : F2 m (VnEdge s) (d_nedges (sdims S)) (rv_layer (cfg_of S) k)) by (intros e He; now apply Hv).
  assert (T1 : F3 S m (TrCell s) k) by (intros l c Hl Hc; apply Ht; [unfold P; now rewrite <- d_ntr|exact Hc]).
  intros M [_ HM]. repeat split.
  - intros a ix Ha Hi Hl. rewrite HM. apply (n_aux S Hok Hdc m Hr t s time md k Hk Hts P0 Pg P2 P4 E2 E4 Pf Hh V1 V2 T1); auto.
    repeat (destruct Ha as [<-|Ha]; [reflexivity|]). destruct Ha.
  - intros Hd c Hc. rewrite HM. destruct (n_h S Hok Hdc m Hr t s time md k Hk Hts P0 Pg P2 P4 E2 E4 Pf Hh V1 V2 T1 c Hc) as [Q|[[Q|Q] _]]; [exact Q|congruence|unfold P in *; congruence].
  - intros Hd e He. rewrite HM. destruct (n_v S Hok Hdc m Hr t s time md k Hk Hts P0 Pg P2 P4 E2 E4 Pf Hh V1 V2 T1 e He) as [Q|[[Q|Q] _]]; [exact Q|congruence|unfold P in *; congruence].
  - intros l c Hl Hc. rewrite HM. unfold P in Hl. rewrite <- d_ntr in Hl. destruct (n_tr S Hok Hdc m Hr t s time md k Hk Hts P0 Pg P2 P4 E2 E4 Pf Hh V1 V2 T1 l c Hl Hc) as [Q|[Q _]]; [exact Q|congruence].
  - intros a ix Hi Hl. rewrite HM. now apply (n_all S Hok Hdc m Hr t s time md k Hk Hts P0 Pg P2 P4 E2 E4 Pf Hh V1 V2 T1).
Qed.

Lemma C36_zero_thickness_divides_by_zero_proof :
  forall (S : setup OA), setup_ok S ->
  forall (t s : sid) (time : F OA) (md : add_mode) (m : mem OA) (l c k : Z), s <> t -> ready S m ->
  0 <= l < ntracers (par_of S) -> 0 <= c < d_ncells (sdims S) -> 0 <= k < d_nlayers (sdims S) ->
  mr m (HCell s) [c; k] = Some 0%R ->
  always (sdims S) (compute_tendency S t s time md) m (fun m' => mr m' NormTrCell [l; c; k] = None).
Proof.
  intros S Hok t s time md m l c k Hts Hr Hl Hc Hk H0. apply (always_fn S (compute_tendency S t s time md) (tendency_fn S t s time md)); [now apply rd_tendency|].
  intros M [_ HM]. rewrite HM, tend_aux by reflexivity. rewrite (av_ntr S (ok_wfd S Hok)) by (rewrite ?d_ntr; assumption).
  unfold f_ntr. rewrite H0. cbn. destruct (Req_EM_T 0 0); [|congruence]. now destruct (mr m (TrCell s) [l; c; k]).
Qed.

