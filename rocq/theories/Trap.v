(** Real arithmetic in which a division by zero, or the square root of a negative number, is trapped: the result and
    everything computed from it is [None]. *)
From Coq Require Import ZArith Reals List Bool Lia Lra.
From Verif Require Import Arith Arrays Prog Conc Launch Mesh AuxVars Tend Model Hex MeshProof MeshMem Over Formulas KernBase Terms KernAux KernTend TendFn StepFn Ready TendVal ConsThms.
Import ListNotations.
Open Scope Z_scope.

Definition lift1 (f : R -> R) (x : option R) : option R := match x with Some a => Some (f a) | None => None end.
Definition lift2 (f : R -> R -> R) (x y : option R) : option R :=
  match x, y with Some a, Some b => Some (f a b) | _, _ => None end.
(** The interpretation of the operations of /repo/src (see Arith.v). *)
Definition OA : Arith := {|
  F := option R; fofZ := fun z => Some (IZR z);
  fadd := lift2 Rplus; fsub := lift2 Rminus; fmul := lift2 Rmult;
  fdiv := fun x y => match x, y with Some a, Some b => if Req_EM_T b 0 then None else Some (a / b)%R | _, _ => None end;
  fopp := lift1 Ropp;
  fsqrt := fun x => match x with Some a => if Rlt_dec a 0 then None else Some (sqrt a) | None => None end;
  fcos := lift1 cos; fsin := lift1 sin; fpi := Some PI;
  flt := fun x y => match x, y with Some a, Some b => if Rlt_dec a b then true else false | _, _ => false end |}.

Definition isS (x : F OA) : Prop := x <> None.
Definition pos (x : F OA) : Prop := exists r : R, x = Some r /\ (0 < r)%R.
Lemma isS_ex (x : F OA) : isS x -> exists r : R, x = Some r.
Proof. destruct x as [r|]; [eauto|]. intros H. now elim H. Qed.
Lemma is_pos x : pos x -> isS x.
Proof. intros (r & -> & _). discriminate. Qed.
Lemma is_Z z : isS (#z)%fp. Proof. discriminate. Qed.
Lemma is_add x y : isS x -> isS y -> isS (x + y)%fp.
Proof. intros H1 H2. apply isS_ex in H1, H2. destruct H1 as [a ->], H2 as [b ->]. discriminate. Qed.
Lemma is_sub x y : isS x -> isS y -> isS (x - y)%fp.
Proof. intros H1 H2. apply isS_ex in H1, H2. destruct H1 as [a ->], H2 as [b ->]. discriminate. Qed.
Lemma is_mul x y : isS x -> isS y -> isS (x * y)%fp.
Proof. intros H1 H2. apply isS_ex in H1, H2. destruct H1 as [a ->], H2 as [b ->]. discriminate. Qed.
Lemma is_div x y : isS x -> pos y -> isS (x / y)%fp.
Proof. intros H1 (b & -> & H). apply isS_ex in H1. destruct H1 as [a ->]. cbn. destruct (Req_EM_T b 0); [lra|discriminate]. Qed.
Lemma is_cos x : isS x -> isS (fcos x). Proof. intros H1. apply isS_ex in H1. destruct H1 as [a ->]. discriminate. Qed.
Lemma is_sin x : isS x -> isS (fsin x). Proof. intros H1. apply isS_ex in H1. destruct H1 as [a ->]. discriminate. Qed.
Lemma pos_Z z : 0 < z -> pos (#z)%fp.
Proof. intros H. exists (IZR z). split; [reflexivity|]. now apply IZR_lt. Qed.
Lemma pos_add x y : pos x -> pos y -> pos (x + y)%fp.
Proof. intros (a & -> & H1) (b & -> & H2). exists (a + b)%R. split; [reflexivity|lra]. Qed.
Lemma pos_mul x y : pos x -> pos y -> pos (x * y)%fp.
Proof. intros (a & -> & H1) (b & -> & H2). exists (a * b)%R. split; [reflexivity|now apply Rmult_lt_0_compat]. Qed.
Lemma pos_div x y : pos x -> pos y -> pos (x / y)%fp.
Proof.
  intros (a & -> & H1) (b & -> & H2). exists (a / b)%R. split; [|apply Rmult_lt_0_compat; [exact H1|now apply Rinv_0_lt_compat]].
  cbn. destruct (Req_EM_T b 0); [lra|reflexivity].
Qed.
Lemma pos_sqrt x : pos x -> pos (fsqrt x).
Proof. intros (a & -> & H1). exists (sqrt a). split; [|now apply sqrt_lt_R0]. cbn. destruct (Rlt_dec a 0); [lra|reflexivity]. Qed.
Lemma pos_max x y : pos x -> isS y -> pos (fmax x y).
Proof.
  intros (a & -> & H1) H2. apply isS_ex in H2. destruct H2 as [b ->]. unfold fmax. cbn [flt OA].
  destruct (Rlt_dec a b); [exists b|exists a]; split; auto; lra.
Qed.
Lemma is_half : isS fhalf. Proof. apply is_div; [apply is_Z|now apply pos_Z]. Qed.
Lemma is_quarter : isS fquarter. Proof. apply is_div; [apply is_Z|now apply pos_Z]. Qed.
Lemma is_pi : isS fpi. Proof. discriminate. Qed.
Lemma is_if (b : bool) x y : isS x -> isS y -> isS (if b then x else y).
Proof. destruct b; auto. Qed.
Lemma is_iter n (f : Z -> F OA -> F OA) x : isS x -> (forall j y, 0 <= j < n -> isS y -> isS (f j y)) -> isS (iterZ n f x).
Proof.
  intros Hx Hf. assert (C : n <= 0 \/ 0 <= n) by lia. destruct C as [C|C].
  - unfold iterZ. now replace (Z.to_nat n) with O by lia.
  - apply (iterZ_inv (fun _ => isS)); auto.
Qed.
Create HintDb trap.
#[export] Hint Resolve is_Z is_add is_sub is_mul is_div is_half is_quarter is_if pos_Z : trap.
#[export] Hint Extern 1 (_ < _)%Z => lia : trap.

Section Trap.
Context (S : setup OA) (Hok : setup_ok S) (Hdc : pos (dc (mesh_of_setup S))).
Local Notation P := (par_of S).
Local Notation D := (sdims S).
Local Notation cf := (cfg_of S).
Local Notation h := (mesh_of_setup S).
Local Notation NL := (d_nlayers D).

(** What the kernels use of the mesh. *)
Record geo (m : mem OA) : Prop := {
  g_wf : wfm D m;
  g_area : forall c, 0 <= c < d_ncells D -> pos (mr m AreaCell [c]);
  g_dc : forall e, 0 <= e < d_nedges D -> pos (mr m DcEdge [e]);
  g_dv : forall e, 0 <= e < d_nedges D -> pos (mr m DvEdge [e]);
  g_at : forall v, 0 <= v < d_nvertices D -> pos (mr m AreaTriangle [v]);
  g_kite : forall v j, 0 <= v < d_nvertices D -> 0 <= j < 3 -> pos (mr m KiteareasOnVertex [v; j]);
  g_esc : forall c j, 0 <= c < d_ncells D -> 0 <= j < 6 -> isS (mr m EdgeSignOnCell [c; j]);
  g_esv : forall v j, 0 <= v < d_nvertices D -> 0 <= j < 3 -> isS (mr m EdgeSignOnVertex [v; j]);
  g_w : forall e j, 0 <= e < d_nedges D -> 0 <= j < 12 -> isS (mr m WeightsOnEdge [e; j]);
  g_s2 : forall e, 0 <= e < d_nedges D -> isS (mr m MeshScalingDel2 [e]);
  g_s4 : forall e, 0 <= e < d_nedges D -> isS (mr m MeshScalingDel4 [e]);
  g_mask : forall e k, 0 <= e < d_nedges D -> 0 <= k < NL -> isS (mr m EdgeMask [e; k]);
  g_fv : forall v, 0 <= v < d_nvertices D -> isS (mr m FVertex [v]);
  g_xc : forall c, 0 <= c < d_ncells D -> isS (mr m XCell [c]) /\ isS (mr m YCell [c]);
  g_xe : forall e, 0 <= e < d_nedges D -> isS (mr m XEdge [e]) /\ isS (mr m YEdge [e]) /\ isS (mr m AngleEdge [e])
}.

Lemma is_hxc c : isS (hxc h c).
Proof. unfold hxc. apply is_pos in Hdc as Hd'. auto 10 with trap. Qed.
Lemma is_sq3 : isS (fsqrt (#3 : F OA)%fp). Proof. apply is_pos, pos_sqrt. now apply pos_Z. Qed.
Lemma is_hyc c : isS (hyc h c).
Proof. unfold hyc. apply is_pos in Hdc as Hd'. pose proof is_sq3. auto 10 with trap. Qed.
Lemma is_hw e j : isS (hw (A:=OA) e j).
Proof.
  unfold hw. apply is_mul; [|apply is_div; [apply is_Z|apply pos_sqrt; now apply pos_Z]].
  unfold hw0. cbv zeta. repeat apply is_if; auto with trap.
Qed.

Lemma geo_ready m : isS (f0 P) -> ready S m -> geo m.
Proof.
  intros Hf Hr. pose proof (ready_hex S Hok m Hr) as Hh. pose proof (is_pos _ Hdc) as Hd'. pose proof is_sq3 as Hs3.
  assert (Hs3' : pos (fsqrt (#3 : F OA)%fp)) by (apply pos_sqrt; now apply pos_Z).
  constructor; intros.
  - now apply ready_wfm.
  - rewrite (hm_area _ _ _ Hh) by assumption. unfold hareac. repeat first [apply pos_div|apply pos_mul]; auto; now apply pos_Z.
  - rewrite (hm_dce _ _ _ Hh) by assumption. exact Hdc.
  - rewrite (hm_dve _ _ _ Hh) by assumption. unfold hdve. repeat first [apply pos_div|apply pos_mul]; auto; now apply pos_Z.
  - rewrite (hm_atri _ _ _ Hh) by assumption. unfold hatri. repeat first [apply pos_div|apply pos_mul]; auto; now apply pos_Z.
  - rewrite (hm_kite _ _ _ Hh) by assumption. unfold hkite. repeat first [apply pos_div|apply pos_mul]; auto; now apply pos_Z.
  - rewrite (hm_esc _ _ _ Hh) by assumption. apply is_Z.
  - rewrite (hm_esv _ _ _ Hh) by assumption. apply is_Z.
  - rewrite (hm_w _ _ _ Hh) by assumption. apply is_hw.
  - rewrite (hm_sc2 _ _ _ Hh) by assumption. apply is_Z.
  - rewrite (hm_sc4 _ _ _ Hh) by assumption. apply is_Z.
  - rewrite (hm_mask _ _ _ Hh) by assumption. apply is_Z.
  - rewrite (ready_fv S Hok) by assumption. exact Hf.
  - rewrite (hm_xc _ _ _ Hh), (hm_yc _ _ _ Hh) by assumption. split; [apply is_hxc|apply is_hyc].
  - rewrite (hm_xe _ _ _ Hh), (hm_ye _ _ _ Hh), (hm_ang _ _ _ Hh) by assumption.
    unfold hxe, hye, hang. pose proof is_hxc. pose proof is_hyc. pose proof is_pi.
    assert (isS (fcos (fpi / #3 : F OA)%fp)) by (apply is_cos, is_div; [apply is_pi|now apply pos_Z]).
    assert (isS (fsin (fpi / #3 : F OA)%fp)) by (apply is_sin, is_div; [apply is_pi|now apply pos_Z]).
    cbv zeta. repeat split; auto 20 with trap.
Qed.

Definition geo_arr (a : rarr) : bool :=
  match a with
  | AreaCell | DcEdge | DvEdge | AreaTriangle | KiteareasOnVertex | EdgeSignOnCell | EdgeSignOnVertex | WeightsOnEdge
  | MeshScalingDel2 | MeshScalingDel4 | EdgeMask | FVertex | XCell | YCell | XEdge | YEdge | AngleEdge => true
  | _ => false
  end.
Lemma geo_ext (m n : mem OA) : mi n = mi m -> (forall a ix, geo_arr a = true -> mr n a ix = mr m a ix) -> geo m -> geo n.
Proof.
  intros Hi Hr [[G0 G1 G2 G3 G4 G5 G6 G7] H1 H2 H3 H4 H5 H6 H7 H8 H9 H10 H11 H12 H13 H14].
  constructor; [constructor; rewrite Hi; assumption|..]; intros; rewrite !Hr by reflexivity; auto.
Qed.
Lemma geo_upd a g (m : mem OA) : geo_arr a = false -> geo m -> geo (upd D a m g).
Proof. intros Ha. apply geo_ext; [reflexivity|]. intros b ix Hb. apply upd_other. intros ->. congruence. Qed.
Lemma geo_aux s (m : mem OA) : geo m -> geo (aux_fn cf D s m).
Proof. apply geo_ext; [reflexivity|]. intros b ix Hb. apply aux_other. destruct b; try discriminate Hb; reflexivity. Qed.

Definition F2 (m : mem OA) a n k : Prop := forall i, 0 <= i < n -> isS (mr m a [i; k]).
Definition F3 (m : mem OA) a k : Prop := forall l c, 0 <= l < d_ntracers D -> 0 <= c < d_ncells D -> isS (mr m a [l; c; k]).
Local Notation NV := (d_nvertices D).
Local Notation NC := (d_ncells D).
Local Notation NE := (d_nedges D).

Ltac rng G := first
  [ assumption | lia
  | apply (wf_eoc _ _ (g_wf _ G)) | apply (wf_coe _ _ (g_wf _ G)) | apply (wf_voe _ _ (g_wf _ G))
  | apply (wf_eoe _ _ (g_wf _ G)) | apply (wf_eov _ _ (g_wf _ G)) | apply (wf_cov _ _ (g_wf _ G)) ].
Ltac tr G :=
  repeat match goal with
  | |- _ <= _ < _ => rng G
  | |- isS (_ + _)%fp => apply is_add
  | |- isS (_ - _)%fp => apply is_sub
  | |- isS (_ * _)%fp => apply is_mul
  | |- isS (_ / _)%fp => apply is_div
  | |- isS (#_)%fp => apply is_Z
  | |- isS (if _ then _ else _) => apply is_if
  | |- isS fhalf => apply is_half
  | |- isS fquarter => apply is_quarter
  | |- isS (mr _ AreaCell _) => apply is_pos, (g_area _ G)
  | |- pos (mr _ AreaCell _) => apply (g_area _ G)
  | |- isS (mr _ DcEdge _) => apply is_pos, (g_dc _ G)
  | |- pos (mr _ DcEdge _) => apply (g_dc _ G)
  | |- isS (mr _ DvEdge _) => apply is_pos, (g_dv _ G)
  | |- pos (mr _ DvEdge _) => apply (g_dv _ G)
  | |- pos (mr _ AreaTriangle _) => apply (g_at _ G)
  | |- isS (mr _ KiteareasOnVertex _) => apply is_pos, (g_kite _ G)
  | |- isS (mr _ EdgeSignOnCell _) => apply (g_esc _ G)
  | |- isS (mr _ EdgeSignOnVertex _) => apply (g_esv _ G)
  | |- isS (mr _ WeightsOnEdge _) => apply (g_w _ G)
  | |- isS (mr _ MeshScalingDel2 _) => apply (g_s2 _ G)
  | |- isS (mr _ MeshScalingDel4 _) => apply (g_s4 _ G)
  | |- isS (mr _ EdgeMask _) => apply (g_mask _ G)
  | |- isS (mr _ FVertex _) => apply (g_fv _ G)
  | H : F2 _ ?a _ _ |- isS (mr _ ?a _) => apply H
  | H : F3 _ ?a _ |- isS (mr _ ?a _) => apply H
  | H : isS ?x |- isS ?x => exact H
  end.

Section One.
Context (m : mem OA) (G : geo m) (s : sid) (k : Z) (Hk : 0 <= k < NL).
Lemma i_ke c : F2 m (VnEdge s) NE k -> 0 <= c < NC -> isS (f_ke m s c k).
Proof. intros V Hc. pose proof (wf_noc _ _ (g_wf _ G) c Hc). apply is_iter; [apply is_Z|]. intros j y Hj Hy. unfold s_ke. cbv zeta. tr G. Qed.
Lemma i_div c : F2 m (VnEdge s) NE k -> 0 <= c < NC -> isS (f_div m s c k).
Proof. intros V Hc. pose proof (wf_noc _ _ (g_wf _ G) c Hc). apply is_iter; [apply is_Z|]. intros j y Hj Hy. unfold s_div. cbv zeta. tr G. Qed.
Lemma i_rvort v : F2 m (VnEdge s) NE k -> 0 <= v < NV -> isS (f_rvort m s v k).
Proof. intros V Hc. apply is_iter; [apply is_Z|]. intros j y Hj Hy. unfold s_rvort. cbv zeta. tr G. Qed.
Section Pos.
Context (Hh : forall c, 0 <= c < NC -> pos (mr m (HCell s) [c; k])).
Lemma i_h : F2 m (HCell s) NC k.
Proof using Hh. intros c Hc. apply is_pos. now apply Hh. Qed.
Lemma p_hvert v : 0 <= v < NV -> pos (f_hvert m s v k).
Proof using G Hh.
  intros Hv. change (f_hvert m s v k) with (s_hvert m s v k 2 (s_hvert m s v k 1 (s_hvert m s v k 0 (#0)%fp))).
  assert (Q : forall j, 0 <= j < 3 -> pos (mr m KiteareasOnVertex [v; j] * (#1 / mr m AreaTriangle [v]) * mr m (HCell s) [mi m CellsOnVertex [v; j]; k])%fp).
  { intros j Hj. apply pos_mul; [apply pos_mul; [|apply pos_div]|].
    - now apply (g_kite _ G).
    - now apply pos_Z.
    - now apply (g_at _ G).
    - apply Hh. rng G; auto. }
  unfold s_hvert. cbv zeta. apply pos_add; [|apply Q; lia]. apply pos_add; [|apply Q; lia].
  destruct (Q 0 ltac:(lia)) as (r & -> & Hr). exists (0 + r)%R. split; [reflexivity|lra].
Qed.
Lemma i_nrv v : F2 m (VnEdge s) NE k -> 0 <= v < NV -> isS (f_nrv m (ksimd cf) s v k).
Proof using G Hh. intros V Hv. pose proof (p_hvert v Hv). pose proof (i_rvort v V Hv). unfold f_nrv. tr G; assumption. Qed.
Lemma i_npv v : 0 <= v < NV -> isS (f_npv m s v k).
Proof using G Hh. intros Hv. pose proof (p_hvert v Hv). unfold f_npv. tr G; assumption. Qed.
Lemma i_mean e : 0 <= e < NE -> isS (f_mean m s e k).
Proof using G Hh. intros He. pose proof i_h. unfold f_mean. tr G; assumption || lia. Qed.
Lemma i_ntr l c : F3 m (TrCell s) k -> 0 <= l < d_ntracers D -> 0 <= c < NC -> isS (f_ntr m s l c k).
Proof using G Hh. intros T Hl Hc. pose proof (Hh c Hc). unfold f_ntr. tr G; assumption. Qed.
End Pos.
End One.

(** The auxiliary variables. *)
Section AuxOk.
Context (m : mem OA) (G : geo m) (s : sid) (k : Z) (Hk : 0 <= k < NL).
Local Notation a := (aux_fn cf D s m).
Lemma x_vn : F2 m (VnEdge s) NE k -> F2 a RvortVertex NV k /\ F2 a VelDivCell NC k /\ F2 a KeCell NC k.
Proof using Hok G Hk.
  intros V. repeat split; intros i Hi; [rewrite (av_rvort S (ok_wfd S Hok))|rewrite (av_div S (ok_wfd S Hok))|rewrite (av_ke S (ok_wfd S Hok))];
    auto using i_rvort, i_div, i_ke.
Qed.
Context (Hh : forall c, 0 <= c < NC -> pos (mr m (HCell s) [c; k])).
Lemma x_mean : F2 a MeanHEdge NE k /\ F2 a FluxHEdge NE k.
Proof using Hok G Hk Hh. split; intros i Hi; [rewrite (av_mean S (ok_wfd S Hok))|rewrite (av_flux S (ok_wfd S Hok))]; auto using i_mean. Qed.
Lemma x_ntr : F3 m (TrCell s) k -> F3 a NormTrCell k.
Proof using Hok G Hk Hh. intros T l c Hl Hc. rewrite (av_ntr S (ok_wfd S Hok)) by assumption. apply i_ntr; assumption. Qed.
Lemma x_norm : F2 m (VnEdge s) NE k -> F2 a NormRvortVertex NV k /\ F2 a NormPvortVertex NV k /\ F2 a NormRvortEdge NE k /\ F2 a NormPvortEdge NE k.
Proof using Hok G Hk Hh.
  intros V.
  assert (W : forall e, 0 <= e < NE -> 0 <= mi m VerticesOnEdge [e; 0] < NV /\ 0 <= mi m VerticesOnEdge [e; 1] < NV) by (intros; split; apply (wf_voe _ _ (g_wf _ G)); lia).
  repeat split; intros i Hi.
  - rewrite (av_nrv S (ok_wfd S Hok)) by assumption. apply i_nrv; assumption.
  - rewrite (av_npv S (ok_wfd S Hok)) by assumption. apply i_npv; assumption.
  - destruct (W i Hi). rewrite (av_nre S (ok_wfd S Hok)) by assumption. apply is_mul; [apply is_half|]. apply is_add; apply i_nrv; assumption.
  - destruct (W i Hi). rewrite (av_npe S (ok_wfd S Hok)) by assumption. apply is_mul; [apply is_half|]. apply is_add; apply i_npv; assumption.
Qed.
End AuxOk.

(** The terms, in a memory with auxiliary variables. *)
Section Terms.
Context (n : mem OA) (G : geo n) (s : sid) (k : Z) (Hk : 0 <= k < NL).
Lemma i_hadv c x : F2 n (VnEdge s) NE k -> F2 n FluxHEdge NE k -> 0 <= c < NC -> isS x -> isS (t_hadv n s c k x).
Proof using G.
  intros V H Hc Hx. pose proof (wf_noc _ _ (g_wf _ G) c Hc). apply is_add; [exact Hx|]. apply is_iter; [apply is_Z|].
  intros j y Hj Hy. unfold s_hadv. cbv zeta. tr G.
Qed.
Lemma i_del2 e : F2 n VelDivCell NC k -> F2 n RvortVertex NV k -> 0 <= e < NE -> isS (f_del2 n e k).
Proof using G.
  intros V R He. unfold f_del2.
  assert (pos (fmax (mr n DvEdge [e]) (fquarter * mr n DcEdge [e])%fp)).
  { apply pos_max; [now apply (g_dv _ G)|]. tr G. }
  tr G; try assumption; lia.
Qed.
Lemma i_del2r v : F2 n VelDel2Edge NE k -> 0 <= v < NV -> isS (f_del2r n v k).
Proof using G. intros V Hc. apply is_iter; [apply is_Z|]. intros j y Hj Hy. unfold s_del2r. cbv zeta. tr G. Qed.
Lemma i_del2d c : F2 n VelDel2Edge NE k -> 0 <= c < NC -> isS (f_del2d n c k).
Proof using G. intros V Hc. pose proof (wf_noc _ _ (g_wf _ G) c Hc). apply is_iter; [apply is_Z|]. intros j y Hj Hy. unfold s_del2d. cbv zeta. tr G. Qed.
Lemma i_gvn t md e x : isS (grav P) -> isS (visc_del2 P) -> isS (visc_del4 P) ->
  F2 n (VnEdge s) NE k -> F2 n FluxHEdge NE k -> F2 n NormRvortEdge NE k -> F2 n NormPvortEdge NE k -> F2 n KeCell NC k ->
  F2 n (HCell s) NC k -> F2 n VelDivCell NC k -> F2 n RvortVertex NV k ->
  (vel_hyperdiff_enabled P = true -> F2 n VelDel2DivCell NC k /\ F2 n VelDel2RvortVertex NV k) ->
  0 <= e < NE -> (md = Increment -> isS x) -> isS (g_vn S t s md n e k x).
Proof using G Hk.
  intros Pg P2 P4 V Fl Nr Np Ke Hc Vd Rv Hyp He Hx. unfold g_vn. cbv zeta.
  assert (X0 : isS (zr md x)) by (unfold zr; destruct md; cbn [is_replace]; [apply is_Z|auto]).
  assert (X1 : isS (t_pv n (ksimd cf) s e k (zr md x))).
  { pose proof (wf_noe _ _ (g_wf _ G) e He). apply is_add; [exact X0|]. apply is_iter; [apply is_Z|]. intros j y Hj Hy. unfold s_pv. cbv zeta. tr G; auto. }
  set (x1 := t_pv _ _ _ _ _ _) in *.
  assert (X2 : isS (t_kegrad n e k x1)) by (unfold t_kegrad; tr G; assumption || lia).
  set (x2 := t_kegrad _ _ _ _) in *.
  assert (X3 : isS (t_sshgrad n (grav P) s e k x2)) by (unfold t_sshgrad; tr G; assumption || lia).
  set (x3 := t_sshgrad _ _ _ _ _ _) in *.
  assert (X4 : isS (if vel_diff_enabled P then t_vdiff n (ksimd cf) (visc_del2 P) e k x3 else x3)).
  { apply is_if; [|exact X3]. unfold t_vdiff. cbv zeta. tr G; assumption || lia. }
  set (x4 := if vel_diff_enabled P then _ else _) in *.
  destruct (vel_hyperdiff_enabled P); [|exact X4]. destruct (Hyp eq_refl) as [H1 H2].
  unfold t_vhyp. tr G; assumption || lia.
Qed.
Lemma i_trdel2 l c : F3 n NormTrCell k -> F2 n FluxHEdge NE k -> 0 <= l < d_ntracers D -> 0 <= c < NC -> isS (f_trdel2 n FluxHEdge l c k).
Proof using G.
  intros T Fl Hl Hc. pose proof (wf_noc _ _ (g_wf _ G) c Hc). apply is_iter; [apply is_Z|].
  intros j y Hj Hy. unfold s_trdel2. cbv zeta. assert (He : 0 <= mi n EdgesOnCell [c; j] < NE) by (rng G; lia). tr G.
Qed.
Lemma i_gtr t md l c x : isS (eddy_diff2 P) -> isS (eddy_diff4 P) -> F2 n (VnEdge s) NE k -> F2 n FluxHEdge NE k -> F2 n MeanHEdge NE k ->
  F3 n NormTrCell k -> (tracer_hyperdiff_enabled P = true -> F3 n TracerDel2Cell k) ->
  0 <= l < d_ntracers D -> 0 <= c < NC -> (md = Increment -> isS x) -> isS (g_tr S t s md n l c k x).
Proof using G Hk.
  intros P2 P4 V Fl Me T Hyp Hl Hc Hx. pose proof (wf_noc _ _ (g_wf _ G) c Hc). unfold g_tr. cbv zeta.
  assert (X0 : isS (zr md x)) by (unfold zr; destruct md; cbn [is_replace]; [apply is_Z|auto]).
  assert (He : forall j, 0 <= j < mi n NedgesOnCell [c] -> 0 <= mi n EdgesOnCell [c; j] < NE) by (intros; rng G; lia).
  assert (X1 : isS (t_trhadv n (ksimd cf) MeanHEdge s l c k (zr md x))).
  { apply is_add; [exact X0|]. apply is_iter; [apply is_Z|]. intros j y Hj Hy. specialize (He j Hj). unfold s_trhadv. cbv zeta. tr G. }
  set (x1 := t_trhadv _ _ _ _ _ _ _ _) in *.
  assert (X2 : isS (if tracer_diff_enabled P then t_trdiff n (ksimd cf) (eddy_diff2 P) FluxHEdge l c k x1 else x1)).
  { apply is_if; [|exact X1]. apply is_add; [exact X1|]. apply is_iter; [apply is_Z|]. intros j y Hj Hy. specialize (He j Hj). unfold s_trdiff. cbv zeta. tr G. }
  set (x2 := if tracer_diff_enabled P then _ else _) in *.
  destruct (tracer_hyperdiff_enabled P); [|exact X2]. specialize (Hyp eq_refl).
  apply is_add; [exact X2|]. apply is_iter; [apply is_Z|]. intros j y Hj Hy. specialize (He j Hj). unfold s_trhyp. cbv zeta. tr G.
Qed.
Lemma i_hyp : F2 n VelDivCell NC k -> F2 n RvortVertex NV k -> F2 n VelDivCell NC (rv_layer cf k) -> F2 n RvortVertex NV (rv_layer cf k) ->
  vel_hyperdiff_enabled P = true ->
  F2 (hyp_fn S n) VelDel2Edge NE k /\ F2 (hyp_fn S n) VelDel2RvortVertex NV k /\ F2 (hyp_fn S n) VelDel2DivCell NC k.
Proof using G Hk Hok.
  intros V1 R1 V2 R2 Hy. unfold hyp_fn. rewrite Hy.
  assert (Hk2 : 0 <= rv_layer cf k < NL) by (apply (rv_range S (ok_wfd S Hok)); exact Hk).
  assert (E : forall k, 0 <= k < NL -> F2 n VelDivCell NC k -> F2 n RvortVertex NV k -> F2 (del2_fn S n) VelDel2Edge NE k).
  { intros k' Hk' V R e He. unfold del2_fn. rewrite upd_same by (cbn [rext]; apply inb2; lia). cbn [on2].
    pose proof (g_dv _ G e He) as Pv. unfold f_del2.
    assert (pos (fmax (mr n DvEdge [e]) (fquarter * mr n DcEdge [e])%fp)) by (apply pos_max; [exact Pv|]; tr G).
    tr G; try assumption; lia. }
  assert (G2 : geo (del2_fn S n)) by (apply geo_upd; [reflexivity|exact G]).
  assert (R3 : F2 (del2r_fn S (del2_fn S n)) VelDel2RvortVertex NV k).
  { intros v Hv. unfold del2r_fn. rewrite upd_same by (cbn [rext]; apply inb2; lia). cbn [on2].
    apply is_iter; [apply is_Z|]. intros j y Hj Hy'. unfold s_del2r. cbv zeta. pose proof (E _ Hk2 V2 R2) as E2. tr G2. }
  assert (E3 : F2 (del2r_fn S (del2_fn S n)) VelDel2Edge NE k).
  { intros e He. unfold del2r_fn. rewrite upd_other by discriminate. apply E; assumption. }
  assert (G3 : geo (del2r_fn S (del2_fn S n))) by (apply geo_upd; [reflexivity|exact G2]).
  unfold del2d_fn. repeat split; intros i Hi.
  - rewrite upd_other by discriminate. now apply E3.
  - rewrite upd_other by discriminate. now apply R3.
  - rewrite upd_same by (cbn [rext]; apply inb2; lia). cbn [on2]. pose proof (wf_noc _ _ (g_wf _ G3) i Hi).
    apply is_iter; [apply is_Z|]. intros j y Hj Hy'. unfold s_del2d. cbv zeta. tr G3.
Qed.
End Terms.

(** Nothing is trapped in the tendency. *)
Section Tendency.
Context (m : mem OA) (Hr : ready S m) (t s : sid) (time : F OA) (md : add_mode) (k : Z) (Hk : 0 <= k < NL) (Hts : s <> t).
Context (P0 : isS (f0 P)) (Pg : isS (grav P)) (P2 : isS (visc_del2 P)) (P4 : isS (visc_del4 P)) (E2 : isS (eddy_diff2 P)) (E4 : isS (eddy_diff4 P)).
Context (Pf : match hook S with None => True | Some f => forall x y, isS x -> isS y ->
  isS (force_h f x y time) /\ isS (force_vx f x y time) /\ isS (force_vy f x y time) end).
Context (Hh : forall c, 0 <= c < NC -> pos (mr m (HCell s) [c; k]))
  (Hv : F2 m (VnEdge s) NE k) (Hv' : F2 m (VnEdge s) NE (rv_layer cf k)) (Ht : F3 m (TrCell s) k).
Local Notation a := (aux_fn cf D s m).
Local Notation n := (tendency_fn S t s time md m).
Local Lemma G : geo m. Proof using Hok Hdc P0 Hr. now apply geo_ready. Qed.
Local Lemma Hk' : 0 <= rv_layer cf k < NL. Proof using Hok Hk. apply (rv_range S (ok_wfd S Hok)). exact Hk. Qed.
Local Lemma Ga : geo a. Proof using Hok Hdc P0 Hr. apply geo_aux, G. Qed.
Set Default Proof Using "All".

Lemma md_cases : md = Replace \/ md = Increment.
Proof. destruct md; auto. Qed.
Lemma n_hk_h c x : 0 <= c < NC -> isS x -> isS (hk_h S time m c k x).
Proof.
  intros Hc Hx. unfold hk_h, hook_h. destruct (hook S) as [f|]; [|exact Hx]. destruct (g_xc _ G c Hc) as [X Y].
  apply is_add; [exact Hx|]. now apply Pf.
Qed.
Lemma n_hk_v e x : 0 <= e < NE -> isS x -> isS (hk_v S time m e k x).
Proof.
  intros He Hx. unfold hk_v, hook_v. destruct (hook S) as [f|]; [|exact Hx]. destruct (g_xe _ G e He) as (X & Y & Z).
  destruct (Pf _ _ X Y) as (_ & F1 & F2'). apply is_add; [exact Hx|]. apply is_add; apply is_mul; auto using is_cos, is_sin.
Qed.
Lemma n_h c : 0 <= c < NC -> isS (mr n (HCell t) [c; k]) \/ ((md = Increment \/ disable_h P = true) /\ mr m (HCell t) [c; k] = None).
Proof.
  intros Hc. rewrite (val_h S) by assumption.
  destruct (x_mean m G s k Hk Hh) as [_ Fl].
  destruct (mr m (HCell t) [c; k]) as [r|] eqn:E.
  - left. apply n_hk_h; [exact Hc|]. apply is_if; [discriminate|]. apply i_hadv; auto using Ga.
    unfold zr. apply is_if; [apply is_Z|discriminate].
  - destruct (disable_h P) eqn:Hd; [right; auto|]. destruct md_cases as [Em|Em]; [|right; auto]. left. apply n_hk_h; [exact Hc|].
    apply i_hadv; auto using Ga. rewrite Em. apply is_Z.
Qed.
Lemma hyp_same b ix : b <> VelDel2Edge -> b <> VelDel2RvortVertex -> b <> VelDel2DivCell -> mr (hyp_fn S a) b ix = mr a b ix.
Proof. apply hyp_other. Qed.
Lemma geo_hyp (b : mem OA) : geo b -> geo (hyp_fn S b).
Proof. intros H. unfold hyp_fn. destruct (vel_hyperdiff_enabled P); [|exact H]. unfold del2d_fn, del2r_fn, del2_fn. repeat (apply geo_upd; [reflexivity|]). exact H. Qed.
Lemma geo_trdel2 (b : mem OA) : geo b -> geo (trdel2_fn S b).
Proof. intros H. unfold trdel2_fn. destruct (tracer_hyperdiff_enabled P); [|exact H]. apply geo_upd; [reflexivity|]. exact H. Qed.
Lemma n_gvn e x : 0 <= e < NE -> (md = Increment -> isS x) -> isS (g_vn S t s md (hyp_fn S a) e k x).
Proof.
  intros He Hx. destruct (x_vn m G s k Hk Hv) as (V1 & V2 & V3). destruct (x_vn m G s _ Hk' Hv') as (V1' & V2' & V3').
  destruct (x_mean m G s k Hk Hh) as [M1 M2]. destruct (x_norm m G s k Hk Hh Hv) as (N1 & N2 & N3 & N4).
  apply i_gvn; try assumption; try (intros i Hi; rewrite hyp_same by discriminate); try (rewrite aux_other by reflexivity); auto using geo_hyp, Ga.
  - now apply is_pos, Hh.
  - intros Hy. destruct (i_hyp a Ga k Hk V2 V1 V2' V1' Hy) as (H1 & H2 & H3). auto.
Qed.
Lemma n_v e : 0 <= e < NE -> isS (mr n (VnEdge t) [e; k]) \/ ((md = Increment \/ disable_vn P = true) /\ mr m (VnEdge t) [e; k] = None).
Proof.
  intros He. rewrite (val_v S (ok_wfd S Hok)) by (exact Hts || assumption || apply (g_wf _ G)).
  destruct (mr m (VnEdge t) [e; k]) as [r|] eqn:E.
  - left. apply n_hk_v; [exact He|]. apply is_if; [discriminate|]. apply n_gvn; [exact He|discriminate].
  - destruct (disable_vn P) eqn:Hd; [right; auto|]. destruct md_cases as [Em|Em]; [|right; auto]. left. apply n_hk_v; [exact He|].
    apply n_gvn; [exact He|rewrite Em; discriminate].
Qed.
Lemma n_gtr l c x : 0 <= l < d_ntracers D -> 0 <= c < NC -> (md = Increment -> isS x) -> isS (g_tr S t s md (trdel2_fn S a) l c k x).
Proof.
  intros Hl Hc Hx. destruct (x_mean m G s k Hk Hh) as [M1 M2]. pose proof (x_ntr m G s k Hk Hh Ht) as T1.
  apply i_gtr; try assumption; try (intros i Hi; rewrite trdel2_other by discriminate; auto); try (rewrite aux_other by reflexivity); auto using geo_trdel2, Ga.
  - intros Hy l' c' Hl' Hc'. unfold trdel2_fn. rewrite Hy. rewrite upd_same by (cbn [rext]; apply inb3; lia). cbn [on3].
    apply i_trdel2; auto using Ga.
Qed.
Lemma n_tr l c : 0 <= l < d_ntracers D -> 0 <= c < NC ->
  isS (mr n (TrCell t) [l; c; k]) \/ (md = Increment /\ mr m (TrCell t) [l; c; k] = None).
Proof.
  intros Hl Hc. rewrite (val_tr S (ok_wfd S Hok)) by (exact Hts || (rewrite <- ?d_ntr; assumption) || apply (g_wf _ G)).
  destruct (mr m (TrCell t) [l; c; k]) as [r|] eqn:E.
  - left. apply n_gtr; auto. discriminate.
  - destruct md_cases as [Em|Em]; [|right; auto]. left. apply n_gtr; auto. rewrite Em. discriminate.
Qed.
Lemma n_aux b ix : is_aux b = true -> inb (rext D b) ix = true -> last ix 0 = k -> isS (mr n b ix).
Proof.
  intros Hb Hi Hl. rewrite tend_aux by exact Hb.
  destruct (x_vn m G s k Hk Hv) as (V1 & V2 & V3). destruct (x_mean m G s k Hk Hh) as [M1 M2].
  destruct (x_norm m G s k Hk Hh Hv) as (N1 & N2 & N3 & N4). pose proof (x_ntr m G s k Hk Hh Ht) as T1.
  destruct b; try discriminate Hb; cbn [rext] in Hi;
    (destruct ix as [|i [|j [|l [|? ?]]]]; try (cbn in Hi; rewrite ?andb_false_r in Hi; discriminate));
    (apply inb3 in Hi || apply inb2 in Hi); cbn [last] in Hl; subst; first [apply V1|apply V2|apply V3|apply M1|apply M2|apply N1|apply N2|apply N3|apply N4|apply T1]; lia.
Qed.
Definition work (b : rarr) : bool := match b with VelDel2Edge | VelDel2RvortVertex | VelDel2DivCell | TracerDel2Cell => true | _ => false end.
Lemma n_work b ix : work b = true -> inb (rext D b) ix = true -> last ix 0 = k -> isS (mr n b ix) \/ mr n b ix = mr m b ix.
Proof.
  intros Hb Hi Hl. rewrite tend_prehook, hook_other by (destruct b; discriminate). unfold prehook. cbv zeta.
  destruct (x_vn m G s k Hk Hv) as (V1 & V2 & V3). destruct (x_vn m G s _ Hk' Hv') as (V1' & V2' & V3').
  destruct (x_mean m G s k Hk Hh) as [M1 M2]. pose proof (x_ntr m G s k Hk Hh Ht) as T1.
  set (B := if negb (disable_h P) then h_fn S t s md a else a).
  assert (GB : geo B).
  { unfold B. destruct (negb (disable_h P)); [apply geo_upd; [reflexivity|]|]; apply Ga. }
  assert (EB : forall c jx, c <> HCell t -> mr B c jx = mr a c jx).
  { intros c jx Hc. unfold B. destruct (negb (disable_h P)); [now apply h_other|reflexivity]. }
  assert (WB : wfm D B) by apply (g_wf _ GB).
  set (C := if negb (disable_vn P) then vn_fn S t s md B else B).
  assert (GC : geo C).
  { unfold C. destruct (negb (disable_vn P)); [|exact GB]. unfold vn_fn. cbv zeta. apply geo_upd; [reflexivity|]. now apply geo_hyp. }
  destruct (rarr_eq_dec b TracerDel2Cell) as [->|Nb].
  - assert (EC : forall c jx, c <> HCell t -> c <> VnEdge t -> c <> VelDel2Edge -> c <> VelDel2RvortVertex -> c <> VelDel2DivCell -> mr C c jx = mr a c jx).
    { intros c jx Q1 Q2 Q3 Q4 Q5. unfold C. destruct (negb (disable_vn P)); [rewrite vn_other by assumption|]; now apply EB. }
    destruct (0 <? ntracers P); [|right; rewrite EC by discriminate; now apply aux_other].
    unfold tr_fn. cbv zeta. rewrite upd_other by discriminate. unfold trdel2_fn.
    destruct (tracer_hyperdiff_enabled P); [|right; rewrite EC by discriminate; now apply aux_other].
    left. rewrite upd_same by exact Hi. cbn [rext] in Hi.
    destruct ix as [|l [|c [|j [|? ?]]]]; try (cbn in Hi; rewrite ?andb_false_r in Hi; discriminate).
    apply inb3 in Hi. cbn [last] in Hl. subst j. cbn [on3]. apply i_trdel2; try lia; [exact GC| |].
    + intros l' c' Hl' Hc'. rewrite EC by discriminate. auto.
    + intros i Hi'. rewrite EC by discriminate. auto.
  - assert (EC : isS (mr C b ix) \/ mr C b ix = mr m b ix).
    { assert (Q : mr B b ix = mr m b ix) by (rewrite EB by (destruct b; discriminate); apply aux_other; destruct b; try discriminate Hb; reflexivity).
      unfold C. destruct (negb (disable_vn P)); [|now right].
      unfold vn_fn. cbv zeta. rewrite upd_other by (destruct b; discriminate).
      destruct (vel_hyperdiff_enabled P) eqn:Hy; [|right; unfold hyp_fn; now rewrite Hy].
      left. destruct (i_hyp B GB k Hk) as (H1 & H2 & H3); try exact Hy.
      1-4: intros i Hi'; rewrite EB by discriminate; auto.
      destruct b; try discriminate Hb; try congruence; cbn [rext] in Hi;
        (destruct ix as [|i [|j [|? ?]]]; try (cbn in Hi; rewrite ?andb_false_r in Hi; discriminate));
        apply inb2 in Hi; cbn [last] in Hl; subst j; first [apply H1|apply H2|apply H3]; lia. }
    destruct (0 <? ntracers P); [|exact EC]. rewrite tr_other by (assumption || (destruct b; discriminate)). exact EC.
Qed.
Lemma n_all b ix : inb (rext D b) ix = true -> last ix 0 = k -> mr n b ix = None -> mr m b ix = None.
Proof.
  intros Hi Hl Hn. destruct (is_aux b) eqn:Ha; [elim (n_aux b ix); auto|].
  destruct (work b) eqn:Hw; [destruct (n_work b ix Hw Hi Hl) as [H|H]; [now elim H|congruence]|].
  destruct (rarr_eq_dec b (HCell t)) as [->|N1].
  { cbn [rext] in Hi. destruct ix as [|i [|j [|? ?]]]; try (cbn in Hi; rewrite ?andb_false_r in Hi; discriminate).
    apply inb2 in Hi. cbn [last] in Hl. subst j. destruct (n_h i) as [H|[_ H]]; [lia|now elim H|exact H]. }
  destruct (rarr_eq_dec b (VnEdge t)) as [->|N2].
  { cbn [rext] in Hi. destruct ix as [|i [|j [|? ?]]]; try (cbn in Hi; rewrite ?andb_false_r in Hi; discriminate).
    apply inb2 in Hi. cbn [last] in Hl. subst j. destruct (n_v i) as [H|[_ H]]; [lia|now elim H|exact H]. }
  destruct (rarr_eq_dec b (TrCell t)) as [->|N3].
  { cbn [rext] in Hi. destruct ix as [|l [|i [|j [|? ?]]]]; try (cbn in Hi; rewrite ?andb_false_r in Hi; discriminate).
    apply inb3 in Hi. cbn [last] in Hl. subst j. destruct (n_tr l i) as [H|[_ H]]; [lia|lia|now elim H|exact H]. }
  rewrite <- Hn. symmetry. apply tend_other; try assumption; intros ->; discriminate.
Qed.
Unset Default Proof Using.
End Tendency.
End Trap.
