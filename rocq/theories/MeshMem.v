(** The memory after the whole constructor. *)
From Coq Require Import ZArith List Bool Lia ZifyBool.
From Verif Require Import Arith Arrays Prog Conc Mesh Hex Launch MeshProof.
Import ListNotations.
Open Scope Z_scope.

Section Closed.
Context {A : Arith} (h : hexargs A).
Local Notation X := (nx h).
Local Notation Y := (ny h).
(** Closed forms of the geometry. *)
Definition hxc (c : Z) : F A :=
  (if Z.even (rowof X c) then dc h * fofZ (colof X c) + dc h / #2 else dc h * fofZ (colof X c + 1))%fp.
Definition hyc (c : Z) : F A := (dc h * fofZ (rowof X c + 1) * fsqrt #3 / #2)%fp.
Definition hxe (e : Z) : F A :=
  (let x := hxc (e / 3) in
   if e mod 3 =? 0 then x - dc h / #2
   else if e mod 3 =? 1 then x - dc h / #2 * fcos (fpi / #3)
   else x + dc h / #2 * fcos (fpi / #3))%fp.
Definition hye (e : Z) : F A :=
  (if e mod 3 =? 0 then hyc (e / 3) else hyc (e / 3) - dc h / #2 * fsin (fpi / #3))%fp.
Definition hang (e : Z) : F A :=
  (if e mod 3 =? 0 then #0 else if e mod 3 =? 1 then fpi / #3 else #2 * fpi / #3)%fp.
Definition hxv (v : Z) : F A := (hxc (v / 2) - dc h / #2)%fp.
Definition hyv (v : Z) : F A :=
  (if v mod 2 =? 0 then hyc (v / 2) + dc h * fsqrt #3 / #6 else hyc (v / 2) - dc h * fsqrt #3 / #6)%fp.
Definition hareac : F A := (dc h * dc h * fsqrt #3 / #2)%fp.
Definition hdve : F A := (dc h * fsqrt #3 / #3)%fp.
Definition hatri : F A := (dc h * dc h * fsqrt #3 / #4)%fp.
Definition hkite : F A := (dc h * dc h * fsqrt #3 / #12)%fp.
Definition hesc (c j : Z) : Z := if hcoe X Y (hE X Y c j) 0 =? c then 1 else -1.
Definition hesv (v s : Z) : Z := if hvoe X Y (heov X Y v s) 0 =? v then -1 else 1.
Definition hki (c j : Z) : Z :=
  let v := hV X Y c j in
  if hcov X Y v 2 =? c then 2 else if hcov X Y v 1 =? c then 1 else 0.

Record hexmem (nl : Z) (m : mem A) : Prop := {
  hm_noc : forall c, 0 <= c < X * Y -> mi m NedgesOnCell [c] = 6;
  hm_coc : forall c j, 0 <= c < X * Y -> 0 <= j < 6 -> mi m CellsOnCell [c; j] = nb X Y c j;
  hm_eoc : forall c j, 0 <= c < X * Y -> 0 <= j < 6 -> mi m EdgesOnCell [c; j] = hE X Y c j;
  hm_voc : forall c j, 0 <= c < X * Y -> 0 <= j < 6 -> mi m VerticesOnCell [c; j] = hV X Y c j;
  hm_coe : forall e s, 0 <= e < 3 * (X * Y) -> 0 <= s < 2 -> mi m CellsOnEdge [e; s] = hcoe X Y e s;
  hm_voe : forall e s, 0 <= e < 3 * (X * Y) -> 0 <= s < 2 -> mi m VerticesOnEdge [e; s] = hvoe X Y e s;
  hm_eoe : forall e s, 0 <= e < 3 * (X * Y) -> 0 <= s < 12 -> mi m EdgesOnEdge [e; s] = heoe X Y e s;
  hm_cov : forall v s, 0 <= v < 2 * (X * Y) -> 0 <= s < 3 -> mi m CellsOnVertex [v; s] = hcov X Y v s;
  hm_eov : forall v s, 0 <= v < 2 * (X * Y) -> 0 <= s < 3 -> mi m EdgesOnVertex [v; s] = heov X Y v s;
  hm_noe : forall e, 0 <= e < 3 * (X * Y) -> mi m NedgesOnEdge [e] = 10;
  hm_ki : forall c j, 0 <= c < X * Y -> 0 <= j < 6 -> mi m KiteIndexOnCell [c; j] = hki c j;
  hm_mlc : forall c, 0 <= c < X * Y -> mi m MaxLevelCell [c] = nl;
  hm_mleb : forall e, 0 <= e < 3 * (X * Y) -> mi m MaxLevelEdgeBot [e] = nl;
  hm_mlet : forall e, 0 <= e < 3 * (X * Y) -> mi m MaxLevelEdgeTop [e] = nl;
  hm_mlvb : forall v, 0 <= v < 2 * (X * Y) -> mi m MaxLevelVertexBot [v] = nl;
  hm_mlvt : forall v, 0 <= v < 2 * (X * Y) -> mi m MaxLevelVertexTop [v] = nl;
  hm_w : forall e s, 0 <= e < 3 * (X * Y) -> 0 <= s < 12 -> mr m WeightsOnEdge [e; s] = hw e s;
  hm_area : forall c, 0 <= c < X * Y -> mr m AreaCell [c] = hareac;
  hm_xc : forall c, 0 <= c < X * Y -> mr m XCell [c] = hxc c;
  hm_yc : forall c, 0 <= c < X * Y -> mr m YCell [c] = hyc c;
  hm_xe : forall e, 0 <= e < 3 * (X * Y) -> mr m XEdge [e] = hxe e;
  hm_ye : forall e, 0 <= e < 3 * (X * Y) -> mr m YEdge [e] = hye e;
  hm_ang : forall e, 0 <= e < 3 * (X * Y) -> mr m AngleEdge [e] = hang e;
  hm_xv : forall v, 0 <= v < 2 * (X * Y) -> mr m XVertex [v] = hxv v;
  hm_yv : forall v, 0 <= v < 2 * (X * Y) -> mr m YVertex [v] = hyv v;
  hm_dce : forall e, 0 <= e < 3 * (X * Y) -> mr m DcEdge [e] = dc h;
  hm_dve : forall e, 0 <= e < 3 * (X * Y) -> mr m DvEdge [e] = hdve;
  hm_atri : forall v, 0 <= v < 2 * (X * Y) -> mr m AreaTriangle [v] = hatri;
  hm_kite : forall v s, 0 <= v < 2 * (X * Y) -> 0 <= s < 3 -> mr m KiteareasOnVertex [v; s] = hkite;
  hm_esc : forall c j, 0 <= c < X * Y -> 0 <= j < 6 -> mr m EdgeSignOnCell [c; j] = fofZ (hesc c j);
  hm_esv : forall v s, 0 <= v < 2 * (X * Y) -> 0 <= s < 3 -> mr m EdgeSignOnVertex [v; s] = fofZ (hesv v s);
  hm_sc2 : forall e, 0 <= e < 3 * (X * Y) -> mr m MeshScalingDel2 [e] = fofZ 1;
  hm_sc4 : forall e, 0 <= e < 3 * (X * Y) -> mr m MeshScalingDel4 [e] = fofZ 1;
  hm_mask : forall e k, 0 <= e < 3 * (X * Y) -> 0 <= k < nl -> mr m EdgeMask [e; k] = fofZ 1
}.
End Closed.

(** The views of the mesh. *)
Definition mesh_loc (l : loc) : bool :=
  match l with
  | LI _ _ => true
  | LR (HCell _ | VnEdge _ | TrCell _ | RvortVertex | NormRvortVertex | NormPvortVertex | NormRvortEdge
       | NormPvortEdge | KeCell | VelDivCell | MeanHEdge | FluxHEdge | NormTrCell | VelDel2Edge
       | VelDel2RvortVertex | VelDel2DivCell | TracerDel2Cell | FVertex | FEdge) _ => false
  | LR _ _ => true
  end.

Section MeshMem.
Context {A : Arith} (cf : config) (h : hexargs A) (ntr : Z).
Local Notation D := (dims_of cf h ntr).
Local Notation VL := (vector_length cf).
Local Notation X := (nx h).
Local Notation Y := (ny h).
Hypothesis Hok : mesh_ok cf h.
Let Hx := Hx cf h Hok.
Let Hy := Hy cf h Hok.

Lemma HVL' : 1 <= VL. Proof. unfold vector_length. destruct (no_simd cf); [lia|apply Hok]. Qed.

Hint Resolve nb_range hE_range hV_range ecell_range ediv_range vdiv_range hcoe_range hvoe_range heoe_range
  hcov_range heov_range inb_range : hex.

Ltac vld := cbn [validb iext rext dims_of d_ncells d_nedges d_nvertices d_nlayers d_nlayers_vec];
  rewrite ?inb1, ?inb2; auto with hex; try lia.

Lemma hit_i tg (m : mem A) a ix v : hit tg m (LI a ix) -> tg (LI a ix) = inl v -> mi m a ix = v.
Proof. unfold hit. cbn. congruence. Qed.
Lemma hit_r tg (m : mem A) a ix v : hit tg m (LR a ix) -> tg (LR a ix) = inr v -> mr m a ix = v.
Proof. unfold hit. cbn. congruence. Qed.
Lemma mget_i (m m' : mem A) a ix : mget m (LI a ix) = mget m' (LI a ix) -> mi m a ix = mi m' a ix.
Proof. cbn. congruence. Qed.
Lemma mget_r (m m' : mem A) a ix : mget m (LR a ix) = mget m' (LR a ix) -> mr m a ix = mr m' a ix.
Proof. cbn. congruence. Qed.

(** *** Launch: host sizes *)
Lemma hs_sizes Ls (m : mem A) Post :
  (forall M, meq M m -> hsafe D Ls M Post) -> hsafe D (ctor_sizes cf h :: Ls) m Post.
Proof.
  intros Hk. apply hs_cons with (W := fun _ _ => False) (Q := fun _ m' => meq m' m).
  - split; [cbn; constructor; [intros []|constructor]|]. split; [intros ? ? ? _ _ []|].
    intros t p [E|[]]. injection E as <- <-.
    pose proof HVL' as HV. destruct Hok as (H1 & H2 & H3 & H4 & H5 & H6).
    pose proof (zceil_nonneg _ _ H5 HV) as Hz. unfold INT_MAX in *.
    apply safe_bind, safe_chk; [unfold INT_MIN, INT_MAX; nia|].
    apply safe_bind, safe_chk; [unfold INT_MIN, INT_MAX; nia|].
    apply safe_bind, safe_imul; [unfold INT_MIN, INT_MAX; nia|].
    apply safe_bind, safe_imul; [unfold INT_MIN, INT_MAX; nia|].
    apply safe_bind, safe_imul; [unfold INT_MIN, INT_MAX; nia|].
    apply safe_ret. apply meq_refl.
  - intros M [_ HM]. apply Hk. apply meq_mget. intros l. destruct (HM l) as [E|(t & _ & [])]; exact E.
Qed.

(** *** Launch: connectivity *)
Lemma hs_mesh_arrays Ls (m : mem A) Post :
  (forall M,
     (forall l c, validb D l = true -> ocell h l = Some c -> 0 <= c < X * Y -> hit (tg1 h) M l) ->
     (forall l, own1 cf h ntr l = None -> mget M l = mget m l) -> hsafe D Ls M Post) ->
  hsafe D (compute_mesh_arrays h :: Ls) m Post.
Proof.
  intros Hk. apply hs_target with (tg := tg1 h) (own := own1 cf h ntr).
  - intros t Ht. destruct t as [|r [|i [|? ?]]]; cbn in Ht; try (rewrite ?andb_false_r in Ht; discriminate).
    change (inb [Y; X] [r; i] = true) in Ht. rewrite inb2 in Ht.
    apply mesh_arrays_thread; auto; lia.
  - intros M H1 H2. apply Hk.
    + intros l c Hv Ho Hc. apply (H1 l [rowof X c; colof X c]).
      * apply inb2. split; [apply (rowof_range X Y); auto|apply colof_range; auto].
      * now apply own1_some.
    + intros l Hl. apply H2. intros t _. congruence.
Qed.

(** *** Launch: scaling of the weights *)
Definition own2 (l : loc) : option tid := match l with LR WeightsOnEdge ix => Some ix | _ => None end.
Lemma hs_scale_weights Ls (m : mem A) Post :
  (forall e s, 0 <= e < 3 * (X * Y) -> 0 <= s < 12 -> mr m WeightsOnEdge [e; s] = hw0 e s) ->
  (forall M,
     (forall e s, 0 <= e < 3 * (X * Y) -> 0 <= s < 12 -> mr M WeightsOnEdge [e; s] = hw e s) ->
     (forall l, own2 l = None -> mget M l = mget m l) -> hsafe D Ls M Post) ->
  hsafe D (scale_weights cf h :: Ls) m Post.
Proof.
  intros Hm Hk.
  pose (tg := fun l : loc => match l with LR WeightsOnEdge [e; s] => inr (hw e s) | _ => inl 0 end : Z + F A).
  apply hs_target with (tg := tg) (own := own2).
  - intros t Ht. destruct t as [|e [|s [|? ?]]]; try (cbn in Ht; rewrite ?andb_false_r in Ht; discriminate).
    rewrite inb2 in Ht. cbn [dims_of d_nedges] in Ht.
    apply safe_bind, safe_rdr; [vld|right; reflexivity|]. rewrite Hm by lia.
    apply safe_str_t with (tg := tg); [vld|reflexivity|reflexivity|].
    intros m' _ G l Hl. destruct l as [a ix|a ix]; try discriminate. destruct a; try discriminate.
    injection Hl as ->. exact G.
  - intros M H1 H2. apply Hk.
    + intros e s He Hs. eapply hit_r; [eapply (H1 _ [e; s])|reflexivity]; [|reflexivity].
      apply inb2. cbn [dims_of d_nedges]. lia.
    + intros l Hl. apply H2. intros t _. congruence.
Qed.

(** *** Launch: geometry of the cells *)
Definition tg3 (l : loc) : Z + F A :=
  (match l with
  | LR AreaCell [c] => inr (hareac h)
  | LR XCell [c] => inr (hxc h c) | LR YCell [c] => inr (hyc h c)
  | LR XEdge [e] => inr (hxe h e) | LR YEdge [e] => inr (hye h e)
  | LR AngleEdge [e] => inr (hang e)
  | LR XVertex [v] => inr (hxv h v) | LR YVertex [v] => inr (hyv h v)
  | LR _ _ => inr (#0)
  | LI _ _ => inl 0%Z
  end)%fp.
Definition ocell3 (l : loc) : option Z :=
  match l with
  | LR (AreaCell | LatCell | LonCell | XCell | YCell | ZCell) [c] => Some c
  | LR (XEdge | YEdge | ZEdge | AngleEdge) [e] => Some (e / 3)
  | LR (XVertex | YVertex | ZVertex) [v] => Some (v / 2)
  | _ => None
  end.
Definition own3 (l : loc) : option tid :=
  match ocell3 l with
  | Some c => if validb D l then Some [rowof X c; colof X c] else None
  | None => None
  end.

Lemma cell_arrays_thread i r (m : mem A) : 0 <= i < X -> 0 <= r < Y ->
  (forall c j, 0 <= c < X * Y -> 0 <= j < 6 -> mi m EdgesOnCell [c; j] = hE X Y c j) ->
  (forall c j, 0 <= c < X * Y -> 0 <= j < 6 -> mi m VerticesOnCell [c; j] = hV X Y c j) ->
  safe D (compute_cell_arrays_body h r i) m (Rd own3 [r; i]) (Wr own3 [r; i])
    (fun _ m' => forall l, own3 l = Some [r; i] -> hit tg3 m' l).
Proof.
  intros Hi Hr HE HV. pose proof (cix_range X Y Hx i r Hi Hr) as Hc.
  assert (HYle : Y <= X * Y) by nia. assert (HXle : X <= X * Y) by nia.
  pose proof (Hmax cf h Hok) as Hmax. unfold INT_MAX in Hmax.
  unfold compute_cell_arrays_body. cbv zeta.
  apply safe_bind, (safe_cellidx cf h ntr Hok); try assumption.
  remember (cix X i r) as c eqn:Ec.
  assert (Hcol : colof X c = i) by (subst c; apply colof_cix; auto).
  assert (Hrow : rowof X c = r) by (subst c; apply rowof_cix; auto).
  assert (Hw : forall l, validb D l = true -> ocell3 l = Some c -> Wr own3 [r; i] l).
  { intros l Hv Ho. unfold Wr, own3. rewrite Ho, Hv. now rewrite Hcol, Hrow. }
  assert (HwR : forall l, validb D l = true -> ocell3 l = Some c -> Rd own3 [r; i] l).
  { intros l Hv Ho. apply Wr_Rd. auto. }
  assert (HI : forall a ix, Rd own3 [r; i] (LI a ix)) by (intros; now left).
  (* facts kept along the run: the integer views, the coordinates of the cell once stored *)
  pose (J := fun m' : mem A => forall a ix, mi m' a ix = mi m a ix).
  assert (JE : forall m' j, J m' -> 0 <= j < 6 -> mi m' EdgesOnCell [c; j] = hE X Y c j).
  { intros m' j HJ Hj. rewrite HJ. auto. }
  assert (JV : forall m' j, J m' -> 0 <= j < 6 -> mi m' VerticesOnCell [c; j] = hV X Y c j).
  { intros m' j HJ Hj. rewrite HJ. auto. }
  assert (Hst : forall a ix v (m1 : mem A) (Q : unit -> mem A -> Prop),
    validb D (LR a ix) = true -> ocell3 (LR a ix) = Some c -> tg3 (LR a ix) = inr v -> J m1 ->
    (forall m', keeps tg3 m1 m' -> J m' -> hit tg3 m' (LR a ix) -> Q tt m') ->
    safe D (str a ix v) m1 (Rd own3 [r; i]) (Wr own3 [r; i]) Q).
  { intros a ix v m1 Q Hv Ho Ht HJ HQ. apply safe_str; auto. apply HQ.
    - now apply keeps_wrr.
    - intros a' ix'. rewrite mi_wrr. auto.
    - unfold hit. rewrite mget_wrr_eq. auto. }
  assert (HJ0 : J m) by (intros ? ?; reflexivity).
  apply safe_bind, Hst; [vld|reflexivity|reflexivity|assumption|]. intros m1 K1 J1 G1.
  apply safe_bind, Hst; [vld|reflexivity|reflexivity|assumption|]. intros m2 K2 J2 G2.
  apply safe_bind, Hst; [vld|reflexivity|reflexivity|assumption|]. intros m3 K3 J3 G3.
  assert (K123 : keeps tg3 m1 m3) by (eapply keeps_trans; eauto).
  assert (Ev : (Z.rem r 2 =? 0) = Z.even r).
  { rewrite Z.rem_mod_nonneg by lia. rewrite Zmod_even. destruct (Z.even r); reflexivity. }
  rewrite Ev.
  apply safe_bind.
  apply safe_post with (Q := fun _ m4 => keeps tg3 m3 m4 /\ J m4 /\ hit tg3 m4 (LR XCell [c]) /\
    hit tg3 m4 (LR YCell [c]) /\ hit tg3 m4 (LR ZCell [c])).
  { assert (Tx : tg3 (LR XCell [c]) = inr (if Z.even r then dc h * fofZ i + dc h / #2 else dc h * fofZ (i + 1))%fp).
    { cbn [tg3]. unfold hxc. now rewrite Hcol, Hrow. }
    assert (Ty : tg3 (LR YCell [c]) = inr (dc h * fofZ (r + 1) * fsqrt #3 / #2)%fp).
    { cbn [tg3]. unfold hyc. now rewrite Hrow. }
    destruct (Z.even r).
    - apply safe_bind, Hst; [vld|reflexivity|exact Tx|assumption|]. intros m4 K4 J4 G4.
      apply safe_bind, safe_iadd; [unfold INT_MIN, INT_MAX; lia|].
      apply safe_bind, Hst; [vld|reflexivity|exact Ty|assumption|]. intros m5 K5 J5 G5.
      apply Hst; [vld|reflexivity|reflexivity|assumption|]. intros m6 K6 J6 G6.
      split; [eapply keeps_trans; [exact K4|eapply keeps_trans; eauto]|]. auto 6.
    - apply safe_bind, safe_iadd; [unfold INT_MIN, INT_MAX; lia|].
      apply safe_bind, Hst; [vld|reflexivity|exact Tx|assumption|]. intros m4 K4 J4 G4.
      apply safe_bind, safe_iadd; [unfold INT_MIN, INT_MAX; lia|].
      apply safe_bind, Hst; [vld|reflexivity|exact Ty|assumption|]. intros m5 K5 J5 G5.
      apply Hst; [vld|reflexivity|reflexivity|assumption|]. intros m6 K6 J6 G6.
      split; [eapply keeps_trans; [exact K4|eapply keeps_trans; eauto]|]. auto 6. }
  cbn beta. intros _ m4 (K4 & J4 & Gx & Gy & Gz).
  pose (P := fun m' : mem A => J m' /\ keeps tg3 m4 m').
  assert (P4 : P m4) by (split; [exact J4|apply keeps_refl]).
  assert (Px : forall m', P m' -> mr m' XCell [c] = hxc h c).
  { intros m' [_ K]. eapply hit_r; [apply K; exact Gx|reflexivity]. }
  assert (Py : forall m', P m' -> mr m' YCell [c] = hyc h c).
  { intros m' [_ K]. eapply hit_r; [apply K; exact Gy|reflexivity]. }
  assert (Hst' : forall a ix v (m1 : mem A) (Q : unit -> mem A -> Prop),
    validb D (LR a ix) = true -> ocell3 (LR a ix) = Some c -> tg3 (LR a ix) = inr v -> P m1 ->
    (forall m', keeps tg3 m1 m' -> P m' -> hit tg3 m' (LR a ix) -> Q tt m') ->
    safe D (str a ix v) m1 (Rd own3 [r; i]) (Wr own3 [r; i]) Q).
  { intros a ix v m5 Q Hv Ho Ht [HJ HK] HQ. apply Hst; auto. intros m6 K6 J6 G6. apply HQ; auto.
    split; [exact J6|]. eapply keeps_trans; eauto. }
  assert (E0 : hE X Y c 0 = 3 * c + 0) by reflexivity.
  assert (E1 : hE X Y c 1 = 3 * c + 1) by reflexivity.
  assert (E2 : hE X Y c 2 = 3 * c + 2) by reflexivity.
  assert (V0 : hV X Y c 0 = 2 * c) by reflexivity.
  assert (V1 : hV X Y c 1 = 2 * c + 1) by reflexivity.
  Ltac rdx Px HwR := apply safe_bind, safe_rdr; [vld|apply HwR; [vld|reflexivity]|]; rewrite Px by assumption.
  Ltac tgx E := rewrite E; cbn [tg3 ocell3]; unfold hxe, hye, hang, hxv, hyv; rewrite ?div3, ?mod3, ?div2, ?mod2, ?div2', ?mod2' by lia; cbn [Z.eqb Pos.eqb]; reflexivity.
  assert (JE' : forall m' j, P m' -> 0 <= j < 6 -> mi m' EdgesOnCell [c; j] = hE X Y c j) by (intros m' j [? _]; auto).
  assert (JV' : forall m' j, P m' -> 0 <= j < 6 -> mi m' VerticesOnCell [c; j] = hV X Y c j) by (intros m' j [? _]; auto).
  assert (Hcb : 0 <= c < X * Y) by exact Hc.
  (* edge 0 *)
  rdx Px HwR. apply safe_bind, safe_rdi; [vld|apply HI|]. rewrite JE' by (auto; lia).
  apply safe_bind, Hst'; [vld|tgx E0|tgx E0|assumption|]. intros m5 K5 P5 G5.
  rdx Py HwR. apply safe_bind, safe_rdi; [vld|apply HI|]. rewrite JE' by (auto; lia).
  apply safe_bind, Hst'; [vld|tgx E0|tgx E0|assumption|]. intros m6 K6 P6 G6.
  apply safe_bind, safe_rdi; [vld|apply HI|]. rewrite JE' by (auto; lia).
  apply safe_bind, Hst'; [vld|tgx E0|tgx E0|assumption|]. intros m7 K7 P7 G7.
  (* edge 1 *)
  rdx Px HwR. apply safe_bind, safe_rdi; [vld|apply HI|]. rewrite JE' by (auto; lia).
  apply safe_bind, Hst'; [vld|tgx E1|tgx E1|assumption|]. intros m8 K8 P8 G8.
  rdx Py HwR. apply safe_bind, safe_rdi; [vld|apply HI|]. rewrite JE' by (auto; lia).
  apply safe_bind, Hst'; [vld|tgx E1|tgx E1|assumption|]. intros m9 K9 P9 G9.
  apply safe_bind, safe_rdi; [vld|apply HI|]. rewrite JE' by (auto; lia).
  apply safe_bind, Hst'; [vld|tgx E1|tgx E1|assumption|]. intros m10 K10 P10 G10.
  (* edge 2 *)
  rdx Px HwR. apply safe_bind, safe_rdi; [vld|apply HI|]. rewrite JE' by (auto; lia).
  apply safe_bind, Hst'; [vld|tgx E2|tgx E2|assumption|]. intros m11 K11 P11 G11.
  rdx Py HwR. apply safe_bind, safe_rdi; [vld|apply HI|]. rewrite JE' by (auto; lia).
  apply safe_bind, Hst'; [vld|tgx E2|tgx E2|assumption|]. intros m12 K12 P12 G12.
  apply safe_bind, safe_rdi; [vld|apply HI|]. rewrite JE' by (auto; lia).
  apply safe_bind, Hst'; [vld|tgx E2|tgx E2|assumption|]. intros m13 K13 P13 G13.
  (* angles *)
  apply safe_bind, safe_rdi; [vld|apply HI|]. rewrite JE' by (auto; lia).
  apply safe_bind, Hst'; [vld|tgx E0|tgx E0|assumption|]. intros m14 K14 P14 G14.
  apply safe_bind, safe_rdi; [vld|apply HI|]. rewrite JE' by (auto; lia).
  apply safe_bind, Hst'; [vld|tgx E1|tgx E1|assumption|]. intros m15 K15 P15 G15.
  apply safe_bind, safe_rdi; [vld|apply HI|]. rewrite JE' by (auto; lia).
  apply safe_bind, Hst'; [vld|tgx E2|tgx E2|assumption|]. intros m16 K16 P16 G16.
  (* vertex 0 *)
  rdx Px HwR. apply safe_bind, safe_rdi; [vld|apply HI|]. rewrite JV' by (auto; lia).
  apply safe_bind, Hst'; [vld|tgx V0|tgx V0|assumption|]. intros m17 K17 P17 G17.
  rdx Py HwR. apply safe_bind, safe_rdi; [vld|apply HI|]. rewrite JV' by (auto; lia).
  apply safe_bind, Hst'; [vld|tgx V0|tgx V0|assumption|]. intros m18 K18 P18 G18.
  apply safe_bind, safe_rdi; [vld|apply HI|]. rewrite JV' by (auto; lia).
  apply safe_bind, Hst'; [vld|tgx V0|tgx V0|assumption|]. intros m19 K19 P19 G19.
  (* vertex 1 *)
  rdx Px HwR. apply safe_bind, safe_rdi; [vld|apply HI|]. rewrite JV' by (auto; lia).
  apply safe_bind, Hst'; [vld|tgx V1|tgx V1|assumption|]. intros m20 K20 P20 G20.
  rdx Py HwR. apply safe_bind, safe_rdi; [vld|apply HI|]. rewrite JV' by (auto; lia).
  apply safe_bind, Hst'; [vld|tgx V1|tgx V1|assumption|]. intros m21 K21 P21 G21.
  apply safe_bind, safe_rdi; [vld|apply HI|]. rewrite JV' by (auto; lia).
  apply Hst'; [vld|tgx V1|tgx V1|assumption|]. intros m22 K22 P22 G22.
  (* coverage *)
  assert (L21 : keeps tg3 m21 m22) by exact K22.
  assert (L20 : keeps tg3 m20 m22) by (eapply keeps_trans; eauto).
  assert (L19 : keeps tg3 m19 m22) by (eapply keeps_trans; eauto).
  assert (L18 : keeps tg3 m18 m22) by (eapply keeps_trans; eauto).
  assert (L17 : keeps tg3 m17 m22) by (eapply keeps_trans; eauto).
  assert (L16 : keeps tg3 m16 m22) by (eapply keeps_trans; eauto).
  assert (L15 : keeps tg3 m15 m22) by (eapply keeps_trans; eauto).
  assert (L14 : keeps tg3 m14 m22) by (eapply keeps_trans; eauto).
  assert (L13 : keeps tg3 m13 m22) by (eapply keeps_trans; eauto).
  assert (L12 : keeps tg3 m12 m22) by (eapply keeps_trans; eauto).
  assert (L11 : keeps tg3 m11 m22) by (eapply keeps_trans; eauto).
  assert (L10 : keeps tg3 m10 m22) by (eapply keeps_trans; eauto).
  assert (L9 : keeps tg3 m9 m22) by (eapply keeps_trans; eauto).
  assert (L8 : keeps tg3 m8 m22) by (eapply keeps_trans; eauto).
  assert (L7 : keeps tg3 m7 m22) by (eapply keeps_trans; eauto).
  assert (L6 : keeps tg3 m6 m22) by (eapply keeps_trans; eauto).
  assert (L5 : keeps tg3 m5 m22) by (eapply keeps_trans; eauto).
  assert (L4 : keeps tg3 m4 m22) by (eapply keeps_trans; eauto).
  assert (L3 : keeps tg3 m3 m22) by (eapply keeps_trans; eauto).
  assert (L2 : keeps tg3 m2 m22) by (eapply keeps_trans; eauto).
  assert (L1 : keeps tg3 m1 m22) by (eapply keeps_trans; eauto).
  rewrite E0 in *. rewrite E1 in *. rewrite E2 in *. rewrite V0 in *. rewrite V1 in *.
  intros l Hl. unfold own3 in Hl. destruct (ocell3 l) as [c'|] eqn:Ho; [|discriminate].
  destruct (validb D l) eqn:Hv; [|discriminate]. injection Hl as Hr' Hi'.
  assert (c' = c) by (rewrite <- (cix_surj X Hx c'), Hr', Hi'; symmetry; exact Ec). subst c'. clear Hr' Hi'.
  assert (He : forall e, e / 3 = c -> e = 3 * c + 0 \/ e = 3 * c + 1 \/ e = 3 * c + 2).
  { intros e Hee. pose proof (Z.mod_pos_bound e 3 ltac:(lia)). pose proof (Z.div_mod e 3 ltac:(lia)). lia. }
  assert (Hvv : forall v, v / 2 = c -> v = 2 * c \/ v = 2 * c + 1).
  { intros v Hee. pose proof (Z.mod_pos_bound v 2 ltac:(lia)). pose proof (Z.div_mod v 2 ltac:(lia)). lia. }
  destruct l as [a ix|a ix]; [discriminate|]. destruct a; cbn [ocell3] in Ho; try discriminate;
    (destruct ix as [|x [|? ?]]; try discriminate); injection Ho as Ho;
    try (subst x; solve [auto]);
    try (destruct (He x Ho) as [->|[->| ->]]; solve [auto]);
    try (destruct (Hvv x Ho) as [->| ->]; solve [auto]).
Qed.

Lemma hs_cell_arrays Ls (m : mem A) Post :
  (forall c j, 0 <= c < X * Y -> 0 <= j < 6 -> mi m EdgesOnCell [c; j] = hE X Y c j) ->
  (forall c j, 0 <= c < X * Y -> 0 <= j < 6 -> mi m VerticesOnCell [c; j] = hV X Y c j) ->
  (forall M,
     (forall l c, validb D l = true -> ocell3 l = Some c -> 0 <= c < X * Y -> hit tg3 M l) ->
     (forall l, ocell3 l = None -> mget M l = mget m l) -> hsafe D Ls M Post) ->
  hsafe D (compute_cell_arrays h :: Ls) m Post.
Proof.
  intros HE HV Hk. apply hs_target with (tg := tg3) (own := own3).
  - intros t Ht. destruct t as [|r [|i [|? ?]]]; try (cbn in Ht; rewrite ?andb_false_r in Ht; discriminate).
    rewrite inb2 in Ht. apply cell_arrays_thread; auto; lia.
  - intros M H1 H2. apply Hk.
    + intros l c Hv Ho Hc. apply (H1 l [rowof X c; colof X c]).
      * apply inb2. split; [apply (rowof_range X Y); auto|apply colof_range; auto].
      * unfold own3. now rewrite Ho, Hv.
    + intros l Hl. apply H2. intros t _. unfold own3. rewrite Hl. congruence.
Qed.

(** *** Launches: geometry of edges and vertices *)
Definition own4 (l : loc) : option tid :=
  match l with LI NedgesOnEdge ix => Some ix | LR (DcEdge | DvEdge | LatEdge | LonEdge) ix => Some ix | _ => None end.
Definition tg4 (l : loc) : Z + F A :=
  match l with LI _ _ => inl 10 | LR DcEdge _ => inr (dc h) | LR DvEdge _ => inr (hdve h) | LR _ _ => inr (fofZ 0) end.

Lemma hs_edge_arrays Ls (m : mem A) Post :
  (forall M,
     (forall e, 0 <= e < 3 * (X * Y) -> mi M NedgesOnEdge [e] = 10 /\ mr M DcEdge [e] = dc h /\ mr M DvEdge [e] = hdve h) ->
     (forall l, own4 l = None -> mget M l = mget m l) -> hsafe D Ls M Post) ->
  hsafe D (compute_edge_arrays cf h :: Ls) m Post.
Proof.
  intros Hk. apply hs_target with (tg := tg4) (own := own4).
  - intros t Ht. destruct t as [|e [|? ?]]; try (cbn in Ht; rewrite ?andb_false_r in Ht; discriminate).
    rewrite inb1 in Ht. cbn [dims_of d_nedges] in Ht.
    apply safe_bind. apply safe_sti_t with (tg := tg4); [vld|reflexivity|reflexivity|]. intros m1 K1 G1.
    apply safe_bind. apply safe_str_t with (tg := tg4); [vld|reflexivity|reflexivity|]. intros m2 K2 G2.
    apply safe_bind, safe_rdr; [vld|right; reflexivity|].
    rewrite (hit_r tg4 m2 DcEdge [e] (dc h) G2 eq_refl).
    apply safe_bind. apply safe_str_t with (tg := tg4); [vld|reflexivity|reflexivity|]. intros m3 K3 G3.
    apply safe_bind. apply safe_str_t with (tg := tg4); [vld|reflexivity|reflexivity|]. intros m4 K4 G4.
    apply safe_str_t with (tg := tg4); [vld|reflexivity|reflexivity|]. intros m5 K5 G5.
    intros l Hl. destruct l as [a ix|a ix]; destruct a; try discriminate; injection Hl as ->; auto.
  - intros M H1 H2. apply Hk.
    + intros e He. assert (Hin : inb [d_nedges D] [e] = true) by (apply inb1; exact He).
      split; [|split]; [eapply hit_i|eapply hit_r|eapply hit_r];
        try (eapply (H1 _ [e]); [exact Hin|reflexivity]); reflexivity.
    + intros l Hl. apply H2. intros t _. congruence.
Qed.

Definition own5 (l : loc) : option tid :=
  match l with
  | LR (LatVertex | LonVertex | AreaTriangle) ix => Some ix
  | LR KiteareasOnVertex [v; s] => if (0 <=? s) && (s <? 3) then Some [v] else None
  | _ => None
  end.
Definition tg5 (l : loc) : Z + F A :=
  match l with LR AreaTriangle _ => inr (hatri h) | LR KiteareasOnVertex _ => inr (hkite h) | _ => inr (fofZ 0) end.

Lemma hs_vertex_arrays Ls (m : mem A) Post :
  (forall M,
     (forall v, 0 <= v < 2 * (X * Y) -> mr M AreaTriangle [v] = hatri h) ->
     (forall v s, 0 <= v < 2 * (X * Y) -> 0 <= s < 3 -> mr M KiteareasOnVertex [v; s] = hkite h) ->
     (forall l, own5 l = None -> mget M l = mget m l) -> hsafe D Ls M Post) ->
  hsafe D (compute_vertex_arrays cf h :: Ls) m Post.
Proof.
  intros Hk. apply hs_target with (tg := tg5) (own := own5).
  - intros t Ht. destruct t as [|e [|? ?]]; try (cbn in Ht; rewrite ?andb_false_r in Ht; discriminate).
    rewrite inb1 in Ht. cbn [dims_of d_nvertices] in Ht.
    apply safe_bind. apply safe_str_t with (tg := tg5); [vld|reflexivity|reflexivity|]. intros m1 K1 G1.
    apply safe_bind. apply safe_str_t with (tg := tg5); [vld|reflexivity|reflexivity|]. intros m2 K2 G2.
    apply safe_bind. apply safe_str_t with (tg := tg5); [vld|reflexivity|reflexivity|]. intros m3 K3 G3.
    apply safe_foru_t with (tg := tg5) (I := fun _ => True) (G := fun j l => l = LR KiteareasOnVertex [e; j]).
    { lia. } { auto. } { exact I. }
    { intros j m4 Hj _. apply safe_str_t with (tg := tg5); [vld| |reflexivity|].
      - unfold Wr. cbn [own5]. replace ((0 <=? j) && (j <? 3)) with true by lia. reflexivity.
      - intros m5 K5 G5. split; [exact K5|]. intros l ->. exact G5. }
    intros m4 K4 G4.
    intros l Hl. destruct l as [a ix|a ix]; destruct a; try discriminate; cbn [own5] in Hl.
    + injection Hl as ->; auto.
    + injection Hl as ->; auto.
    + injection Hl as ->; auto.
    + destruct ix as [|x [|s [|? ?]]]; try discriminate. destruct ((0 <=? s) && (s <? 3)) eqn:Es; [|discriminate].
      injection Hl as ->. apply (G4 s); [lia|reflexivity].
  - intros M H1 H2. apply Hk.
    + intros e He. assert (Hin : inb [d_nvertices D] [e] = true) by (apply inb1; exact He).
      eapply hit_r; [eapply (H1 _ [e]); [exact Hin|reflexivity]|reflexivity].
    + intros e s He Hs. assert (Hin : inb [d_nvertices D] [e] = true) by (apply inb1; exact He).
      eapply hit_r; [eapply (H1 _ [e]); [exact Hin|]|reflexivity].
      cbn [own5]. replace ((0 <=? s) && (s <? 3)) with true by lia. reflexivity.
    + intros l Hl. apply H2. intros t _. congruence.
Qed.

(** *** Launch: signs and kite indices of the cells *)
Definition own6 (l : loc) : option tid :=
  match l with
  | LR EdgeSignOnCell [c; j] => Some [c]
  | LI KiteIndexOnCell [c; j] => Some [c]
  | _ => None
  end.

Lemma hs_finalize_cell Ls (m : mem A) Post :
  (forall c, 0 <= c < X * Y -> mi m NedgesOnCell [c] = 6) ->
  (forall c j, 0 <= c < X * Y -> 0 <= j < 6 -> mi m EdgesOnCell [c; j] = hE X Y c j) ->
  (forall c j, 0 <= c < X * Y -> 0 <= j < 6 -> mi m VerticesOnCell [c; j] = hV X Y c j) ->
  (forall e s, 0 <= e < 3 * (X * Y) -> 0 <= s < 2 -> mi m CellsOnEdge [e; s] = hcoe X Y e s) ->
  (forall v s, 0 <= v < 2 * (X * Y) -> 0 <= s < 3 -> mi m CellsOnVertex [v; s] = hcov X Y v s) ->
  (forall c j, 0 <= c < X * Y -> 0 <= j < 6 -> mi m KiteIndexOnCell [c; j] = 0) ->
  (forall M,
     (forall c j, 0 <= c < X * Y -> 0 <= j < 6 ->
        mr M EdgeSignOnCell [c; j] = fofZ (hesc h c j) /\ mi M KiteIndexOnCell [c; j] = hki h c j) ->
     (forall l, own6 l = None -> mget M l = mget m l) -> hsafe D Ls M Post) ->
  hsafe D (finalize_cell cf h :: Ls) m Post.
Proof.
  intros Hn HE HV Hce Hcv H0 Hk.
  apply hs_par with (own := own6) (Q := fun t mt =>
    forall c j, t = [c] -> 0 <= j < 6 ->
      mr mt EdgeSignOnCell [c; j] = fofZ (hesc h c j) /\ mi mt KiteIndexOnCell [c; j] = hki h c j).
  - intros t Ht. destruct t as [|c [|? ?]]; try (cbn in Ht; rewrite ?andb_false_r in Ht; discriminate).
    rewrite inb1 in Ht. cbn [dims_of d_ncells] in Ht.
    (* frame of the run: integer views other than the kite index *)
    pose (J := fun m' : mem A => forall a ix, a <> KiteIndexOnCell -> mi m' a ix = mi m a ix).
    assert (HI : forall a ix, a <> KiteIndexOnCell -> Rd own6 [c] (LI a ix)).
    { intros a ix Ha. left. destruct a; try reflexivity. congruence. }
    apply safe_bind, safe_rdi; [vld|apply HI; discriminate|]. rewrite Hn by lia.
    apply safe_bind. unfold for_u at 1.
    apply safe_for with (I := fun i _ m' => J m' /\
      (forall j, 0 <= j < 6 -> mi m' KiteIndexOnCell [c; j] = 0) /\
      forall j, 0 <= j < i -> mr m' EdgeSignOnCell [c; j] = fofZ (hesc h c j)).
    { lia. } { split; [|split]; [intros ? ? _; reflexivity|auto|intros; lia]. }
    { intros j _ m1 Hj (J1 & K1 & G1).
      apply safe_bind, safe_rdi; [vld|apply HI; discriminate|]. rewrite J1, HE by (try discriminate; lia).
      pose proof (hE_range X Y Hx Hy c j ltac:(lia) Hj).
      apply safe_bind, safe_rdi; [vld|apply HI; discriminate|]. rewrite J1, Hce by (try discriminate; lia).
      apply safe_str; [vld|reflexivity|]. split; [|split].
      - intros a ix Ha. rewrite mi_wrr. auto.
      - intros j' Hj'. rewrite mi_wrr. auto.
      - intros j' Hj'. destruct (Z.eq_dec j' j) as [->|Hne].
        + rewrite wrr_same. reflexivity.
        + rewrite wrr_ix by congruence. apply G1. lia. }
    intros _ m2 (J2 & K2 & G2).
    apply safe_bind, safe_rdi; [vld|apply HI; discriminate|]. rewrite J2, Hn by (try discriminate; lia).
    unfold for_u at 1.
    apply safe_for with (I := fun i _ m' => J m' /\
      (forall j, 0 <= j < 6 -> mr m' EdgeSignOnCell [c; j] = fofZ (hesc h c j)) /\
      (forall j, 0 <= j < i -> mi m' KiteIndexOnCell [c; j] = hki h c j) /\
      (forall j, i <= j < 6 -> mi m' KiteIndexOnCell [c; j] = 0)).
    { lia. } { repeat split; auto; intros; lia. }
    { intros j _ m3 Hj (J3 & G3 & K3 & Z3).
      apply safe_bind, safe_rdi; [vld|apply HI; discriminate|]. rewrite J3, HV by (try discriminate; lia).
      pose proof (hV_range X Y Hx Hy c j ltac:(lia)).
      pose (kx := fun i : Z => if (2 <? i) && (hcov X Y (hV X Y c j) 2 =? c) then 2
                               else if (1 <? i) && (hcov X Y (hV X Y c j) 1 =? c) then 1 else 0).
      unfold for_u. apply safe_for with (I := fun i _ m' => J m' /\
        (forall j, 0 <= j < 6 -> mr m' EdgeSignOnCell [c; j] = fofZ (hesc h c j)) /\
        (forall j', 0 <= j' < 6 -> j' <> j -> mi m' KiteIndexOnCell [c; j'] = mi m3 KiteIndexOnCell [c; j']) /\
        mi m' KiteIndexOnCell [c; j] = kx i).
      { lia. } { split; [exact J3|split; [exact G3|split; [auto|]]]. rewrite Z3 by lia. reflexivity. }
      { intros l _ m4 Hl (J4 & G4 & F4 & K4).
        apply safe_bind, safe_rdi; [vld|apply HI; discriminate|]. rewrite J4, Hcv by (try discriminate; lia).
        destruct (Z.eqb_spec (hcov X Y (hV X Y c j) l) c) as [E|E].
        - apply safe_sti; [vld|reflexivity|]. split; [|split; [|split]].
          + intros a ix Ha. rewrite wri_arr by congruence. auto.
          + intros j' Hj'. rewrite mr_wri. auto.
          + intros j' Hj' Hne. rewrite wri_ix by congruence. auto.
          + rewrite wri_same. unfold kx.
            assert (Hl3 : l = 0 \/ l = 1 \/ l = 2) by lia.
            destruct Hl3 as [->|[->| ->]]; cbn [Z.add Z.ltb Z.compare Pos.add Pos.succ Pos.compare Pos.compare_cont andb];
              try rewrite E, Z.eqb_refl; reflexivity.
        - apply safe_ret. split; [exact J4|split; [exact G4|split; [exact F4|]]]. rewrite K4. unfold kx.
          apply Z.eqb_neq in E.
          assert (Hl3 : l = 0 \/ l = 1 \/ l = 2) by lia.
          destruct Hl3 as [->|[->| ->]]; cbn [Z.add Z.ltb Z.compare Pos.add Pos.succ Pos.compare Pos.compare_cont andb];
            try rewrite E; reflexivity. }
      intros _ m4 (J4 & G4 & F4 & K4). split; [exact J4|split; [exact G4|split]].
      - intros j' Hj'. destruct (Z.eq_dec j' j) as [->|Hne].
        + rewrite K4. reflexivity.
        + rewrite F4 by lia. apply K3. lia.
      - intros j' Hj'. rewrite F4 by lia. apply Z3. lia. }
    intros _ m3 (J3 & G3 & K3 & Z3) c' j E Hj. injection E as <-. auto.
  - intros M H1 H2. apply Hk.
    + intros c j Hc Hj. destruct (H1 [c]) as (mt & HQ & HM); [apply inb1; exact Hc|].
      destruct (HQ c j eq_refl Hj) as [Qa Qb].
      rewrite <- Qa, <- Qb. split; [apply mget_r|apply mget_i]; apply HM; reflexivity.
    + intros l Hl. apply H2. intros t _. congruence.
Qed.

Definition own7 (l : loc) : option tid := match l with LR EdgeSignOnVertex [v; s] => Some [v] | _ => None end.

Lemma hs_finalize_vertex Ls (m : mem A) Post :
  (forall v s, 0 <= v < 2 * (X * Y) -> 0 <= s < 3 -> mi m EdgesOnVertex [v; s] = heov X Y v s) ->
  (forall e s, 0 <= e < 3 * (X * Y) -> 0 <= s < 2 -> mi m VerticesOnEdge [e; s] = hvoe X Y e s) ->
  (forall M,
     (forall v s, 0 <= v < 2 * (X * Y) -> 0 <= s < 3 -> mr M EdgeSignOnVertex [v; s] = fofZ (hesv h v s)) ->
     (forall l, own7 l = None -> mget M l = mget m l) -> hsafe D Ls M Post) ->
  hsafe D (finalize_vertex cf h :: Ls) m Post.
Proof.
  intros Hev Hve Hk.
  apply hs_par with (own := own7) (Q := fun t mt =>
    forall v s, t = [v] -> 0 <= s < 3 -> mr mt EdgeSignOnVertex [v; s] = fofZ (hesv h v s)).
  - intros t Ht. destruct t as [|v [|? ?]]; try (cbn in Ht; rewrite ?andb_false_r in Ht; discriminate).
    rewrite inb1 in Ht. cbn [dims_of d_nvertices] in Ht. unfold for_u.
    apply safe_for with (I := fun i _ m' => (forall a ix, mi m' a ix = mi m a ix) /\
      forall s, 0 <= s < i -> mr m' EdgeSignOnVertex [v; s] = fofZ (hesv h v s)).
    { lia. } { split; [auto|intros; lia]. }
    { intros s _ m1 Hs (J1 & G1).
      apply safe_bind, safe_rdi; [vld|left; reflexivity|]. rewrite J1, Hev by lia.
      pose proof (heov_range X Y Hx Hy v s Ht).
      apply safe_bind, safe_rdi; [vld|left; reflexivity|]. rewrite J1, Hve by lia.
      apply safe_str; [vld|reflexivity|]. split.
      - intros a ix. rewrite mi_wrr. auto.
      - intros s' Hs'. destruct (Z.eq_dec s' s) as [->|Hne].
        + rewrite wrr_same. reflexivity.
        + rewrite wrr_ix by congruence. apply G1. lia. }
    intros _ m1 (_ & G1) v' s E Hs. injection E as <-. auto.
  - intros M H1 H2. apply Hk.
    + intros v s Hv Hs. destruct (H1 [v]) as (mt & HQ & HM); [apply inb1; exact Hv|].
      rewrite <- (HQ v s eq_refl Hs). apply mget_r. apply HM. reflexivity.
    + intros l Hl. apply H2. intros t _. congruence.
Qed.

Lemma hs_dc_r D' a (v : F A) Ls (m : mem A) Post :
  rext D' a = rext D a ->
  (forall M, (forall ix, inb (rext D a) ix = true -> mr M a ix = v) ->
     (forall l, (forall ix, inb (rext D a) ix = true -> l <> LR a ix) -> mget M l = mget m l) ->
     hsafe D Ls M Post) ->
  hsafe D (deep_copy_r D' a v :: Ls) m Post.
Proof. intros E Hk. unfold deep_copy_r. rewrite E. now apply hs_copy_r. Qed.
Lemma hs_dc_i D' a v Ls (m : mem A) Post :
  iext D' a = iext D a ->
  (forall M, (forall ix, inb (iext D a) ix = true -> mi M a ix = v) ->
     (forall l, (forall ix, inb (iext D a) ix = true -> l <> LI a ix) -> mget M l = mget m l) ->
     hsafe D Ls M Post) ->
  hsafe D (deep_copy_i D' a v :: Ls) m Post.
Proof. intros E Hk. unfold deep_copy_i. rewrite E. now apply hs_copy_i. Qed.

(** ** The whole constructor *)
Lemma mesh_ctor_hsafe (m0 : mem A) :
  meq m0 (mzero A) ->
  hsafe D (mesh_ctor cf h) m0
    (fun m => hexmem h (d_nlayers D) m /\ forall l, mesh_loc l = false -> mget m l = mget m0 l).
Proof.
  intros Hz. unfold mesh_ctor. cbn [app].
  apply hs_sizes. intros M0 E0.
  assert (Z0 : forall l, mget M0 l = mget (mzero A) l).
  { intros l. rewrite meq_mget in E0, Hz. now rewrite E0, Hz. }
  apply hs_mesh_arrays. intros M1 G1 F1.
  assert (Hc3 : forall e, 0 <= e < 3 * (X * Y) -> 0 <= ecell X Y e < X * Y /\ 0 <= e / 3 < X * Y).
  { intros e He. split; auto with hex. }
  assert (Hoc : forall l, validb D l = true -> forall c, ocell h l = Some c -> 0 <= c < X * Y).
  { intros l Hv c Ho. destruct l as [a ix|a ix]; destruct a; cbn [ocell] in Ho; try discriminate;
      destruct ix as [|x [|s [|? ?]]]; try discriminate;
      cbn [validb iext rext dims_of d_ncells d_nedges d_nvertices] in Hv; rewrite ?inb1, ?inb2 in Hv;
      try (injection Ho as <-; try lia; solve [auto with hex]).
    - destruct Hv as [Hv _]. specialize (Hc3 _ Hv). destruct (s <? 5); [|destruct (s <? 10)]; injection Ho as <- || discriminate; lia.
    - injection Ho as <-. apply hcoe_range; auto; lia.
    - injection Ho as <-. specialize (Hc3 x ltac:(lia)). lia.
    - destruct Hv as [Hv _]. pose proof (vdiv_range X Y x Hv) as Hd.
      pose proof (inb_range X Y Hx Hy _ 2 Hd). pose proof (inb_range X Y Hx Hy _ 3 Hd).
      destruct (x mod 2 =? 0), (s =? 0), (s =? 1); injection Ho as <-; auto.
    - injection Ho as <-. apply hcov_range; auto; lia.
    - destruct Hv as [Hv _]. specialize (Hc3 _ Hv). destruct (s <? 5); [|destruct (s <? 10)]; injection Ho as <- || discriminate; lia. }
  assert (H1 : forall l c, validb D l = true -> ocell h l = Some c -> hit (tg1 h) M1 l) by eauto.
  clear G1 Hc3.
  assert (Wm1 : forall e s, 0 <= e < 3 * (X * Y) -> 0 <= s < 12 -> mr M1 WeightsOnEdge [e; s] = hw0 e s).
  { intros e s He Hs. destruct (Z.ltb_spec s 10).
    - destruct (ocell h (LR WeightsOnEdge [e; s])) as [c|] eqn:Eo.
      + eapply hit_r; [eapply H1; [vld|exact Eo]|reflexivity].
      + cbn [ocell] in Eo. destruct (s <? 5); [discriminate|]. destruct (Z.ltb_spec s 10); [discriminate|lia].
    - transitivity (mr M0 WeightsOnEdge [e; s]).
      + apply mget_r. apply F1. unfold own1. destruct (validb _ _); [|reflexivity].
        cbn [ocell]. destruct (Z.ltb_spec s 5); [lia|]. destruct (Z.ltb_spec s 10); [lia|]. reflexivity.
      + unfold hw0. destruct (Z.ltb_spec s 10); [lia|]. pose proof (Z0 (LR WeightsOnEdge [e; s])) as E.
        cbn in E. cbv zeta. congruence. }
  apply hs_scale_weights; [exact Wm1|]. intros M2 G2 F2.
  assert (Hi2 : forall a ix, mi M2 a ix = mi M1 a ix) by (intros; apply mget_i, F2; reflexivity).
  assert (He2 : forall c j, 0 <= c < X * Y -> 0 <= j < 6 -> mi M2 EdgesOnCell [c; j] = hE X Y c j).
  { intros c j Hc Hj. rewrite Hi2. eapply hit_i; [eapply H1; [vld|reflexivity]|reflexivity]. }
  assert (Hv2 : forall c j, 0 <= c < X * Y -> 0 <= j < 6 -> mi M2 VerticesOnCell [c; j] = hV X Y c j).
  { intros c j Hc Hj. rewrite Hi2. eapply hit_i; [eapply H1; [vld|reflexivity]|reflexivity]. }
  apply hs_cell_arrays; [exact He2|exact Hv2|]. intros M3 G3 F3.
  apply hs_edge_arrays. intros M4 G4 F4.
  apply hs_vertex_arrays. intros M5 G5 G5' F5.
  assert (Hi5 : forall a ix, a <> NedgesOnEdge -> mi M5 a ix = mi M1 a ix).
  { intros a ix Ha. rewrite <- Hi2. apply mget_i. rewrite F5 by reflexivity.
    rewrite F4 by (destruct a; try reflexivity; congruence). rewrite F3 by reflexivity. reflexivity. }
  cbn [app finalize_mesh]. unfold finalize_mesh.
  apply hs_finalize_cell.
  { intros c Hc. rewrite Hi5 by discriminate. eapply hit_i; [eapply H1; [vld|reflexivity]|reflexivity]. }
  { intros c j Hc Hj. rewrite Hi5 by discriminate. eapply hit_i; [eapply H1; [vld|reflexivity]|reflexivity]. }
  { intros c j Hc Hj. rewrite Hi5 by discriminate. eapply hit_i; [eapply H1; [vld|reflexivity]|reflexivity]. }
  { intros c j Hc Hj. rewrite Hi5 by discriminate. eapply hit_i; [eapply H1; [vld|reflexivity]|reflexivity]. }
  { intros c j Hc Hj. rewrite Hi5 by discriminate. eapply hit_i; [eapply H1; [vld|reflexivity]|reflexivity]. }
  { intros c j Hc Hj. rewrite Hi5 by discriminate.
    transitivity (mi M0 KiteIndexOnCell [c; j]); [apply mget_i, F1; unfold own1; destruct (validb _ _); reflexivity|].
    pose proof (Z0 (LI KiteIndexOnCell [c; j])) as E. cbn in E. congruence. }
  intros M6 G6 F6.
  assert (Hi6 : forall a ix, a <> NedgesOnEdge -> a <> KiteIndexOnCell -> mi M6 a ix = mi M1 a ix).
  { intros a ix Ha Hb. rewrite <- Hi5 by exact Ha. apply mget_i. apply F6. destruct a; try reflexivity; congruence. }
  apply hs_finalize_vertex.
  { intros c j Hc Hj. rewrite Hi6 by discriminate. destruct (ocell h (LI EdgesOnVertex [c; j])) as [c'|] eqn:Eo.
    - eapply hit_i; [eapply H1; [vld|exact Eo]|reflexivity].
    - cbn [ocell] in Eo. destruct (c mod 2 =? 0), (j =? 0), (j =? 1); discriminate. }
  { intros c j Hc Hj. rewrite Hi6 by discriminate. eapply hit_i; [eapply H1; [vld|reflexivity]|reflexivity]. }
  intros M7 G7 F7.
  apply hs_dc_r; [reflexivity|]. intros M8 G8 F8.
  apply hs_dc_r; [reflexivity|]. intros M9 G9 F9.
  apply hs_dc_r; [reflexivity|]. intros M10 G10 F10.
  apply hs_dc_i; [reflexivity|]. intros M11 G11 F11.
  apply hs_dc_i; [reflexivity|]. intros M12 G12 F12.
  apply hs_dc_i; [reflexivity|]. intros M13 G13 F13.
  apply hs_dc_i; [reflexivity|]. intros M14 G14 F14.
  apply hs_dc_i; [reflexivity|]. intros M15 G15 F15.
  apply hs_nil.
  Ltac fr F := rewrite F by (intros; discriminate).
  Ltac fo F := rewrite F by reflexivity.
  assert (Hi : forall a ix, a <> NedgesOnEdge -> a <> KiteIndexOnCell ->
    a <> MaxLevelCell -> a <> MaxLevelEdgeBot -> a <> MaxLevelEdgeTop -> a <> MaxLevelVertexBot ->
    a <> MaxLevelVertexTop -> mi M15 a ix = mi M1 a ix).
  { intros a ix A1 A2 A3 A4 A5 A6 A7. rewrite <- Hi6 by assumption. apply mget_i.
    rewrite F15 by congruence. rewrite F14 by congruence. rewrite F13 by congruence. rewrite F12 by congruence.
    rewrite F11 by congruence. fr F10. fr F9. fr F8. fo F7. reflexivity. }
  split.
  - constructor.
    + intros c Hc. rewrite Hi by discriminate. eapply hit_i; [eapply H1; [vld|reflexivity]|reflexivity].
    + intros c j Hc Hj. rewrite Hi by discriminate. eapply hit_i; [eapply H1; [vld|reflexivity]|reflexivity].
    + intros c j Hc Hj. rewrite Hi by discriminate. eapply hit_i; [eapply H1; [vld|reflexivity]|reflexivity].
    + intros c j Hc Hj. rewrite Hi by discriminate. eapply hit_i; [eapply H1; [vld|reflexivity]|reflexivity].
    + intros c j Hc Hj. rewrite Hi by discriminate. eapply hit_i; [eapply H1; [vld|reflexivity]|reflexivity].
    + intros c j Hc Hj. rewrite Hi by discriminate. eapply hit_i; [eapply H1; [vld|reflexivity]|reflexivity].
    + intros e s He Hs. rewrite Hi by discriminate. destruct (Z.ltb_spec s 10).
      * destruct (ocell h (LI EdgesOnEdge [e; s])) as [c|] eqn:Eo.
        -- eapply hit_i; [eapply H1; [vld|exact Eo]|reflexivity].
        -- cbn [ocell] in Eo. destruct (s <? 5); [discriminate|]. destruct (Z.ltb_spec s 10); [discriminate|lia].
      * transitivity (mi M0 EdgesOnEdge [e; s]).
        -- apply mget_i. apply F1. unfold own1. destruct (validb _ _); [|reflexivity].
           cbn [ocell]. destruct (Z.ltb_spec s 5); [lia|]. destruct (Z.ltb_spec s 10); [lia|]. reflexivity.
        -- unfold heoe. destruct (Z.ltb_spec s 5); [lia|]. destruct (Z.ltb_spec s 10); [lia|].
           pose proof (Z0 (LI EdgesOnEdge [e; s])) as E. cbn in E. congruence.
    + intros c j Hc Hj. rewrite Hi by discriminate. eapply hit_i; [eapply H1; [vld|reflexivity]|reflexivity].
    + intros c j Hc Hj. rewrite Hi by discriminate. destruct (ocell h (LI EdgesOnVertex [c; j])) as [c'|] eqn:Eo.
      * eapply hit_i; [eapply H1; [vld|exact Eo]|reflexivity].
      * cbn [ocell] in Eo. destruct (c mod 2 =? 0), (j =? 0), (j =? 1); discriminate.
    + intros e He. rewrite <- (proj1 (G4 e He)). apply mget_i.
      fr F15. fr F14. fr F13. fr F12. fr F11. fr F10. fr F9. fr F8. fo F7. fo F6. fo F5. reflexivity.
    + intros c j Hc Hj. rewrite <- (proj2 (G6 c j Hc Hj)). apply mget_i.
      fr F15. fr F14. fr F13. fr F12. fr F11. fr F10. fr F9. fr F8. fo F7. reflexivity.
    + intros c Hc. transitivity (mi M11 MaxLevelCell [c]); [apply mget_i; fr F15; fr F14; fr F13; fr F12; reflexivity|].
      apply G11. vld.
    + intros c Hc. transitivity (mi M12 MaxLevelEdgeBot [c]); [apply mget_i; fr F15; fr F14; fr F13; reflexivity|].
      apply G12. vld.
    + intros c Hc. transitivity (mi M13 MaxLevelEdgeTop [c]); [apply mget_i; fr F15; fr F14; reflexivity|].
      apply G13. vld.
    + intros c Hc. transitivity (mi M14 MaxLevelVertexBot [c]); [apply mget_i; fr F15; reflexivity|].
      apply G14. vld.
    + intros c Hc. apply G15. vld.
    + intros e s He Hs. rewrite <- (G2 e s He Hs). apply mget_r.
      fr F15. fr F14. fr F13. fr F12. fr F11. fr F10. fr F9. fr F8. fo F7. fo F6. fo F5. fo F4. fo F3. reflexivity.
    + intros c Hc. transitivity (mr M3 AreaCell [c]);
        [apply mget_r; fr F15; fr F14; fr F13; fr F12; fr F11; fr F10; fr F9; fr F8; fo F7; fo F6; fo F5; fo F4; reflexivity|].
      eapply hit_r; [eapply G3; [vld|reflexivity|lia]|reflexivity].
    + intros c Hc. transitivity (mr M3 XCell [c]);
        [apply mget_r; fr F15; fr F14; fr F13; fr F12; fr F11; fr F10; fr F9; fr F8; fo F7; fo F6; fo F5; fo F4; reflexivity|].
      eapply hit_r; [eapply G3; [vld|reflexivity|lia]|reflexivity].
    + intros c Hc. transitivity (mr M3 YCell [c]);
        [apply mget_r; fr F15; fr F14; fr F13; fr F12; fr F11; fr F10; fr F9; fr F8; fo F7; fo F6; fo F5; fo F4; reflexivity|].
      eapply hit_r; [eapply G3; [vld|reflexivity|lia]|reflexivity].
    + intros c Hc. transitivity (mr M3 XEdge [c]);
        [apply mget_r; fr F15; fr F14; fr F13; fr F12; fr F11; fr F10; fr F9; fr F8; fo F7; fo F6; fo F5; fo F4; reflexivity|].
      eapply hit_r; [eapply G3; [vld|reflexivity|auto with hex]|reflexivity].
    + intros c Hc. transitivity (mr M3 YEdge [c]);
        [apply mget_r; fr F15; fr F14; fr F13; fr F12; fr F11; fr F10; fr F9; fr F8; fo F7; fo F6; fo F5; fo F4; reflexivity|].
      eapply hit_r; [eapply G3; [vld|reflexivity|auto with hex]|reflexivity].
    + intros c Hc. transitivity (mr M3 AngleEdge [c]);
        [apply mget_r; fr F15; fr F14; fr F13; fr F12; fr F11; fr F10; fr F9; fr F8; fo F7; fo F6; fo F5; fo F4; reflexivity|].
      eapply hit_r; [eapply G3; [vld|reflexivity|auto with hex]|reflexivity].
    + intros c Hc. transitivity (mr M3 XVertex [c]);
        [apply mget_r; fr F15; fr F14; fr F13; fr F12; fr F11; fr F10; fr F9; fr F8; fo F7; fo F6; fo F5; fo F4; reflexivity|].
      eapply hit_r; [eapply G3; [vld|reflexivity|auto with hex]|reflexivity].
    + intros c Hc. transitivity (mr M3 YVertex [c]);
        [apply mget_r; fr F15; fr F14; fr F13; fr F12; fr F11; fr F10; fr F9; fr F8; fo F7; fo F6; fo F5; fo F4; reflexivity|].
      eapply hit_r; [eapply G3; [vld|reflexivity|auto with hex]|reflexivity].
    + intros e He. rewrite <- (proj1 (proj2 (G4 e He))). apply mget_r.
      fr F15. fr F14. fr F13. fr F12. fr F11. fr F10. fr F9. fr F8. fo F7. fo F6. fo F5. reflexivity.
    + intros e He. rewrite <- (proj2 (proj2 (G4 e He))). apply mget_r.
      fr F15. fr F14. fr F13. fr F12. fr F11. fr F10. fr F9. fr F8. fo F7. fo F6. fo F5. reflexivity.
    + intros v Hv. rewrite <- (G5 v Hv). apply mget_r.
      fr F15. fr F14. fr F13. fr F12. fr F11. fr F10. fr F9. fr F8. fo F7. fo F6. reflexivity.
    + intros v s Hv Hs. rewrite <- (G5' v s Hv Hs). apply mget_r.
      fr F15. fr F14. fr F13. fr F12. fr F11. fr F10. fr F9. fr F8. fo F7. fo F6. reflexivity.
    + intros c j Hc Hj. rewrite <- (proj1 (G6 c j Hc Hj)). apply mget_r.
      fr F15. fr F14. fr F13. fr F12. fr F11. fr F10. fr F9. fr F8. fo F7. reflexivity.
    + intros v s Hv Hs. rewrite <- (G7 v s Hv Hs). apply mget_r.
      fr F15. fr F14. fr F13. fr F12. fr F11. fr F10. fr F9. fr F8. reflexivity.
    + intros e He. transitivity (mr M8 MeshScalingDel2 [e]);
        [apply mget_r; fr F15; fr F14; fr F13; fr F12; fr F11; fr F10; fr F9; reflexivity|]. apply G8. vld.
    + intros e He. transitivity (mr M9 MeshScalingDel4 [e]);
        [apply mget_r; fr F15; fr F14; fr F13; fr F12; fr F11; fr F10; reflexivity|]. apply G9. vld.
    + intros e k He Hk. transitivity (mr M10 EdgeMask [e; k]);
        [apply mget_r; fr F15; fr F14; fr F13; fr F12; fr F11; reflexivity|]. apply G10. vld.
  - intros l Hl. destruct l as [a ix|a ix]; [discriminate|].
    rewrite (proj1 (meq_mget _ _) (meq_sym _ _ E0)).
    destruct a; try discriminate;
      (fr F15; fr F14; fr F13; fr F12; fr F11; fr F10; fr F9; fr F8; fo F7; fo F6; fo F5; fo F4; fo F3; fo F2; apply F1;
       unfold own1; destruct (validb _ _); reflexivity).
Qed.
End MeshMem.
