(** Proofs of the properties of [PropsShift.v]. *)
From Coq Require Import ZArith Reals List Bool Lia Lra.
From Verif Require Import Arith Arrays Prog Conc Launch Mesh AuxVars Tend Model Hex RSum Spec MeshProof MeshMem MeshFacts MeshR Over KernBase Ready Relate EqThms Shift Equiv Equiv2 Equiv3 EquivThms.
Import ListNotations.
Open Scope Z_scope.

(** The cell [a] columns to the right of cell [c] and [b] rows up, on the torus of [nx] x [ny] cells.  Cell [c] is in column [c mod nx] of row
    [c / nx]; odd rows are shifted by half a cell to the right, so going up by [b] rows changes the column by [b / 2], rounded up from an odd
    row. *)
Definition cell_moved {A} (h : hexargs A) (a b c : Z) : Z :=
  let i := c mod nx h in let r := c / nx h in
  (r + b) mod ny h * nx h + (i + a + (b + r mod 2) / 2) mod nx h.
(** The prognostic fields of state [s] in [m2] are those in [m1], moved by [a] columns and [b] rows.  The edges of cell [c] are [3 c + q]. *)
Definition translated {A} (S : setup A) (a b : Z) (s : sid) (m1 m2 : mem A) : Prop :=
  forall c k, 0 <= c < nx (mesh_of_setup S) * ny (mesh_of_setup S) -> 0 <= k < d_nlayers (sdims S) ->
    let c' := cell_moved (mesh_of_setup S) a b c in
    mr m2 (HCell s) [c'; k] = mr m1 (HCell s) [c; k] /\
    (forall q, 0 <= q < 3 -> mr m2 (VnEdge s) [3 * c' + q; k] = mr m1 (VnEdge s) [3 * c + q; k]) /\
    (forall l, 0 <= l < ntracers (par_of S) -> mr m2 (TrCell s) [l; c'; k] = mr m1 (TrCell s) [l; c; k]).
Lemma translated_moved {A} (S : setup A) a b s m1 m2 :
  translated S a b s m1 m2 <-> moved S (shift_by (mesh_of_setup S) a b) s m1 m2.
Proof.
  split.
  - intros H k Hk. cbn [shift_by pc pe pt]. split; [|split].
    + intros c Hc. apply (H c k Hc Hk).
    + intros e He. cbn [sdims dims_of d_nedges] in He. pose proof (Z.mod_pos_bound e 3 ltac:(lia)). pose proof (Z.div_mod e 3 ltac:(lia)) as E.
      assert (Hc : 0 <= e / 3 < nx (mesh_of_setup S) * ny (mesh_of_setup S)) by (split; [apply Z.div_pos; lia|apply Z.div_lt_upper_bound; lia]).
      replace (mr m1 (VnEdge s) [e; k]) with (mr m1 (VnEdge s) [3 * (e / 3) + e mod 3; k]) by (now rewrite <- E).
      apply (H (e / 3) k Hc Hk). assumption.
    + intros l c Hl Hc. now apply (H c k Hc Hk).
  - intros H c k Hc Hk. destruct (H k Hk) as (H1 & H2 & H3). cbv zeta. split; [|split].
    + now apply H1.
    + intros q Hq. rewrite <- (H2 (3 * c + q)) by (cbn [sdims dims_of d_nedges]; lia). cbn [shift_by pe]. unfold she. now rewrite div3, mod3.
    + intros l Hl. now apply H3.
Qed.

Lemma pair_always {A} D Ls (m2 : mem A) (f : mem A -> mem A) (Q : mem A -> Prop) :
  hsafe D Ls m2 (fun M => meq M (f m2)) -> (forall m2', exec D Ls m2 (OK m2') -> Q m2') -> always D Ls m2 Q.
Proof.
  intros H HQ. apply hsafe_always in H. destruct H as [H H']. split; [|exact H'].
  intros o Ho. destruct (H o Ho) as (m' & -> & _). eauto.
Qed.

(** The tracers [sg 0], [sg 1], ... of [m2] are the tracers 0, 1, ... of [m1], and the thickness and the velocity are the same. *)
Definition retraced {A} (S : setup A) (sg : Z -> Z) (s : sid) (m1 m2 : mem A) : Prop :=
  forall k, 0 <= k < d_nlayers (sdims S) ->
    (forall c, 0 <= c < d_ncells (sdims S) -> mr m2 (HCell s) [c; k] = mr m1 (HCell s) [c; k]) /\
    (forall e, 0 <= e < d_nedges (sdims S) -> mr m2 (VnEdge s) [e; k] = mr m1 (VnEdge s) [e; k]) /\
    (forall l c, 0 <= l < ntracers (par_of S) -> 0 <= c < d_ncells (sdims S) -> mr m2 (TrCell s) [sg l; c; k] = mr m1 (TrCell s) [l; c; k]).
Definition retrace (sg : Z -> Z) : renum := {| pc := fun c => c; pe := fun e => e; pv := fun v => v; pt := sg |}.
Lemma tr_mesh {A} (S : setup A) n sg m1 m2 : setup_ok S -> setup_ok (with_tracers S n) -> ready S m1 -> ready (with_tracers S n) m2 ->
  eqv (sdims S) (retrace sg) (gE True True (fun _ => False)) m1 m2.
Proof.
  intros O1 O2 R1 R2. pose proof (ready_hex S O1 m1 R1) as H1. pose proof (ready_hex _ O2 m2 R2) as H2. cbn [mesh_of_setup with_tracers] in H2.
  split.
  - constructor; cbn [sdims dims_of d_ncells d_nedges d_nvertices pc pe pv retrace]; intros.
    + now rewrite (hm_noc _ _ _ H1), (hm_noc _ _ _ H2).
    + now rewrite (hm_noe _ _ _ H1), (hm_noe _ _ _ H2).
    + now rewrite (hm_eoc _ _ _ H1), (hm_eoc _ _ _ H2).
    + now rewrite (hm_coe _ _ _ H1), (hm_coe _ _ _ H2).
    + now rewrite (hm_voe _ _ _ H1), (hm_voe _ _ _ H2).
    + rewrite (hm_noe _ _ _ H1) in * by assumption. now rewrite (hm_eoe _ _ _ H1), (hm_eoe _ _ _ H2) by lia.
    + now rewrite (hm_eov _ _ _ H1), (hm_eov _ _ _ H2).
    + now rewrite (hm_cov _ _ _ H1), (hm_cov _ _ _ H2).
  - intros a ix Ha I1.
    destruct a; try discriminate Ha; try contradiction; cbn [rext] in I1;
      first [ destruct ix as [|i1 [|? ?]]; try (cbn in I1; rewrite ?andb_false_r in I1; discriminate I1); apply inb1 in I1
            | destruct ix as [|i1 [|i2 [|? ?]]]; try (cbn in I1; rewrite ?andb_false_r in I1; discriminate I1); apply inb2 in I1 ];
      cbn [sdims dims_of d_ncells d_nedges d_nvertices] in I1; cbn [rn hd1 pc pe pv retrace];
      first [rewrite (hm_area _ _ _ H1), (hm_area _ _ _ H2) by tauto
          |rewrite (hm_xc _ _ _ H1), (hm_xc _ _ _ H2) by tauto
          |rewrite (hm_yc _ _ _ H1), (hm_yc _ _ _ H2) by tauto
          |rewrite (hm_xe _ _ _ H1), (hm_xe _ _ _ H2) by tauto
          |rewrite (hm_ye _ _ _ H1), (hm_ye _ _ _ H2) by tauto
          |rewrite (hm_esc _ _ _ H1), (hm_esc _ _ _ H2) by tauto
          |rewrite (hm_dce _ _ _ H1), (hm_dce _ _ _ H2) by tauto
          |rewrite (hm_dve _ _ _ H1), (hm_dve _ _ _ H2) by tauto
          |rewrite (hm_ang _ _ _ H1), (hm_ang _ _ _ H2) by tauto
          |rewrite (hm_w _ _ _ H1), (hm_w _ _ _ H2) by tauto
          |rewrite (hm_sc2 _ _ _ H1), (hm_sc2 _ _ _ H2) by tauto
          |rewrite (hm_sc4 _ _ _ H1), (hm_sc4 _ _ _ H2) by tauto
          |rewrite (hm_mask _ _ _ H1), (hm_mask _ _ _ H2) by tauto
          |rewrite (hm_atri _ _ _ H1), (hm_atri _ _ _ H2) by tauto
          |rewrite (hm_kite _ _ _ H1), (hm_kite _ _ _ H2) by tauto
          |rewrite (hm_esv _ _ _ H1), (hm_esv _ _ _ H2) by tauto
          |rewrite (ready_fv S O1 m1), (ready_fv _ O2 m2) by (exact R1 || exact R2 || (cbn; tauto))]; reflexivity.
Qed.

(** The torus of 2 x 3 cells with one layer, and states at rest of thickness one but for the velocity 1 of edge [e0]. *)
Definition P23 : params RA := mkParams (A:=RA) (IZR 1) (IZR 10) (IZR 0) (IZR 0) (IZR 0) (IZR 0) (IZR 0) 0 false false.
Definition S23 : setup RA := mkSetup (mkConfig false false false 1) (mkHex (A:=RA) 2 3 (IZR 1) 1) P23 None.
Lemma ok23 : setup_ok S23.
Proof. repeat split; cbn; try reflexivity; try lia; discriminate. Qed.
Definition f23 (e0 : Z) (a : rarr) (ix : list Z) : R :=
  match a, ix with
  | HCell _, _ => 1%R
  | VnEdge _, e :: _ => if e =? e0 then 1%R else 0%R
  | _, _ => 0%R
  end.

Lemma C63_translation_equivariance_proof :
  forall (A : Arith) (S : setup A), setup_ok S -> hook S = None ->
  forall a b, Z.even (ny (mesh_of_setup S)) = true \/ b = 0 ->
  (forall t s time md m1 m2 m1', s <> t -> ready S m1 -> ready S m2 -> translated S a b s m1 m2 ->
     (md = Replace /\ disable_h (par_of S) = false /\ disable_vn (par_of S) = false) \/ translated S a b t m1 m2 ->
     exec (sdims S) (compute_tendency S t s time md) m1 (OK m1') ->
     always (sdims S) (compute_tendency S t s time md) m2 (fun m2' => translated S a b t m1' m2')) /\
  (forall steps m1 m2 m1', ready S m1 -> ready S m2 -> translated S a b St m1 m2 ->
     (disable_h (par_of S) = false /\ disable_vn (par_of S) = false) \/ translated S a b Tend m1 m2 ->
     exec (sdims S) (rk4_run S steps) m1 (OK m1') ->
     always (sdims S) (rk4_run S steps) m2 (fun m2' => translated S a b St m1' m2')) /\
  (forall n steps m1 m2 m1', ready S m1 -> ready S m2 -> translated S a b St m1 m2 -> translated S a b Tend m1 m2 ->
     exec (sdims S) (lsrk_run S n steps) m1 (OK m1') ->
     always (sdims S) (lsrk_run S n steps) m2 (fun m2' => translated S a b St m1' m2')).
Proof.
  intros A S Hok Hhk a b Hb.
  pose proof (sh_psize S Hok a b) as HS. pose proof (sh_mesh S Hok a b Hb Hhk) as HM.
  assert (Hok' : setup_ok (with_tracers S (ntracers (par_of S)))) by (rewrite with_same; exact Hok).
  assert (HS' : psize (sdims S) (sdims (with_tracers S (ntracers (par_of S)))) (shift_by (mesh_of_setup S) a b)) by (rewrite with_same; exact HS).
  assert (HM' : forall m1 m2, ready S m1 -> ready (with_tracers S (ntracers (par_of S))) m2 ->
     eqv (sdims S) (shift_by (mesh_of_setup S) a b) (gE True False (fun _ => False)) m1 m2) by (rewrite with_same; exact HM).
  split; [|split].
  - intros t s time md m1 m2 m1' Hne R1 R2 Hs Ht X1. rewrite !translated_moved in *.
    eapply pair_always; [now apply rd_tendency|]. intros m2' X2. rewrite translated_moved.
    pose proof (el_tendency S (ntracers (par_of S)) _ Hok Hok' HS' False (or_introl Hhk) HM') as E. rewrite with_same in E.
    eapply (E t s time md m1 m2); eauto.
  - intros steps m1 m2 m1' R1 R2 Hs Ht X1. rewrite !translated_moved in *.
    eapply pair_always; [apply hs_rk4_run; auto using ready_wfm, ok_wfd, ok_ntr|]. intros m2' X2. rewrite translated_moved.
    pose proof (el_rk4_run S (ntracers (par_of S)) _ Hok Hok' HS' False (or_introl Hhk) HM') as E. rewrite with_same in E.
    eapply (E steps m1 m2); eauto.
  - intros n steps m1 m2 m1' R1 R2 Hs Ht X1. rewrite !translated_moved in *.
    eapply pair_always; [apply hs_lsrk_run; auto using ready_wfm, ok_wfd, ok_ntr|]. intros m2' X2. rewrite translated_moved.
    pose proof (el_lsrk_run S (ntracers (par_of S)) _ Hok Hok' HS' False (or_introl Hhk) HM') as E. rewrite with_same in E.
    eapply (E n steps m1 m2); eauto.
Qed.

Lemma C63_translation_is_geometric_proof :
  forall cf (h : hexargs RA), mesh_ok cf h -> forall a b, Z.even (ny h) = true \/ b = 0 ->
  always (dims_of cf h 0) (mesh_ctor cf h) (mzero RA) (fun m => forall c, 0 <= c < nx h * ny h ->
    let c' := cell_moved h a b c in
    let dx := ((IZR a + IZR b / 2) * dc h)%R in
    let dy := (IZR b * (sqrt 3 / 2) * dc h)%R in
    0 <= c' < nx h * ny h /\
    eqmod (period_x h) (mr m XCell [c']) (mr m XCell [c] + dx) /\ eqmod (period_y h) (mr m YCell [c']) (mr m YCell [c] + dy) /\
    (forall q, 0 <= q < 3 -> mr m AngleEdge [3 * c' + q] = mr m AngleEdge [3 * c + q] /\
       eqmod (period_x h) (mr m XEdge [3 * c' + q]) (mr m XEdge [3 * c + q] + dx) /\
       eqmod (period_y h) (mr m YEdge [3 * c' + q]) (mr m YEdge [3 * c + q] + dy)) /\
    (forall q, 0 <= q < 2 ->
       eqmod (period_x h) (mr m XVertex [2 * c' + q]) (mr m XVertex [2 * c + q] + dx) /\
       eqmod (period_y h) (mr m YVertex [2 * c' + q]) (mr m YVertex [2 * c + q] + dy))).
Proof.
  intros cf h Hok a b Hb. apply ctor_always; [exact Hok|]. intros m Hm c Hc.
  change (cell_moved h a b c) with (shc (nx h) (ny h) a b c). cbv zeta.
  pose proof Hok as (Hx & Hy & _).
  pose proof (shc_range (nx h) (ny h) Hx Hy a b c) as Hc'.
  set (c' := shc (nx h) (ny h) a b c) in *.
  assert (X1 : exists z, hxc h c' = (hxc h c + (IZR a + IZR b / 2) * dc h + IZR z * (IZR (nx h) * dc h))%R).
  { rewrite !hxc_R. unfold c'. rewrite colof_shc, rowof_shc by assumption.
    set (i := colof (nx h) c). set (r := rowof (nx h) c).
    assert (Hr : 0 <= r < ny h) by (apply rowof_range; auto).
    pose proof (par_row (ny h) Hy b r Hb Hr) as Ep.
    set (u := i + a + (b + r mod 2) / 2). pose proof (Z.div_mod u (nx h) ltac:(lia)) as Eu.
    pose proof (Z.div_mod (b + r mod 2) 2 ltac:(lia)) as Ev.
    exists (- (u / nx h)).
    rewrite (Zmod_even r) in *. rewrite Zmod_even in Ep.
    assert (Ep' : (if Z.even ((r + b) mod ny h) then 0 else 1) = (b + (if Z.even r then 0 else 1)) mod 2).
    { rewrite Ep, (Z.add_comm r b), <- (Zplus_mod_idemp_r r b 2), (Zmod_even r). reflexivity. }
    rewrite <- Ep' in Ev.
    assert (EuR : IZR (u mod nx h) = (IZR i + IZR a + IZR ((b + (if Z.even r then 0 else 1)) / 2) - IZR (nx h) * IZR (u / nx h))%R).
    { rewrite <- mult_IZR, <- !plus_IZR, <- minus_IZR. f_equal. unfold u at 1 in Eu. rewrite (Zmod_even r) in Eu. lia. }
    assert (EvR : (IZR b + IZR (if Z.even r then 0 else 1) = 2 * IZR ((b + (if Z.even r then 0 else 1)) / 2) + IZR (if Z.even ((r + b) mod ny h) then 0 else 1))%R).
    { rewrite <- mult_IZR, <- !plus_IZR. f_equal. exact Ev. }
    set (W := IZR ((b + (if Z.even r then 0 else 1)) / 2)) in *. clearbody W.
    rewrite opp_IZR. destruct (Z.even r), (Z.even ((r + b) mod ny h)); rewrite ?plus_IZR, EuR; nra. }
  assert (Y1 : exists z, hyc h c' = (hyc h c + IZR b * (sqrt 3 / 2) * dc h + IZR z * (IZR (ny h) * dc h * sqrt 3 / 2))%R).
  { rewrite !hyc_R. unfold c'. rewrite rowof_shc by assumption. set (r := rowof (nx h) c).
    pose proof (Z.div_mod (r + b) (ny h) ltac:(lia)) as E. exists (- ((r + b) / ny h)).
    assert (ER : IZR ((r + b) mod ny h) = (IZR r + IZR b - IZR (ny h) * IZR ((r + b) / ny h))%R)
      by (rewrite <- mult_IZR, <- !plus_IZR, <- minus_IZR; f_equal; lia).
    rewrite !plus_IZR, ER, opp_IZR. lra. }
  destruct X1 as (zx & X1), Y1 as (zy & Y1).
  assert (PXe : period_x h = (IZR (nx h) * dc h)%R) by reflexivity.
  assert (PYe : period_y h = (IZR (ny h) * dc h * sqrt 3 / 2)%R) by reflexivity.
  rewrite PXe, PYe. clear PXe PYe.
  split; [exact Hc'|].
  rewrite !(hm_xc _ _ _ Hm), !(hm_yc _ _ _ Hm) by assumption.
  split; [exists zx; exact X1|]. split; [exists zy; exact Y1|]. split.
  - intros q Hq. rewrite !(hm_ang _ _ _ Hm), !(hm_xe _ _ _ Hm), !(hm_ye _ _ _ Hm) by lia.
    unfold hang, hxe, hye. rewrite !mod3, !div3 by assumption. split; [reflexivity|].
    split; [exists zx|exists zy]; cbn [F RA fadd fsub fmul fdiv fofZ]; rewrite ?X1, ?Y1; destruct (q =? 0), (q =? 1); cbn [F RA fadd fsub fmul fdiv fofZ]; lra.
  - intros q Hq. rewrite !(hm_xv _ _ _ Hm), !(hm_yv _ _ _ Hm) by lia.
    unfold hxv, hyv. rewrite !mod2, !div2 by assumption.
    split; [exists zx|exists zy]; cbn [F RA fadd fsub fmul fdiv fofZ]; rewrite ?X1, ?Y1; destruct (q =? 0); cbn [F RA fadd fsub fmul fdiv fofZ]; lra.
Qed.

Lemma C63_odd_rows_refuted_proof :
  ~ (forall (S : setup RA), setup_ok S -> hook S = None -> disable_h (par_of S) = false -> disable_vn (par_of S) = false ->
     forall a b m1 m2 m1' m2', ready S m1 -> ready S m2 -> translated S a b St m1 m2 ->
     exec (sdims S) (compute_tendency S Tend St 0%R Replace) m1 (OK m1') ->
     exec (sdims S) (compute_tendency S Tend St 0%R Replace) m2 (OK m2') -> translated S a b Tend m1' m2').
Proof.
  intros H.
  pose proof ok23 as Hok.
  destruct (ready_any S23 Hok (f23 1)) as (m1 & R1 & E1). destruct (ready_any S23 Hok (f23 16)) as (m2 & R2 & E2).
  assert (Hd : (0 < (dc (mesh_of_setup S23) : R))%R) by (cbn; lra).
  pose proof (C59_tendency_is_the_discrete_equations_proof S23 Hok Hd Tend St 0%R Replace m1 ltac:(discriminate) R1) as (P1 & m1' & X1).
  pose proof (C59_tendency_is_the_discrete_equations_proof S23 Hok Hd Tend St 0%R Replace m2 ltac:(discriminate) R2) as (P2 & m2' & X2).
  assert (T : translated S23 0 2 St m1 m2).
  { intros c k Hc Hk. cbv zeta. rewrite !E1, !E2 by reflexivity. cbn in Hc. split; [reflexivity|]. split.
    - intros q Hq. rewrite E1, E2 by reflexivity.
      assert (Cc : c = 0 \/ c = 1 \/ c = 2 \/ c = 3 \/ c = 4 \/ c = 5) by lia.
      assert (Cq : q = 0 \/ q = 1 \/ q = 2) by lia.
      destruct Cc as [->|[->|[->|[->|[->| ->]]]]]; destruct Cq as [->|[->| ->]]; reflexivity.
    - intros l Hl. cbn in Hl. lia. }
  specialize (H S23 Hok eq_refl eq_refl eq_refl 0 2 m1 m2 m1' m2' R1 R2 T X1 X2 4 0 ltac:(cbn; lia) ltac:(cbn; lia)).
  destruct H as (H & _).
  change (cell_moved (mesh_of_setup S23) 0 2 4) with 3 in H.
  destruct (P1 _ X1) as (? & Q & P1'). injection Q as <-. destruct (P1' 0 ltac:(cbn; lia)) as (Z1 & _).
  destruct (P2 _ X2) as (? & Q & P2'). injection Q as <-. destruct (P2' 0 ltac:(cbn; lia)) as (Z2 & _).
  rewrite (Z1 4), (Z2 3) in H by (cbn; lia). cbv zeta in H. cbn [S23 par_of disable_h P23 hook] in H.
  pose proof (ready_hex S23 Hok m1 R1) as H1. pose proof (ready_hex S23 Hok m2 R2) as H2.
  unfold outflow, emean in H.
  rewrite (hm_noc _ _ _ H1), (hm_noc _ _ _ H2) in H by (cbn; lia). rewrite !rsum_small6 in H. cbv zeta in H.
  rewrite !(hm_eoc _ _ _ H1), !(hm_eoc _ _ _ H2) in H by (cbn; lia).
  rewrite !(hm_esc _ _ _ H1), !(hm_esc _ _ _ H2) in H by (cbn; lia).
  rewrite !(hm_area _ _ _ H1), !(hm_area _ _ _ H2) in H by (cbn; lia).
  cbn [mesh_of_setup S23 nx ny] in H.
  repeat (let e := fresh in match type of H with context [hE 2 3 ?c ?j] => let v := eval vm_compute in (hE 2 3 c j) in change (hE 2 3 c j) with v in H end).
  rewrite !(hm_dve _ _ _ H1), !(hm_dve _ _ _ H2) in H by (cbn; lia).
  rewrite !E1, !E2 in H by reflexivity.
  unfold f23 in H. cbn [Z.eqb Pos.eqb] in H.
  cbn [fofZ RA F fmul fadd] in H.
  match type of H with ?l = _ => assert (Y : l = 0%R) end.
  { unfold Rdiv. ring. }
  rewrite Y in H. clear Y. unfold hdve, hareac in H. cbn [S23 mesh_of_setup dc fmul fdiv fsqrt fofZ F RA] in H.
  pose proof (sqrt_lt_R0 3 ltac:(lra)) as Hs. revert H. generalize dependent (sqrt 3). intros s Hs H.
  match type of H with context [hesc ?x 4 4] => change (hesc x 4 4) with 1 in H end. field_simplify in H; lra.
Qed.

Lemma C64_tracers_are_passive_and_independent_proof :
  forall (A : Arith) (S : setup A) (n : Z) (sg : Z -> Z), setup_ok S -> 0 <= n ->
  (forall l, 0 <= l < ntracers (par_of S) -> 0 <= sg l < n) ->
  let S' := with_tracers S n in
  (forall t s time md m1 m2 m1', s <> t -> ready S m1 -> ready S' m2 -> retraced S sg s m1 m2 ->
     (md = Replace /\ disable_h (par_of S) = false /\ disable_vn (par_of S) = false) \/ retraced S sg t m1 m2 ->
     exec (sdims S) (compute_tendency S t s time md) m1 (OK m1') ->
     always (sdims S') (compute_tendency S' t s time md) m2 (fun m2' => retraced S sg t m1' m2')) /\
  (forall steps m1 m2 m1', ready S m1 -> ready S' m2 -> retraced S sg St m1 m2 ->
     (disable_h (par_of S) = false /\ disable_vn (par_of S) = false) \/ retraced S sg Tend m1 m2 ->
     exec (sdims S) (rk4_run S steps) m1 (OK m1') ->
     always (sdims S') (rk4_run S' steps) m2 (fun m2' => retraced S sg St m1' m2')) /\
  (forall k steps m1 m2 m1', ready S m1 -> ready S' m2 -> retraced S sg St m1 m2 -> retraced S sg Tend m1 m2 ->
     exec (sdims S) (lsrk_run S k steps) m1 (OK m1') ->
     always (sdims S') (lsrk_run S' k steps) m2 (fun m2' => retraced S sg St m1' m2')).
Proof.
  intros A S n sg Hok Hn Hsg S'.
  assert (Hok' : setup_ok S').
  { destruct Hok as (H1 & H2 & H3). split; [exact H1|]. split; [exact Hn|exact H3]. }
  assert (HS : psize (sdims S) (sdims S') (retrace sg)) by (constructor; try reflexivity; auto).
  pose proof (fun m1 m2 => tr_mesh S n sg m1 m2 Hok Hok') as HM.
  split; [|split].
  - intros t s time md m1 m2 m1' Hne R1 R2 Hs Ht X1.
    eapply pair_always; [now apply rd_tendency|]. intros m2' X2.
    eapply (el_tendency S n (retrace sg) Hok Hok' HS True (or_intror I) HM t s time md m1 m2); eauto.
  - intros steps m1 m2 m1' R1 R2 Hs Ht X1.
    eapply pair_always; [apply hs_rk4_run; auto using ready_wfm, ok_wfd, ok_ntr|]. intros m2' X2.
    eapply (el_rk4_run S n (retrace sg) Hok Hok' HS True (or_intror I) HM steps m1 m2); eauto.
  - intros k steps m1 m2 m1' R1 R2 Hs Ht X1.
    eapply pair_always; [apply hs_lsrk_run; auto using ready_wfm, ok_wfd, ok_ntr|]. intros m2' X2.
    eapply (el_lsrk_run S n (retrace sg) Hok Hok' HS True (or_intror I) HM k steps m1 m2); eauto.
Qed.

