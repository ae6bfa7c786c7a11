(** Geometry and discrete vector calculus of the built mesh, in exact real arithmetic. *)
From Coq Require Import ZArith Reals List Bool Lia Lra ZifyBool.
From Verif Require Import Arith Arrays Prog Conc Mesh RSum Spec Hex HexComb Launch MeshProof MeshMem MeshFacts RSum.
Import ListNotations.
Open Scope Z_scope.

Lemma eqmod_refl p x : eqmod p x x. Proof. exists 0. lra. Qed.
Lemma eqmod_eq p x y : x = y -> eqmod p x y. Proof. intros ->. apply eqmod_refl. Qed.
Lemma eqmod_sym p x y : eqmod p x y -> eqmod p y x.
Proof. intros [a ->]. exists (- a). rewrite opp_IZR. lra. Qed.
Lemma eqmod_trans p x y z : eqmod p x y -> eqmod p y z -> eqmod p x z.
Proof. intros [a ->] [b ->]. exists (a + b). rewrite plus_IZR. lra. Qed.
Lemma eqmod_add p x y z w : eqmod p x y -> eqmod p z w -> eqmod p (x + z) (y + w).
Proof. intros [a ->] [b ->]. exists (a + b). rewrite plus_IZR. lra. Qed.
Lemma eqmod_shift p x y z : eqmod p x y -> eqmod p (x + z) (y + z).
Proof. intros H. apply eqmod_add; [exact H|apply eqmod_refl]. Qed.

Lemma cos_2PI3 : cos (2 * PI / 3) = (- (1 / 2))%R.
Proof.
  replace (2 * PI / 3)%R with (PI - PI / 3)%R by lra. rewrite cos_minus, cos_PI, sin_PI, cos_PI3. lra.
Qed.
Lemma sin_2PI3 : sin (2 * PI / 3) = (sqrt 3 / 2)%R.
Proof.
  replace (2 * PI / 3)%R with (PI - PI / 3)%R by lra. rewrite sin_minus, cos_PI, sin_PI, sin_PI3. lra.
Qed.
Lemma sqrt3_sq : (sqrt 3 * sqrt 3 = 3)%R. Proof. apply sqrt_sqrt. lra. Qed.
Lemma sqrt3_pos : (0 < sqrt 3)%R. Proof. apply sqrt_lt_R0. lra. Qed.
Lemma inv_sqrt3 : (1 / sqrt 3 = sqrt 3 / 3)%R.
Proof. pose proof sqrt3_sq. pose proof sqrt3_pos. apply (Rmult_eq_reg_r (sqrt 3)); [|lra]. field_simplify; lra. Qed.

Section MeshR.
Context (cf : config) (h : hexargs RA) (ntr : Z).
Local Notation D := (dims_of cf h ntr).
Local Notation X := (nx h).
Local Notation Y := (ny h).
Local Notation NC := (nx h * ny h).
Local Notation dcR := (dc h : R).
Hypothesis Hok : mesh_ok cf h.
Let Hx := Hx cf h Hok.
Let Hy := Hy cf h Hok.
Local Notation nb := (nb X Y).
Local Notation hE := (hE X Y).
Local Notation hV := (hV X Y).

(** ** Positions *)
Definition dxj (j : Z) : R :=
  (if j =? 0 then -1 else if j =? 1 then - (1/2) else if j =? 2 then 1/2 else if j =? 3 then 1
  else if j =? 4 then 1/2 else - (1/2))%R.
Definition dyj (j : Z) : R :=
  (if (j =? 0) || (j =? 3) then 0 else if (j =? 1) || (j =? 2) then -1 else 1)%R.

Local Notation PX := (period_x h : R).
Local Notation PY := (period_y h : R).
Lemma PX_eq : PX = (IZR X * dcR)%R. Proof. reflexivity. Qed.
Lemma PY_eq : PY = (IZR Y * dcR * sqrt 3 / 2)%R. Proof. reflexivity. Qed.

Lemma mxc_R i : exists a, IZR (mxc X i) = (IZR i - 1 + IZR a * IZR X)%R.
Proof.
  unfold mxc. destruct (Z.eqb_spec i 0) as [->|_]; [exists 1|exists 0]; rewrite minus_IZR; lra.
Qed.
Lemma pxc_R i : exists a, IZR (pxc X i) = (IZR i + 1 + IZR a * IZR X)%R.
Proof.
  unfold pxc. destruct (Z.eqb_spec i (X - 1)) as [->|_]; [exists (-1); rewrite minus_IZR|exists 0; rewrite plus_IZR]; lra.
Qed.
Lemma myr_R i : exists a, IZR (myr Y i) = (IZR i - 1 + IZR a * IZR Y)%R.
Proof.
  unfold myr. destruct (Z.eqb_spec i 0) as [->|_]; [exists 1|exists 0]; rewrite minus_IZR; lra.
Qed.
Lemma pyr_R i : exists a, IZR (pyr Y i) = (IZR i + 1 + IZR a * IZR Y)%R.
Proof.
  unfold pyr. destruct (Z.eqb_spec i (Y - 1)) as [->|_]; [exists (-1); rewrite minus_IZR|exists 0; rewrite plus_IZR]; lra.
Qed.

Lemma hxc_R c : hxc h c = (if Z.even (rowof X c) then dcR * IZR (colof X c) + dcR / 2 else dcR * IZR (colof X c + 1))%R.
Proof. reflexivity. Qed.
Lemma hyc_R c : hyc h c = (dcR * IZR (rowof X c + 1) * sqrt 3 / 2)%R.
Proof. reflexivity. Qed.

Ltac six j := assert (j = 0 \/ j = 1 \/ j = 2 \/ j = 3 \/ j = 4 \/ j = 5)
    as [-> | [-> | [-> | [-> | [-> | ->]]]]] by lia.

Lemma pos_nb c j : Z.even Y = true -> 0 <= c < NC -> 0 <= j < 6 ->
  eqmod PX (hxc h (nb c j)) (hxc h c + dcR * dxj j) /\
  eqmod PY (hyc h (nb c j)) (hyc h c + dcR * (sqrt 3 / 2) * dyj j).
Proof.
  intros Hev Hc Hj. pose proof (rowof_range X Y Hx c Hc) as Hr.
  rewrite !hxc_R, !hyc_R, (colof_nb X Y Hx), (rowof_nb X Y Hx), PX_eq, PY_eq.
  destruct (mxc_R (colof X c)) as [a1 E1]. destruct (pxc_R (colof X c)) as [a2 E2].
  destruct (myr_R (rowof X c)) as [b1 F1]. destruct (pyr_R (rowof X c)) as [b2 F2].
  unfold eqmod, dxj, dyj, ncol, nrow.
  six j; cbn [Z.eqb Pos.eqb orb]; rewrite ?even_pyr, ?even_myr by assumption;
    destruct (Z.even (rowof X c)); cbn [negb]; rewrite ?plus_IZR, ?E1, ?E2, ?F1, ?F2;
    (split; [first [exists 0; lra | exists a1; lra | exists a2; lra]|first [exists 0; lra | exists b1; lra | exists b2; lra]]).
Qed.

Definition ang (q : Z) : R := (if (q =? 0)%Z then 0 else if (q =? 1)%Z then PI / 3 else 2 * PI / 3)%R.
Lemma hang_R e : hang (A:=RA) e = ang (e mod 3). Proof. reflexivity. Qed.
Lemma hang_q d q : 0 <= q < 3 -> hang (A:=RA) (3 * d + q) = ang q.
Proof. intros. rewrite hang_R, mod3 by lia. reflexivity. Qed.

Lemma Zc : forall d q, 0 <= 3 * d + q < 3 * NC -> 0 <= q < 3 -> 0 <= d < NC. Proof. intros; lia. Qed.

Ltac mod6 := repeat match goal with |- context [(?a mod 6)] => let v := eval vm_compute in (a mod 6) in change (a mod 6) with v end.
Ltac three q := assert (q = 0 \/ q = 1 \/ q = 2) as [-> | [-> | ->]] by lia.

Lemma edge_geometry e : Z.even Y = true -> 0 <= e < 3 * NC ->
  eqmod PX (hxc h (hcoe X Y e 1)) (hxc h (hcoe X Y e 0) + dcR * cos (hang (A:=RA) e)) /\
  eqmod PY (hyc h (hcoe X Y e 1)) (hyc h (hcoe X Y e 0) + dcR * sin (hang (A:=RA) e)) /\
  eqmod PX (hxe h e) (hxc h (hcoe X Y e 0) + dcR / 2 * cos (hang (A:=RA) e)) /\
  eqmod PY (hye h e) (hyc h (hcoe X Y e 0) + dcR / 2 * sin (hang (A:=RA) e)) /\
  eqmod PX (hxe h e) (hxc h (hcoe X Y e 1) - dcR / 2 * cos (hang (A:=RA) e)) /\
  eqmod PY (hye h e) (hyc h (hcoe X Y e 1) - dcR / 2 * sin (hang (A:=RA) e)).
Proof.
  intros Hev He. destruct (edec e) as (d & q & Hq & ->). pose proof (Zc d q He Hq) as Hd.
  rewrite !hcoe_q, !hang_q by lia. cbn [Z.eqb Pos.eqb].
  rewrite inb_is_nb by lia.
  assert (Hj : 0 <= (3 + q + 3) mod 6 < 6) by (apply Z.mod_pos_bound; lia).
  destruct (pos_nb d _ Hev Hd Hj) as [[a Ea] [b Eb]].
  assert (Hxe : hxe h (3 * d + q) = (hxc h d - dcR / 2 * cos (ang q))%R).
  { unfold hxe. rewrite mod3, div3 by lia. cbn [fadd fsub fmul fdiv fofZ fpi fcos RA]. unfold ang.
    three q; cbn [Z.eqb Pos.eqb]; rewrite ?cos_0, ?cos_PI3, ?cos_2PI3; lra. }
  assert (Hye : hye h (3 * d + q) = (hyc h d - dcR / 2 * sin (ang q))%R).
  { unfold hye. rewrite mod3, div3 by lia. cbn [fadd fsub fmul fdiv fofZ fpi fsin RA]. unfold ang.
    three q; cbn [Z.eqb Pos.eqb]; rewrite ?sin_0, ?sin_PI3, ?sin_2PI3; lra. }
  rewrite Hxe, Hye, Ea, Eb. clear Hxe Hye Ea Eb Hj.
  assert (E : (dxj ((3 + q + 3) mod 6) = - cos (ang q) /\ sqrt 3 / 2 * dyj ((3 + q + 3) mod 6) = - sin (ang q))%R).
  { three q; mod6; unfold dxj, dyj, ang; cbn [Z.eqb Pos.eqb orb];
      rewrite ?cos_0, ?cos_PI3, ?cos_2PI3, ?sin_0, ?sin_PI3, ?sin_2PI3; lra. }
  destruct E as [E1 E2].
  replace (dcR * (sqrt 3 / 2) * dyj ((3 + q + 3) mod 6))%R with (dcR * (sqrt 3 / 2 * dyj ((3 + q + 3) mod 6)))%R by ring.
  rewrite E1, E2.
  repeat split; first [apply eqmod_refl | (exists 0; lra) | (exists (-a); rewrite opp_IZR; lra) | (exists (-b); rewrite opp_IZR; lra)].
Qed.

Lemma hxv_R v : hxv h v = (hxc h (v / 2) - dcR / 2)%R. Proof. reflexivity. Qed.
Lemma hyv_R v : hyv h v = (if v mod 2 =? 0 then hyc h (v / 2) + dcR * sqrt 3 / 6 else hyc h (v / 2) - dcR * sqrt 3 / 6)%R.
Proof. reflexivity. Qed.
Lemma hdve_R : hdve h = (dcR * sqrt 3 / 3)%R. Proof. reflexivity. Qed.

(** Corners of a cell are its centre plus a fixed offset. *)
Definition vxj (j : Z) : R :=
  (if j =? 0 then - (1/2) else if j =? 1 then - (1/2) else if j =? 2 then 0 else if j =? 3 then 1/2
   else if j =? 4 then 1/2 else 0)%R.
Definition vyj (j : Z) : R :=
  (if j =? 0 then 1/6 else if j =? 1 then -(1/6) else if j =? 2 then -(1/3) else if j =? 3 then -(1/6)
   else if j =? 4 then 1/6 else 1/3)%R.
Lemma pos_corner c j : Z.even Y = true -> 0 <= c < NC -> 0 <= j < 6 ->
  eqmod PX (hxv h (hV c j)) (hxc h c + dcR * vxj j) /\
  eqmod PY (hyv h (hV c j)) (hyc h c + dcR * sqrt 3 * vyj j).
Proof.
  intros Hev Hc Hj.
  destruct (pos_nb c 2 Hev Hc ltac:(lia)) as [[a2 A2] [b2 B2]].
  destruct (pos_nb c 3 Hev Hc ltac:(lia)) as [[a3 A3] [b3 B3]].
  destruct (pos_nb c 4 Hev Hc ltac:(lia)) as [[a4 A4] [b4 B4]].
  unfold dxj in A2, A3, A4. unfold dyj in B2, B3, B4. cbn [Z.eqb Pos.eqb orb] in *.
  rewrite hxv_R, hyv_R. unfold hV, vxj, vyj.
  six j; cbn [Z.eqb Pos.eqb]; rewrite ?div2, ?mod2, ?div2', ?mod2' by lia; cbn [Z.eqb Pos.eqb];
    rewrite ?A2, ?A3, ?A4, ?B2, ?B3, ?B4; unfold eqmod;
    (split; [first [exists 0; lra|exists a2; lra|exists a3; lra|exists a4; lra]
            |first [exists 0; lra|exists b2; lra|exists b3; lra|exists b4; lra]]).
Qed.

Lemma edge_corners e : Z.even Y = true -> 0 <= e < 3 * NC ->
  eqmod PX (hxv h (hvoe X Y e 1)) (hxv h (hvoe X Y e 0) - hdve h * sin (hang (A:=RA) e)) /\
  eqmod PY (hyv h (hvoe X Y e 1)) (hyv h (hvoe X Y e 0) + hdve h * cos (hang (A:=RA) e)).
Proof.
  intros Hev He. destruct (edec e) as (d & q & Hq & ->). pose proof (Zc d q He Hq) as Hd.
  rewrite !hvoe_q, hang_q by lia. cbn [Z.eqb].
  destruct (pos_corner d q Hev Hd ltac:(lia)) as [[a A1] [b B1]].
  destruct (pos_corner d (q + 1) Hev Hd ltac:(lia)) as [[a' A2] [b' B2]].
  change (hdve h) with (dcR * sqrt 3 / 3)%R. rewrite A1, A2, B1, B2. clear A1 A2 B1 B2.
  assert (S3 : (dcR * (sqrt 3 * sqrt 3) = dcR * 3)%R) by now rewrite sqrt3_sq.
  split; [exists (a - a')|exists (b - b')]; rewrite minus_IZR;
    three q; unfold vxj, vyj, ang; cbn [Z.eqb Pos.eqb Z.add Pos.add Pos.succ];
    rewrite ?sin_0, ?cos_0, ?sin_PI3, ?cos_PI3, ?sin_2PI3, ?cos_2PI3; lra.
Qed.

Lemma vertex_distance v s : Z.even Y = true -> 0 <= v < 2 * NC -> 0 <= s < 3 ->
  exists x y, eqmod PX (hxv h v) (hxc h (hcov X Y v s) + x) /\ eqmod PY (hyv h v) (hyc h (hcov X Y v s) + y) /\
    (x * x + y * y = dcR * dcR / 3)%R.
Proof.
  intros Hev Hv Hs.
  assert (Hj : 0 <= vcorner v s < 6).
  { unfold vcorner. destruct (v mod 2 =? 0), (s =? 0), (s =? 1); lia. }
  destruct (pos_corner (hcov X Y v s) (vcorner v s) Hev (hcov_range X Y Hx Hy v s Hv) Hj) as [A B].
  rewrite (hV_hcov X Y Hx v s Hv Hs) in A, B.
  eexists _, _. split; [exact A|]. split; [exact B|]. pose proof sqrt3_sq as S3.
  assert (E : (vxj (vcorner v s) * vxj (vcorner v s) + 3 * (vyj (vcorner v s) * vyj (vcorner v s)) = 1 / 3)%R).
  { unfold vxj, vyj. generalize (vcorner v s) Hj. intros j Hj'. six j; cbn [Z.eqb Pos.eqb]; lra. }
  transitivity (dcR * dcR * (vxj (vcorner v s) * vxj (vcorner v s) + (sqrt 3 * sqrt 3) * (vyj (vcorner v s) * vyj (vcorner v s))))%R;
    [ring|]. rewrite S3, E. lra.
Qed.

(** ** Areas *)
Lemma hareac_R : hareac h = (dcR * dcR * sqrt 3 / 2)%R. Proof. reflexivity. Qed.
Lemma hatri_R : hatri h = (dcR * dcR * sqrt 3 / 4)%R. Proof. reflexivity. Qed.
Lemma hkite_R : hkite h = (dcR * dcR * sqrt 3 / 12)%R. Proof. reflexivity. Qed.
End MeshR.

(** ** Facts about the memory *)
Section OnMem.
Context (cf : config) (h : hexargs RA) (ntr : Z).
Local Notation D := (dims_of cf h ntr).
Local Notation X := (nx h).
Local Notation Y := (ny h).
Local Notation NC := (nx h * ny h).
Local Notation dcR := (dc h : R).
Context (Hok : mesh_ok cf h) (m : mem RA) (Hm : hexmem h (d_nlayers D) m).
Let Hx := Hx cf h Hok.
Let Hy := Hy cf h Hok.
Local Notation nb := (nb X Y).
Local Notation hE := (hE X Y).
Local Notation hV := (hV X Y).
Local Notation PX := (period_x h : R).
Local Notation PY := (period_y h : R).
Local Notation ri a ix := (mi m a ix).
Local Notation rr a ix := (mr m a ix : R).

Lemma m_edge_geometry e : Z.even Y = true -> 0 <= e < 3 * NC ->
  let c0 := ri CellsOnEdge [e; 0] in let c1 := ri CellsOnEdge [e; 1] in
  let v0 := ri VerticesOnEdge [e; 0] in let v1 := ri VerticesOnEdge [e; 1] in
  let th := rr AngleEdge [e] in let d := rr DcEdge [e] in let dv := rr DvEdge [e] in
  d = dc h /\ dv = (d * sqrt 3 / 3)%R /\
  eqmod PX (rr XCell [c1]) (rr XCell [c0] + d * cos th) /\
  eqmod PY (rr YCell [c1]) (rr YCell [c0] + d * sin th) /\
  eqmod PX (rr XEdge [e]) (rr XCell [c0] + d / 2 * cos th) /\
  eqmod PY (rr YEdge [e]) (rr YCell [c0] + d / 2 * sin th) /\
  eqmod PX (rr XEdge [e]) (rr XCell [c1] - d / 2 * cos th) /\
  eqmod PY (rr YEdge [e]) (rr YCell [c1] - d / 2 * sin th) /\
  eqmod PX (rr XVertex [v1]) (rr XVertex [v0] - dv * sin th) /\
  eqmod PY (rr YVertex [v1]) (rr YVertex [v0] + dv * cos th).
Proof.
  intros Hev He. cbn zeta. rewrite !(hm_coe _ _ _ Hm), !(hm_voe _ _ _ Hm) by lia.
  pose proof (hcoe_range X Y Hx Hy e 0 He). pose proof (hcoe_range X Y Hx Hy e 1 He).
  pose proof (hvoe_range X Y Hx Hy e 0 He). pose proof (hvoe_range X Y Hx Hy e 1 He).
  rewrite !(hm_xc _ _ _ Hm), !(hm_yc _ _ _ Hm), !(hm_xv _ _ _ Hm), !(hm_yv _ _ _ Hm), (hm_xe _ _ _ Hm), (hm_ye _ _ _ Hm),
    (hm_ang _ _ _ Hm), (hm_dce _ _ _ Hm), (hm_dve _ _ _ Hm) by assumption.
  pose proof (edge_geometry cf h Hok e Hev He) as (G1 & G2 & G3 & G4 & G5 & G6).
  pose proof (edge_corners cf h Hok e Hev He) as (G7 & G8).
  repeat split; try assumption.
Qed.
Lemma m_vertex_distance v s : Z.even Y = true -> 0 <= v < 2 * NC -> 0 <= s < 3 ->
  let c := ri CellsOnVertex [v; s] in
  exists x y, eqmod PX (rr XVertex [v]) (rr XCell [c] + x) /\ eqmod PY (rr YVertex [v]) (rr YCell [c] + y) /\
    (x * x + y * y = dcR * dcR / 3)%R.
Proof.
  intros Hev Hv Hs. cbn zeta. rewrite !(hm_cov _ _ _ Hm) by lia.
  pose proof (hcov_range X Y Hx Hy v s Hv).
  rewrite (hm_xc _ _ _ Hm), (hm_yc _ _ _ Hm), (hm_xv _ _ _ Hm), (hm_yv _ _ _ Hm) by assumption.
  now apply (vertex_distance cf h Hok).
Qed.

Lemma NC_nonneg : 0 <= NC. Proof. pose proof Hx. pose proof Hy. nia. Qed.

Lemma m_areas :
  (forall v, 0 <= v < 2 * NC -> rsum 3 (fun s => rr KiteareasOnVertex [v; s]) = rr AreaTriangle [v]) /\
  (forall c, 0 <= c < NC ->
     rsum 6 (fun j => rr KiteareasOnVertex [ri VerticesOnCell [c; j]; ri KiteIndexOnCell [c; j]]) = rr AreaCell [c]) /\
  (rsum NC (fun c => rr AreaCell [c]) = PX * PY)%R /\
  (rsum (2 * NC) (fun v => rr AreaTriangle [v]) = PX * PY)%R /\
  (rsum (3 * NC) (fun e => rr DcEdge [e] * rr DvEdge [e] / 2) = PX * PY)%R.
Proof.
  pose proof NC_nonneg as Hn. pose proof (sqrt3_sq) as S3.
  assert (E : (IZR NC * (dcR * dcR * sqrt 3 / 2) = PX * PY)%R).
  { rewrite PX_eq, PY_eq, mult_IZR. field. }
  split; [|split; [|split; [|split]]].
  - intros v Hv. rewrite rsum_small3, !(hm_kite _ _ _ Hm), (hm_atri _ _ _ Hm) by lia.
    rewrite hkite_R, hatri_R. lra.
  - intros c Hc. rewrite (hm_area _ _ _ Hm) by lia.
    assert (K : forall j, 0 <= j < 6 -> rr KiteareasOnVertex [ri VerticesOnCell [c; j]; ri KiteIndexOnCell [c; j]] = hkite h).
    { intros j Hj. rewrite (hm_voc _ _ _ Hm), (hm_ki _ _ _ Hm) by lia. apply (hm_kite _ _ _ Hm).
      - apply hV_range; auto.
      - unfold hki. destruct (hcov X Y (hV c j) 2 =? c), (hcov X Y (hV c j) 1 =? c); lia. }
    rewrite rsum_small6, !K by lia. rewrite hkite_R, hareac_R. lra.
  - rewrite (rsum_ext _ _ (fun _ => (dcR * dcR * sqrt 3 / 2)%R)), rsum_const by (try lia; intros; now apply (hm_area _ _ _ Hm)).
    exact E.
  - rewrite (rsum_ext _ _ (fun _ => (dcR * dcR * sqrt 3 / 4)%R)), rsum_const by (try lia; intros; now apply (hm_atri _ _ _ Hm)).
    rewrite <- E, (mult_IZR 2 NC). lra.
  - rewrite (rsum_ext _ _ (fun _ => (dcR * (dcR * sqrt 3 / 3) / 2)%R)), rsum_const; [|lia|].
    + rewrite <- E, (mult_IZR 3 NC). lra.
    + intros e He. rewrite (hm_dce _ _ _ Hm), (hm_dve _ _ _ Hm) by lia. rewrite hdve_R. reflexivity.
Qed.

(** ** Tangential weights *)
Ltac six j := assert (j = 0 \/ j = 1 \/ j = 2 \/ j = 3 \/ j = 4 \/ j = 5)
    as [-> | [-> | [-> | [-> | [-> | ->]]]]] by lia.
Ltac three q := assert (q = 0 \/ q = 1 \/ q = 2) as [-> | [-> | ->]] by lia.
Ltac mod6 := repeat match goal with |- context [(?a mod 6)] => let v := eval vm_compute in (a mod 6) in change (a mod 6) with v end.

(** Weight of edge [j'] of a cell in the sum of edge [j] of the same cell, before the common factor. *)
Definition cw (q s : Z) : R :=
  (if q =? 0 then if s =? 0 then 1/3 else if s =? 1 then 1/6 else if s =? 2 then 0 else if s =? 3 then 1/6 else 1/3
   else if q =? 1 then if s =? 0 then 1/3 else if s =? 1 then -1/6 else if s =? 2 then 0 else if s =? 3 then 1/6 else -1/3
   else if s =? 0 then -1/3 else if s =? 1 then -1/6 else if s =? 2 then 0 else if s =? 3 then -1/6 else -1/3)%R.
Lemma hw_cw e s : 0 <= s < 10 -> hw (A:=RA) e s = (cw (e mod 3) (s mod 5) * (sqrt 3 / 3))%R.
Proof.
  intros Hs. unfold hw, hw0. cbn [fmul fdiv fofZ fsqrt RA]. rewrite inv_sqrt3. f_equal.
  destruct (Z.ltb_spec s 10); [|lia]. unfold cw. reflexivity.
Qed.

Definition side (s : Z) : Z := if s <? 5 then 0 else 1.
Lemma weights_antisym e s : 0 <= e < 3 * NC -> 0 <= s < 10 ->
  let e' := ri EdgesOnEdge [e; s] in
  0 <= e' < 3 * NC /\
  exists s', 0 <= s' < 10 /\ ri EdgesOnEdge [e'; s'] = e /\
    ri CellsOnEdge [e'; if s' <? 5 then 0 else 1] = ri CellsOnEdge [e; if s <? 5 then 0 else 1] /\
    (rr WeightsOnEdge [e'; s'] = - rr WeightsOnEdge [e; s])%R.
Proof.
  intros He Hs. cbn zeta. rewrite (hm_eoe _ _ _ Hm) by lia.
  pose proof (heoe_range X Y Hx Hy e s He) as He'. split; [exact He'|].
  (* edge e is local edge j of the cell c *)
  assert (Hcj : exists c j, 0 <= c < NC /\ 0 <= j < 6 /\ e = hE c j /\ (if s <? 5 then 3 <= j else j < 3)).
  { pose proof (Z.mod_pos_bound e 3 ltac:(lia)). destruct (Z.ltb_spec s 5).
    - exists (ecell X Y e), (3 + e mod 3). rewrite hE_ecell by auto. repeat split; auto; try lia; apply ecell_range; auto.
    - exists (e / 3), (e mod 3). rewrite hE_low. pose proof (ediv_range X Y e He). repeat split; auto; lia. }
  destruct Hcj as (c & j & Hc & Hj & Ee & Hside).
  assert (HEC : forall j k, 0 <= j < 6 -> 0 <= k < 5 ->
     let s := if 3 <=? j then k else 5 + k in heoe X Y (hE c j) s = hE c ((j + 1 + k) mod 6) /\
     hcoe X Y (hE c j) (if s <? 5 then 0 else 1) = c /\ hw (A:=RA) (hE c j) s = (cw (j mod 3) k * (sqrt 3 / 3))%R).
  { intros j0 k Hj0 Hk. cbn zeta. rewrite hw_cw by (destruct (3 <=? j0); lia). rewrite hE_mod_ by auto.
    assert (Ek : (if 3 <=? j0 then k else 5 + k) mod 5 = k).
    { destruct (3 <=? j0); [|replace (5 + k) with (k + 1 * 5) by lia; rewrite Z.mod_add by lia]; apply Z.mod_small; lia. }
    rewrite Ek. unfold heoe. rewrite hE_mod_ by auto. destruct (Z.leb_spec 3 j0).
    - destruct (Z.ltb_spec k 5); [|lia]. rewrite ecell_hE by lia. split; [|split; [|reflexivity]].
      + f_equal. f_equal. assert (j0 = 3 \/ j0 = 4 \/ j0 = 5) as [-> | [-> | ->]] by lia; reflexivity.
      + pose proof (hcoe_hE X Y Hx c j0 Hc Hj0) as E. destruct (Z.ltb_spec j0 3); [lia|exact E].
    - destruct (Z.ltb_spec (5 + k) 5); [lia|]. destruct (Z.ltb_spec (5 + k) 10); [|lia].
      rewrite hE_div_ by lia. destruct (Z.ltb_spec j0 3); [|lia]. split; [|split; [|reflexivity]].
      + f_equal. f_equal. rewrite Z.mod_small by lia. lia.
      + pose proof (hcoe_hE X Y Hx c j0 Hc Hj0) as E. destruct (Z.ltb_spec j0 3); [exact E|lia]. }
  pose (k := if s <? 5 then s else s - 5).
  assert (Hk : 0 <= k < 5) by (unfold k; destruct (Z.ltb_spec s 5); lia).
  assert (Es : s = if 3 <=? j then k else 5 + k).
  { unfold k. destruct (Z.ltb_spec s 5), (Z.leb_spec 3 j); lia. }
  destruct (HEC j k Hj Hk) as (G1 & G2 & G3). rewrite <- Es, <- Ee in G1, G2, G3.
  pose (j' := (j + 1 + k) mod 6). assert (Hj' : 0 <= j' < 6) by (apply Z.mod_pos_bound; lia).
  pose (k' := 4 - k). assert (Hk' : 0 <= k' < 5) by (unfold k'; lia).
  destruct (HEC j' k' Hj' Hk') as (G4 & G5 & G6).
  pose (s' := if 3 <=? j' then k' else 5 + k'). fold s' in G4, G5, G6.
  assert (Hs' : 0 <= s' < 10) by (unfold s'; destruct (3 <=? j'); lia).
  exists s'. split; [exact Hs'|]. rewrite G1. fold j'.
  assert (He'' : 0 <= hE c j' < 3 * NC) by (apply hE_range; auto).
  rewrite (hm_eoe _ _ _ Hm), !(hm_coe _ _ _ Hm), !(hm_w _ _ _ Hm) by (try destruct (s' <? 5); try destruct (s <? 5); lia).
  rewrite G4, G5, G2, G6, G3.
  assert (Ej : (j' + 1 + k') mod 6 = j).
  { unfold j', k'. assert (k = 0 \/ k = 1 \/ k = 2 \/ k = 3 \/ k = 4) as Kc by lia.
    six j; destruct Kc as [-> | [-> | [-> | [-> | ->]]]]; reflexivity. }
  rewrite Ej. split; [congruence|]. split; [reflexivity|].
  enough (Ew : (cw (j' mod 3) k' = - cw (j mod 3) k)%R) by (rewrite Ew; lra).
  unfold j', k'. clear -Hj Hk.
  assert (k = 0 \/ k = 1 \/ k = 2 \/ k = 3 \/ k = 4) as Kc by lia.
  six j; destruct Kc as [-> | [-> | [-> | [-> | ->]]]]; unfold cw;
    repeat match goal with |- context [(?a mod 6) mod 3] => let v := eval vm_compute in ((a mod 6) mod 3) in change ((a mod 6) mod 3) with v end;
    repeat match goal with |- context [?a mod 3] => let v := eval vm_compute in (a mod 3) in change (a mod 3) with v end;
    repeat match goal with |- context [4 - ?a] => let v := eval vm_compute in (4 - a) in change (4 - a) with v end;
    cbn [Z.eqb Pos.eqb]; lra.
Qed.

Lemma uniform_reconstruction e (U V : R) : 0 <= e < 3 * NC ->
  rsum (ri NedgesOnEdge [e]) (fun s => let e' := ri EdgesOnEdge [e; s] in
    rr WeightsOnEdge [e; s] * (U * cos (rr AngleEdge [e']) + V * sin (rr AngleEdge [e'])))%R
  = (- U * sin (rr AngleEdge [e]) + V * cos (rr AngleEdge [e]))%R.
Proof.
  intros He. rewrite (hm_noe _ _ _ Hm) by lia.
  assert (Hs : forall s, 0 <= s < 10 ->
    (rr WeightsOnEdge [e; s] * (U * cos (rr AngleEdge [ri EdgesOnEdge [e; s]]) + V * sin (rr AngleEdge [ri EdgesOnEdge [e; s]])) =
     cw (e mod 3) (s mod 5) * (sqrt 3 / 3) * (U * cos (ang ((e mod 3 + 1 + s mod 5) mod 3)) + V * sin (ang ((e mod 3 + 1 + s mod 5) mod 3))))%R).
  { intros s Hs. rewrite (hm_eoe _ _ _ Hm), (hm_w _ _ _ Hm) by lia. rewrite (hm_ang _ _ _ Hm) by (apply heoe_range; auto).
    rewrite hw_cw by lia. rewrite hang_R.
    assert (E : heoe X Y e s mod 3 = (e mod 3 + 1 + s mod 5) mod 3); [|now rewrite E].
    pose proof (Z.mod_pos_bound e 3 ltac:(lia)) as Hq. unfold heoe. destruct (Z.ltb_spec s 5).
    - rewrite hE_mod_ by (apply Z.mod_pos_bound; lia). generalize (e mod 3) Hq. intros q Hq'.
      rewrite (Z.mod_small s 5) by lia. assert (s = 0 \/ s = 1 \/ s = 2 \/ s = 3 \/ s = 4) as Kc by lia.
      three q; destruct Kc as [-> | [-> | [-> | [-> | ->]]]]; reflexivity.
    - destruct (Z.ltb_spec s 10); [|lia]. rewrite hE_mod_ by (apply Z.mod_pos_bound; lia). generalize (e mod 3) Hq. intros q Hq'.
      assert (s = 5 \/ s = 6 \/ s = 7 \/ s = 8 \/ s = 9) as Kc by lia.
      three q; destruct Kc as [-> | [-> | [-> | [-> | ->]]]]; reflexivity. }
  cbn zeta. rewrite (rsum_ext _ _ _ Hs), rsum_small10, (hm_ang _ _ _ Hm) by lia. rewrite hang_R.
  generalize (e mod 3) (Z.mod_pos_bound e 3 ltac:(lia)). intros q Hq.
  assert (S3U : (U * (sqrt 3 * sqrt 3) = U * 3)%R) by now rewrite sqrt3_sq.
  assert (S3V : (V * (sqrt 3 * sqrt 3) = V * 3)%R) by now rewrite sqrt3_sq.
  three q; repeat match goal with |- context [?a mod 5] => let v := eval vm_compute in (a mod 5) in change (a mod 5) with v end;
    repeat match goal with |- context [?a mod 3] => let v := eval vm_compute in (a mod 3) in change (a mod 3) with v end;
    unfold cw, ang; cbn [Z.eqb Pos.eqb]; rewrite ?sin_0, ?cos_0, ?sin_PI3, ?cos_PI3, ?sin_2PI3, ?cos_2PI3; lra.
Qed.
End OnMem.
