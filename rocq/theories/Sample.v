(** The mesh operators applied to the values of periodic functions at the mesh points. *)
From Coq Require Import ZArith Reals List Bool Lia Lra ZifyBool.
From Verif Require Import Arith Arrays Prog Conc Mesh RSum Spec Hex HexComb Launch MeshProof MeshMem MeshFacts MeshR MeshCalc Stencil.
Import ListNotations.
Open Scope Z_scope.

(** The function has the periods [px] and [py]. *)
Definition periodic (px py : R) (F : fn2) : Prop :=
  forall x y : R, (F (x + px) y = F x y /\ F x (y + py) = F x y)%R.

Lemma per_Z px py F : periodic px py F -> forall a b x y, F (x + IZR a * px)%R (y + IZR b * py)%R = F x y.
Proof.
  intros H.
  assert (HX : forall n x y, F (x + INR n * px)%R y = F x y).
  { induction n; intros; [f_equal; cbn; lra|]. rewrite S_INR.
    replace (x + (INR n + 1) * px)%R with (x + INR n * px + px)%R by ring. rewrite (proj1 (H _ _)). apply IHn. }
  assert (HY : forall n x y, F x (y + INR n * py)%R = F x y).
  { induction n; intros; [f_equal; cbn; lra|]. rewrite S_INR.
    replace (y + (INR n + 1) * py)%R with (y + INR n * py + py)%R by ring. rewrite (proj2 (H _ _)). apply IHn. }
  assert (ZX : forall a x y, F (x + IZR a * px)%R y = F x y).
  { intros a x y. destruct (Z_le_gt_dec 0 a).
    - rewrite <- (Z2Nat.id a), <- INR_IZR_INZ by lia. apply HX.
    - rewrite <- (HX (Z.to_nat (- a)) (x + IZR a * px)%R y). rewrite INR_IZR_INZ, Z2Nat.id, opp_IZR by lia. f_equal; ring. }
  assert (ZY : forall a x y, F x (y + IZR a * py)%R = F x y).
  { intros a x y. destruct (Z_le_gt_dec 0 a).
    - rewrite <- (Z2Nat.id a), <- INR_IZR_INZ by lia. apply HY.
    - rewrite <- (HY (Z.to_nat (- a)) x (y + IZR a * py)%R). rewrite INR_IZR_INZ, Z2Nat.id, opp_IZR by lia. f_equal; ring. }
  intros. now rewrite ZX, ZY.
Qed.
Lemma per_at px py F x x' y y' : periodic px py F -> eqmod px x x' -> eqmod py y y' -> F x y = F x' y'.
Proof. intros H [a ->] [b ->]. now apply per_Z. Qed.
Ltac rg := first [ring | apply Rminus_diag_uniq; cbn [F RA]; ring].
Lemma em_r p x a b : eqmod p x a -> a = b -> eqmod p x b. Proof. now intros H <-. Qed.

Section Per.
Context (px py d : R).
Local Notation per := (periodic px py).
Ltac shift H := repeat match goal with |- context [?F (?x + px + ?z)%R ?y] => replace (x + px + z)%R with (x + z + px)%R by ring end.
Lemma per_ext F G : (forall x y, F x y = G x y) -> per F -> per G.
Proof. intros E H x y. rewrite <- !E. apply H. Qed.
Lemma per_shift F a b : per F -> per (fun x y => F (x + a) (y + b))%R.
Proof.
  intros H x y. split.
  - replace (x + px + a)%R with (x + a + px)%R by ring. apply H.
  - replace (y + py + b)%R with (y + b + py)%R by ring. apply H.
Qed.
Lemma per_2 (op : R -> R -> R) F G : per F -> per G -> per (fun x y => op (F x y) (G x y)).
Proof. intros H K x y. destruct (H x y) as [-> ->], (K x y) as [-> ->]. split; reflexivity. Qed.
Lemma per_1 (op : R -> R) F : per F -> per (fun x y => op (F x y)).
Proof. intros H x y. destruct (H x y) as [-> ->]. split; reflexivity. Qed.
Lemma per_c c : per (fun _ _ => c). Proof. intros x y. split; reflexivity. Qed.
Lemma per_shift0 F b : per F -> per (fun x y => F x (y + b))%R.
Proof. intros H. apply (per_ext (fun x y => F (x + 0) (y + b))%R); [intros; f_equal; ring|now apply per_shift]. Qed.
End Per.
Ltac per1 :=
  lazymatch goal with
  | |- periodic _ _ (fun x y => (@?F x y + @?G x y)%R) => apply (per_2 _ _ Rplus F G)
  | |- periodic _ _ (fun x y => (@?F x y - @?G x y)%R) => apply (per_2 _ _ Rminus F G)
  | |- periodic _ _ (fun x y => (@?F x y * @?G x y)%R) => apply (per_2 _ _ Rmult F G)
  | |- periodic _ _ (fun x y => (@?F x y / @?G x y)%R) => apply (per_2 _ _ Rdiv F G)
  | |- periodic _ _ (fun x y => ?F (x + ?a)%R (y + ?b)%R) => apply (per_shift _ _ F a b)
  | |- periodic _ _ (fun x y => ?F (x + ?a)%R (y - ?b)%R) => apply (per_shift _ _ F a (- b))
  | |- periodic _ _ (fun x y => ?F (x - ?a)%R (y + ?b)%R) => apply (per_shift _ _ F (- a) b)
  | |- periodic _ _ (fun x y => ?F (x - ?a)%R (y - ?b)%R) => apply (per_shift _ _ F (- a) (- b))
  | |- periodic _ _ (fun x y => ?F x (y + ?b)%R) => apply (per_shift0 _ _ F b)
  | |- periodic _ _ (fun x y => ?F x (y - ?b)%R) => apply (per_shift0 _ _ F (- b))
  | |- periodic _ _ (fun _ _ => _) => first [assumption | apply per_c]
  end.
Ltac per := repeat (cbv beta; first [assumption | solve [auto] | per1]).

Section PerOps.
Context (px py d : R).
Local Notation per := (periodic px py).
Lemma per_Gr F q : per F -> per (Gr d F q). Proof. intros. unfold Gr. per. Qed.
Lemma per_Me F q : per F -> per (Me d F q). Proof. intros. unfold Me. per. Qed.
Lemma per_Df F q : per F -> per (Df d F q). Proof. intros. unfold Df. per. Qed.
Lemma per_Sm F q : per F -> per (Sm d F q). Proof. intros. unfold Sm. per. Qed.
Lemma per_Ou G : (forall q, per (G q)) -> per (Ou d G).
Proof. intros. unfold Ou. per; now apply per_Df. Qed.
Lemma per_Ki G : (forall q, per (G q)) -> per (Ki d G).
Proof. intros. unfold Ki. per; apply per_Sm; per. Qed.
Lemma per_Vo G p : (forall q, per (G q)) -> per (Vo d G p).
Proof. intros. unfold Vo. per. Qed.
Lemma per_Hv F p : per F -> per (Hv d F p).
Proof. intros. unfold Hv. per. Qed.
Lemma per_Mv W q : (forall p, per (W p)) -> per (Mv d W q).
Proof. intros. unfold Mv. per. Qed.
Lemma per_Rg W q : (forall p, per (W p)) -> per (Rg d W q).
Proof. intros. unfold Rg. per. Qed.
Lemma per_Pv f F G p : per F -> (forall q, per (G q)) -> per (Pv d f F G p).
Proof. intros. unfold Pv. per; [now apply per_Vo|now apply per_Hv]. Qed.
Lemma per_Vl G q : (forall q, per (G q)) -> per (Vl d G q).
Proof. intros. unfold Vl. per; [now apply per_Gr, per_Ou|now apply per_Rg; intros; apply per_Vo]. Qed.
End PerOps.

Lemma cq_cos q : 0 <= q < 3 -> cq q = cos (ang q).
Proof.
  intros. assert (q = 0 \/ q = 1 \/ q = 2) as [-> | [-> | ->]] by lia; unfold cq, ang; cbn [Z.eqb Pos.eqb];
    rewrite ?cos_0, ?cos_PI3, ?cos_2PI3; lra.
Qed.
Lemma sq_sin q : 0 <= q < 3 -> sq q = sin (ang q).
Proof.
  intros. assert (q = 0 \/ q = 1 \/ q = 2) as [-> | [-> | ->]] by lia; unfold sq, ang; cbn [Z.eqb Pos.eqb];
    rewrite ?sin_0, ?sin_PI3, ?sin_2PI3; lra.
Qed.

Section Sample.
Context (cf : config) (h : hexargs RA) (ntr : Z).
Local Notation D := (dims_of cf h ntr).
Local Notation X := (nx h).
Local Notation Y := (ny h).
Local Notation NC := (nx h * ny h).
Local Notation d := (dc h : R).
Context (Hok : mesh_ok cf h) (Hdc : (0 < (dc h : R))%R) (m : mem RA) (Hm : hexmem h (d_nlayers D) m)
  (Hev : Z.even Y = true) (HX2 : 2 <= X).
Let Hx := Hx cf h Hok.
Let Hy := Hy cf h Hok.
Local Notation ri a ix := (mi m a ix%Z).
Local Notation rr a ix := (mr m a ix%Z : R).
Local Notation PX := (period_x h : R).
Local Notation PY := (period_y h : R).
Local Notation per := (periodic PX PY).

Lemma HY2 : 2 <= Y.
Proof. pose proof Hy. destruct (Z.eq_dec Y 1) as [E|]; [rewrite E in Hev; discriminate|lia]. Qed.

(** Values of functions at the cells, edges and vertices. *)
Definition smpC (F : fn2) (phi : Z -> R) : Prop := forall c, 0 <= c < NC -> phi c = F (hxc h c) (hyc h c).
Definition smpE (G : Z -> fn2) (g : Z -> R) : Prop := forall e, 0 <= e < 3 * NC -> g e = G (e mod 3) (hxe h e) (hye h e).
Definition smpV (W : Z -> fn2) (w : Z -> R) : Prop := forall v, 0 <= v < 2 * NC -> w v = W (v mod 2) (hxv h v) (hyv h v).

Lemma cell_at F phi c x y : per F -> smpC F phi -> 0 <= c < NC -> eqmod PX (hxc h c) x -> eqmod PY (hyc h c) y -> phi c = F x y.
Proof. intros H S Hc E1 E2. rewrite S by lia. now apply per_at with PX PY. Qed.
Lemma edge_at G g e q x y : (forall q, per (G q)) -> smpE G g -> 0 <= e < 3 * NC -> e mod 3 = q ->
  eqmod PX (hxe h e) x -> eqmod PY (hye h e) y -> g e = G q x y.
Proof. intros H S Hc <- E1 E2. rewrite S by lia. now apply per_at with PX PY. Qed.
Lemma vertex_at W w v p x y : (forall p, per (W p)) -> smpV W w -> 0 <= v < 2 * NC -> v mod 2 = p ->
  eqmod PX (hxv h v) x -> eqmod PY (hyv h v) y -> w v = W p x y.
Proof. intros H S Hc <- E1 E2. rewrite S by lia. now apply per_at with PX PY. Qed.

(** Cells of an edge. *)
Lemma smp_coe F phi e : per F -> smpC F phi -> 0 <= e < 3 * NC ->
  phi (ri CellsOnEdge [e; 0]) = F (hxe h e - d / 2 * cq (e mod 3))%R (hye h e - d / 2 * sq (e mod 3))%R /\
  phi (ri CellsOnEdge [e; 1]) = F (hxe h e + d / 2 * cq (e mod 3))%R (hye h e + d / 2 * sq (e mod 3))%R.
Proof.
  intros HF S He. rewrite !(hm_coe _ _ _ Hm) by lia.
  pose proof (hcoe_range X Y Hx Hy e 0 He). pose proof (hcoe_range X Y Hx Hy e 1 He).
  pose proof (edge_geometry cf h Hok e Hev He) as (_ & _ & G3 & G4 & G5 & G6).
  rewrite hang_R, <- cq_cos in G3, G5 by (apply Z.mod_pos_bound; lia).
  rewrite hang_R, <- sq_sin in G4, G6 by (apply Z.mod_pos_bound; lia).
  apply eqmod_sym in G3, G4, G5, G6.
  split; apply (cell_at F phi); auto.
  - eapply em_r; [eapply eqmod_trans; [|apply (eqmod_shift _ _ _ (- (d / 2 * cq (e mod 3)))%R G3)]; apply eqmod_eq; rg|rg].
  - eapply em_r; [eapply eqmod_trans; [|apply (eqmod_shift _ _ _ (- (d / 2 * sq (e mod 3)))%R G4)]; apply eqmod_eq; rg|rg].
  - eapply em_r; [eapply eqmod_trans; [|apply (eqmod_shift _ _ _ (d / 2 * cq (e mod 3))%R G5)]; apply eqmod_eq; rg|rg].
  - eapply em_r; [eapply eqmod_trans; [|apply (eqmod_shift _ _ _ (d / 2 * sq (e mod 3))%R G6)]; apply eqmod_eq; rg|rg].
Qed.
Lemma smp_grad F phi : per F -> smpC F phi -> smpE (Gr d F) (grad m phi).
Proof.
  intros HF S e He. unfold grad, Gr. rewrite (hm_dce _ _ _ Hm) by lia.
  destruct (smp_coe F phi e HF S He) as [-> ->]. reflexivity.
Qed.
Lemma smp_emean F phi : per F -> smpC F phi -> smpE (Me d F) (emean m phi).
Proof.
  intros HF S e He. unfold emean, Me.
  destruct (smp_coe F phi e HF S He) as [-> ->]. reflexivity.
Qed.

(** Edges of a cell. *)
Lemma hxe_q c q : 0 <= q < 3 -> hxe h (3 * c + q) = (hxc h c - d / 2 * cq q)%R.
Proof.
  intros Hq. unfold hxe. rewrite mod3, div3 by lia. cbn [fadd fsub fmul fdiv fofZ fpi fcos RA]. unfold cq.
  assert (q = 0 \/ q = 1 \/ q = 2) as [-> | [-> | ->]] by lia; cbn [Z.eqb Pos.eqb]; rewrite ?cos_0, ?cos_PI3, ?cos_2PI3; lra.
Qed.
Lemma hye_q c q : 0 <= q < 3 -> hye h (3 * c + q) = (hyc h c - d / 2 * sq q)%R.
Proof.
  intros Hq. unfold hye. rewrite mod3, div3 by lia. cbn [fadd fsub fmul fdiv fofZ fpi fsin RA]. unfold sq.
  assert (q = 0 \/ q = 1 \/ q = 2) as [-> | [-> | ->]] by lia; cbn [Z.eqb Pos.eqb]; rewrite ?sin_0, ?sin_PI3, ?sin_2PI3; lra.
Qed.
Lemma hxe_0 c : hxe h (3 * c) = (hxc h c - d / 2 * cq 0)%R.
Proof. rewrite <- hxe_q by lia. f_equal. lia. Qed.
Lemma hye_0 c : hye h (3 * c) = (hyc h c - d / 2 * sq 0)%R.
Proof. rewrite <- hye_q by lia. f_equal. lia. Qed.
Lemma dirs j : 0 <= j < 6 -> dxj j = dirx j /\ (sqrt 3 / 2 * dyj j = diry j)%R.
Proof.
  intros. assert (j = 0 \/ j = 1 \/ j = 2 \/ j = 3 \/ j = 4 \/ j = 5) as [-> | [-> | [-> | [-> | [-> | ->]]]]] by lia;
    unfold dxj, dyj, dirx, diry; cbn [Z.eqb Pos.eqb orb]; lra.
Qed.
Lemma nb_pos c j : 0 <= c < NC -> 0 <= j < 6 ->
  eqmod PX (hxc h (nb X Y c j)) (hxc h c + d * dirx j) /\ eqmod PY (hyc h (nb X Y c j)) (hyc h c + d * diry j).
Proof.
  intros Hc Hj. destruct (pos_nb cf h Hok c j Hev Hc Hj) as [A B]. destruct (dirs j Hj) as [E1 E2].
  rewrite E1 in A. rewrite Rmult_assoc, E2 in B. now split.
Qed.
Lemma hE_pos c j : 0 <= c < NC -> 0 <= j < 6 ->
  eqmod PX (hxe h (hE X Y c j)) (hxc h c + d / 2 * dirx j) /\ eqmod PY (hye h (hE X Y c j)) (hyc h c + d / 2 * diry j).
Proof.
  intros Hc Hj. destruct (nb_pos c j Hc Hj) as [A B]. unfold Hex.hE. destruct (Z.ltb_spec j 3).
  - rewrite hxe_q, hye_q by lia.
    assert (j = 0 \/ j = 1 \/ j = 2) as [-> | [-> | ->]] by lia; unfold cq, sq, dirx, diry; cbn [Z.eqb Pos.eqb orb];
      split; apply eqmod_eq; lra.
  - rewrite hxe_q, hye_q by lia. destruct A as [a A], B as [b B]. rewrite A, B.
    assert (j = 3 \/ j = 4 \/ j = 5) as [-> | [-> | ->]] by lia; change (3 - 3) with 0; change (4 - 3) with 1; change (5 - 3) with 2;
      unfold cq, sq, dirx, diry; cbn [Z.eqb Pos.eqb orb];
      (split; [exists a|exists b]); lra.
Qed.
Lemma smp_eoc G g c j : (forall q, per (G q)) -> smpE G g -> 0 <= c < NC -> 0 <= j < 6 ->
  g (hE X Y c j) = G (j mod 3) (hxc h c + d / 2 * dirx j)%R (hyc h c + d / 2 * diry j)%R.
Proof.
  intros HG S Hc Hj. destruct (hE_pos c j Hc Hj). apply (edge_at G g); auto.
  - apply hE_range; auto.
  - now apply hE_mod_.
Qed.
Lemma at2 (F : fn2) x x' y y' : x = x' -> y = y' -> F x y = F x' y'. Proof. now intros -> ->. Qed.
Lemma smp_eoc6 G g c : (forall q, per (G q)) -> smpE G g -> 0 <= c < NC ->
  forall q, 0 <= q < 3 ->
  g (hE X Y c q) = G q (hxc h c - d / 2 * cq q)%R (hyc h c - d / 2 * sq q)%R /\
  g (hE X Y c (q + 3)) = G q (hxc h c + d / 2 * cq q)%R (hyc h c + d / 2 * sq q)%R.
Proof.
  intros HG S Hc q Hq. rewrite !(smp_eoc G g c) by (auto; lia).
  assert (q = 0 \/ q = 1 \/ q = 2) as [-> | [-> | ->]] by lia;
    repeat match goal with |- context [?a mod 3] => let v := eval vm_compute in (a mod 3) in change (a mod 3) with v end;
    unfold cq, sq, dirx, diry; cbn [Z.eqb Pos.eqb orb Z.add Pos.add Pos.succ]; split; apply at2; lra.
Qed.
Lemma smp_outflow G g : (forall q, per (G q)) -> smpE G g -> smpC (Ou d G) (outflow m g).
Proof.
  intros HG S c Hc. rewrite (outflow_eq cf h ntr Hok m Hm) by lia. rewrite rsum_small6, !(cs_closed cf h Hok) by (auto; try lia; apply HY2).
  cbn [Z.ltb Z.compare Pos.compare Pos.compare_cont].
  destruct (smp_eoc6 G g c HG S Hc 0 ltac:(lia)) as [A0 A3]. destruct (smp_eoc6 G g c HG S Hc 1 ltac:(lia)) as [A1 A4].
  destruct (smp_eoc6 G g c HG S Hc 2 ltac:(lia)) as [A2 A5]. cbn [Z.add Pos.add Pos.succ] in *.
  rewrite A0, A1, A2, A3, A4, A5. unfold Ou, Df. rewrite hdve_R, hareac_R. pose proof sqrt3_pos. field. lra.
Qed.
Lemma smp_kin G g : (forall q, per (G q)) -> smpE G g -> smpC (Ki d G) (kin m g).
Proof.
  intros HG S c Hc. unfold kin. rewrite (hm_noc _ _ _ Hm), (hm_area _ _ _ Hm) by lia.
  rewrite (rsum_ext _ _ (fun j => hdve h * d * (g (hE X Y c j) * g (hE X Y c j)))%R).
  2:{ intros j Hj. cbv zeta. rewrite (hm_eoc _ _ _ Hm) by lia. rewrite (hm_dve _ _ _ Hm), (hm_dce _ _ _ Hm) by (apply hE_range; auto). reflexivity. }
  rewrite rsum_small6.
  destruct (smp_eoc6 G g c HG S Hc 0 ltac:(lia)) as [A0 A3]. destruct (smp_eoc6 G g c HG S Hc 1 ltac:(lia)) as [A1 A4].
  destruct (smp_eoc6 G g c HG S Hc 2 ltac:(lia)) as [A2 A5]. cbn [Z.add Pos.add Pos.succ] in *.
  rewrite A0, A1, A2, A3, A4, A5. unfold Ki, Sm. rewrite hdve_R, hareac_R. pose proof sqrt3_pos. field. lra.
Qed.

(** Vertices. *)
Lemma vpos_e c : 0 <= c < NC -> hxv h (2 * c) = (hxc h c - d / 2)%R /\ hyv h (2 * c) = (hyc h c + d * sqrt 3 / 6)%R.
Proof. intros. rewrite hxv_R, hyv_R, mod2', div2'. split; reflexivity. Qed.
Lemma vpos_o c : 0 <= c < NC -> hxv h (2 * c + 1) = (hxc h c - d / 2)%R /\ hyv h (2 * c + 1) = (hyc h c - d * sqrt 3 / 6)%R.
Proof. intros. rewrite hxv_R, hyv_R, mod2, div2 by lia. split; reflexivity. Qed.

Ltac em H := let a := fresh in destruct H as [a H]; exists a; lra.
Lemma inb_pos c j : 0 <= c < NC -> 2 <= j <= 5 -> let j' := (j + 3) mod 6 in
  eqmod PX (hxc h (inb_ X Y c j)) (hxc h c + d * dirx j') /\ eqmod PY (hyc h (inb_ X Y c j)) (hyc h c + d * diry j').
Proof. intros Hc Hj j'. rewrite inb_is_nb by auto. apply nb_pos; [auto|]. apply Z.mod_pos_bound. lia. Qed.

Lemma smp_vort G g : (forall q, per (G q)) -> smpE G g -> smpV (Vo d G) (vort m g).
Proof.
  intros HG S v Hv. unfold vort. rewrite (circ_eq cf h ntr Hok m Hm), (hm_atri _ _ _ Hm) by lia.
  rewrite (curl_sum cf h Hok) by lia. destruct (vdec v) as [c Hc]. assert (Hc' : 0 <= c < NC) by lia.
  pose proof sqrt3_pos as S3. rewrite hatri_R.
  destruct (inb_pos c 2 Hc' ltac:(lia)) as [A2 B2]. destruct (inb_pos c 3 Hc' ltac:(lia)) as [A3 B3].
  pose proof (inb_range X Y Hx Hy c 2 Hc'). pose proof (inb_range X Y Hx Hy c 3 Hc').
  change ((2 + 3) mod 6) with 5 in *. change ((3 + 3) mod 6) with 0 in *.
  unfold dirx, diry in *. cbn [Z.eqb Pos.eqb orb] in *.
  destruct Hc as [-> | ->].
  - destruct (vpos_e c Hc') as [V1 V2]. rewrite !mod2', !div2'. cbn [Z.eqb]. unfold Vo. change (sg 0) with 1%R.
    rewrite (edge_at G g (3 * c) 0 (hxv h (2 * c)) (hyv h (2 * c) - 1 * (d * sqrt 3 / 6)));
      [|auto|auto|lia|apply mod3'| |].
    rewrite (edge_at G g (3 * inb_ X Y c 2 + 2) 2 (hxv h (2 * c) + 1 * (d / 4)) (hyv h (2 * c) + 1 * (d * sqrt 3 / 12)));
      [|auto|auto|lia|apply mod3; lia| |].
    rewrite (edge_at G g (3 * inb_ X Y c 2 + 1) 1 (hxv h (2 * c) - 1 * (d / 4)) (hyv h (2 * c) + 1 * (d * sqrt 3 / 12)));
      [|auto|auto|lia|apply mod3; lia| |].
    { field. lra. }
    all: rewrite V1 || rewrite V2; rewrite ?hxe_0, ?hye_0, ?hxe_q, ?hye_q by lia; unfold cq, sq; cbn [Z.eqb Pos.eqb].
    + em A2.
    + em B2.
    + em A2.
    + em B2.
    + apply eqmod_eq; lra.
    + apply eqmod_eq; lra.
  - destruct (vpos_o c Hc') as [V1 V2]. rewrite !mod2, !div2 by lia. cbn [Z.eqb]. unfold Vo. change (sg 1) with (-1)%R.
    rewrite (edge_at G g (3 * c) 0 (hxv h (2 * c + 1)) (hyv h (2 * c + 1) - -1 * (d * sqrt 3 / 6)));
      [|auto|auto|lia|apply mod3'| |].
    rewrite (edge_at G g (3 * inb_ X Y c 3 + 2) 2 (hxv h (2 * c + 1) + -1 * (d / 4)) (hyv h (2 * c + 1) + -1 * (d * sqrt 3 / 12)));
      [|auto|auto|lia|apply mod3; lia| |].
    rewrite (edge_at G g (3 * c + 1) 1 (hxv h (2 * c + 1) - -1 * (d / 4)) (hyv h (2 * c + 1) + -1 * (d * sqrt 3 / 12)));
      [|auto|auto|lia|apply mod3; lia| |].
    { field. lra. }
    all: rewrite V1 || rewrite V2; rewrite ?hxe_0, ?hye_0, ?hxe_q, ?hye_q by lia; unfold cq, sq; cbn [Z.eqb Pos.eqb].
    + apply eqmod_eq; lra.
    + apply eqmod_eq; lra.
    + em A3.
    + em B3.
    + apply eqmod_eq; lra.
    + apply eqmod_eq; lra.
Qed.
Lemma smp_hvert F phi : per F -> smpC F phi -> smpV (Hv d F) (hvert m phi).
Proof.
  intros HF S v Hv'. unfold hvert. rewrite rsum_small3, !(hm_kite _ _ _ Hm), (hm_atri _ _ _ Hm), !(hm_cov _ _ _ Hm) by lia.
  destruct (vdec v) as [c Hc]. assert (Hc' : 0 <= c < NC) by lia.
  pose proof sqrt3_pos as S3. rewrite hatri_R, hkite_R.
  destruct (inb_pos c 2 Hc' ltac:(lia)) as [A2 B2]. destruct (inb_pos c 3 Hc' ltac:(lia)) as [A3 B3]. destruct (inb_pos c 4 Hc' ltac:(lia)) as [A4 B4].
  pose proof (inb_range X Y Hx Hy c 2 Hc'). pose proof (inb_range X Y Hx Hy c 3 Hc'). pose proof (inb_range X Y Hx Hy c 4 Hc').
  change ((2 + 3) mod 6) with 5 in *. change ((3 + 3) mod 6) with 0 in *. change ((4 + 3) mod 6) with 1 in *.
  unfold dirx, diry in *. cbn [Z.eqb Pos.eqb orb] in *.
  destruct Hc as [-> | ->].
  - destruct (vpos_e c Hc') as [V1 V2]. rewrite !hcov_e, !mod2'. cbn [Z.eqb Pos.eqb]. unfold Hv. change (sg 0) with 1%R.
    rewrite (cell_at F phi c (hxv h (2 * c) + 1 * (d / 2)) (hyv h (2 * c) - 1 * (d * sqrt 3 / 6))); [|auto|auto|lia| |].
    rewrite (cell_at F phi (inb_ X Y c 2) (hxv h (2 * c)) (hyv h (2 * c) + 1 * (d * sqrt 3 / 3))); [|auto|auto|lia| |].
    rewrite (cell_at F phi (inb_ X Y c 3) (hxv h (2 * c) - 1 * (d / 2)) (hyv h (2 * c) - 1 * (d * sqrt 3 / 6))); [|auto|auto|lia| |].
    { field. lra. }
    all: rewrite V1 || rewrite V2.
    + em A3.
    + em B3.
    + em A2.
    + em B2.
    + apply eqmod_eq; lra.
    + apply eqmod_eq; lra.
  - destruct (vpos_o c Hc') as [V1 V2]. rewrite !hcov_o, !mod2 by lia. cbn [Z.eqb Pos.eqb]. unfold Hv. change (sg 1) with (-1)%R.
    rewrite (cell_at F phi (inb_ X Y c 3) (hxv h (2 * c + 1) + -1 * (d / 2)) (hyv h (2 * c + 1) - -1 * (d * sqrt 3 / 6))); [|auto|auto|lia| |].
    rewrite (cell_at F phi (inb_ X Y c 4) (hxv h (2 * c + 1)) (hyv h (2 * c + 1) + -1 * (d * sqrt 3 / 3))); [|auto|auto|lia| |].
    rewrite (cell_at F phi c (hxv h (2 * c + 1) - -1 * (d / 2)) (hyv h (2 * c + 1) - -1 * (d * sqrt 3 / 6))); [|auto|auto|lia| |].
    { field. lra. }
    all: rewrite V1 || rewrite V2.
    + apply eqmod_eq; lra.
    + apply eqmod_eq; lra.
    + em A4.
    + em B4.
    + em A3.
    + em B3.
Qed.

(** Vertices of an edge. *)
Lemma smp_voe W w e : (forall p, per (W p)) -> smpV W w -> 0 <= e < 3 * NC -> let q := e mod 3 in
  w (ri VerticesOnEdge [e; 0]) = W (pv0 q) (hxe h e + d * sqrt 3 / 6 * sq q)%R (hye h e - d * sqrt 3 / 6 * cq q)%R /\
  w (ri VerticesOnEdge [e; 1]) = W (pv1 q) (hxe h e - d * sqrt 3 / 6 * sq q)%R (hye h e + d * sqrt 3 / 6 * cq q)%R.
Proof.
  intros HW S He. cbv zeta. rewrite !(hm_voe _ _ _ Hm) by lia.
  destruct (edec e) as (c & q & Hq & ->). assert (Hc : 0 <= c < NC) by lia.
  rewrite !hvoe_q, mod3 by lia. cbn [Z.eqb Pos.eqb]. rewrite hxe_q, hye_q by lia.
  assert (HP : forall j, 0 <= j < 4 -> hV X Y c j mod 2 = if (j =? 0) || (j =? 2) then 0 else 1).
  { intros j Hj. unfold hV. assert (j = 0 \/ j = 1 \/ j = 2 \/ j = 3) as [-> | [-> | [-> | ->]]] by lia; cbn [Z.eqb Pos.eqb orb];
      rewrite ?mod2', ?mod2 by lia; reflexivity. }
  pose proof sqrt3_sq as S3. assert (E3 : (d * (sqrt 3 * sqrt 3) = d * 3)%R) by now rewrite S3.
  destruct (pos_corner cf h Hok c q Hev Hc ltac:(lia)) as [A B]. destruct (pos_corner cf h Hok c (q + 1) Hev Hc ltac:(lia)) as [A' B'].
  split; apply (vertex_at W w); auto; try (apply hV_range; auto); try rewrite HP by lia;
    assert (q = 0 \/ q = 1 \/ q = 2) as [-> | [-> | ->]] by lia; unfold pv0, pv1, cq, sq in *; cbn [Z.eqb Pos.eqb orb Z.add Pos.add Pos.succ] in *; try reflexivity;
    unfold vxj, vyj in *; cbn [Z.eqb Pos.eqb Z.add Pos.add Pos.succ] in *; first [em A | em B | em A' | em B'].
Qed.
Lemma smp_rgrad W w : (forall p, per (W p)) -> smpV W w -> smpE (Rg d W) (rgrad m w).
Proof.
  intros HF S e He. unfold rgrad, Rg. rewrite (hm_dve _ _ _ Hm) by lia.
  destruct (smp_voe W w e HF S He) as [-> ->]. reflexivity.
Qed.
Lemma smp_vmean W w : (forall p, per (W p)) -> smpV W w ->
  smpE (Mv d W) (fun e => (w (ri VerticesOnEdge [e; 0]) + w (ri VerticesOnEdge [e; 1])) / 2)%R.
Proof. intros HF S e He. unfold Mv. destruct (smp_voe W w e HF S He) as [-> ->]. reflexivity. Qed.

(** The neighbourhood of an edge. *)
Lemma cw_tw q i : cw q i = tw q i. Proof. reflexivity. Qed.
Lemma smp_recon G g : (forall q, per (G q)) -> smpE G g -> smpE (Re d G) (recon m g).
Proof.
  intros HG S e He. rewrite (recon_eq cf h ntr m Hm) by lia.
  destruct (edec e) as (c & q & Hq & ->). assert (Hc : 0 <= c < NC) by lia.
  rewrite (recon_sum h) by lia. rewrite mod3, hxe_q, hye_q by lia.
  pose proof (inb_range X Y Hx Hy c (3 + q) Hc) as Hc0.
  destruct (inb_pos c (3 + q) Hc ltac:(lia)) as [A B].
  assert (T0 : forall j, 0 <= j < 6 -> g (hE X Y (inb_ X Y c (3 + q)) j) =
     G (j mod 3) (hxc h c - d * cq q + d / 2 * dirx j)%R (hyc h c - d * sq q + d / 2 * diry j)%R).
  { intros j Hj. destruct (hE_pos _ j Hc0 Hj) as [P Q].
    apply (edge_at G g); auto; [apply hE_range; auto|now apply hE_mod_| |].
    - eapply eqmod_trans; [exact P|]. apply eqmod_shift. eapply em_r; [exact A|].
      assert (q = 0 \/ q = 1 \/ q = 2) as [-> | [-> | ->]] by lia;
        repeat match goal with |- context [?a mod 6] => let v := eval vm_compute in (a mod 6) in change (a mod 6) with v end;
        unfold dirx, cq; cbn [Z.eqb Pos.eqb]; lra.
    - eapply eqmod_trans; [exact Q|]. apply eqmod_shift. eapply em_r; [exact B|].
      assert (q = 0 \/ q = 1 \/ q = 2) as [-> | [-> | ->]] by lia;
        repeat match goal with |- context [?a mod 6] => let v := eval vm_compute in (a mod 6) in change (a mod 6) with v end;
        unfold diry, sq; cbn [Z.eqb Pos.eqb orb]; lra. }
  assert (T1 : forall j, 0 <= j < 6 -> g (hE X Y c j) =
     G (j mod 3) (hxc h c + d / 2 * dirx j)%R (hyc h c + d / 2 * diry j)%R).
  { intros j Hj. now apply smp_eoc. }
  assert (P : forall i, 0 <= i < 5 ->
    (cw ((3 + q) mod 3) i * g (hE X Y (inb_ X Y c (3 + q)) ((3 + q + 1 + i) mod 6)) + cw (q mod 3) i * g (hE X Y c ((q + 1 + i) mod 6)) =
     Rp d G q i (hxc h c - d / 2 * cq q) (hyc h c - d / 2 * sq q))%R).
  { intros i Hi. rewrite T0, T1 by (apply Z.mod_pos_bound; lia). unfold Rp. cbv zeta. rewrite !cw_tw. clear T0 T1 A B.
    set (xc := hxc h c). set (yc := hyc h c). clearbody xc yc. revert xc yc. cbn [F RA]. intros xc yc.
    assert (q = 0 \/ q = 1 \/ q = 2) as [-> | [-> | ->]] by lia; assert (i = 0 \/ i = 1 \/ i = 2 \/ i = 3 \/ i = 4) as [-> | [-> | [-> | [-> | ->]]]] by lia;
    repeat match goal with |- context [?a mod 6] => let v := eval vm_compute in (a mod 6) in change (a mod 6) with v end;
    repeat match goal with |- context [?a mod 3] => let v := eval vm_compute in (a mod 3) in change (a mod 3) with v end;
    unfold tw, dirx, diry, cq, sq; cbn [Z.eqb Pos.eqb orb]; rewrite <- Rmult_plus_distr_l, (Rplus_comm (G _ _ _)); apply f_equal;
    apply f_equal2; apply at2; lra. }
  unfold Re. rewrite <- !P by lia. unfold tpart. cbv zeta.
  replace (3 + q + 1 + 0) with (3 + q + 1) by lia. replace (3 + q + 1 + 1) with (3 + q + 2) by lia.
  replace (3 + q + 1 + 2) with (3 + q + 3) by lia. replace (3 + q + 1 + 3) with (3 + q + 4) by lia. replace (3 + q + 1 + 4) with (3 + q + 5) by lia.
  replace (q + 1 + 0) with (q + 1) by lia. replace (q + 1 + 1) with (q + 2) by lia.
  replace (q + 1 + 2) with (q + 3) by lia. replace (q + 1 + 3) with (q + 4) by lia. replace (q + 1 + 4) with (q + 5) by lia.
  rg.
Qed.

(** Potential vorticity flux and vector Laplacian. *)
Lemma smp_pvort f F phi G g : per F -> (forall q, per (G q)) -> smpC F phi -> smpE G g -> smpV (Pv d f F G) (pvort m f phi g).
Proof.
  intros HF HG SF SG v Hv. unfold pvort, Pv. rewrite (smp_vort G g HG SG v Hv), (smp_hvert F phi HF SF v Hv). reflexivity.
Qed.
Lemma smp_pvedge f F phi G g : per F -> (forall q, per (G q)) -> smpC F phi -> smpE G g -> smpE (Mv d (Pv d f F G)) (pvedge m f phi g).
Proof.
  intros HF HG SF SG. apply (smp_vmean _ (pvort m f phi g)); [intros; now apply per_Pv|now apply smp_pvort].
Qed.
Lemma smp_pvflux f F phi G g : per F -> (forall q, per (G q)) -> smpC F phi -> smpE G g -> smpE (Pf d f F G) (pvflux m f phi g).
Proof.
  intros HF HG SF SG e He.
  set (Q := Mv d (Pv d f F G)). set (a := Q (e mod 3) (hxe h e) (hye h e)).
  change (pvflux m f phi g e) with (recon m (fun e' => emean m phi e' * g e' * ((pvedge m f phi g e + pvedge m f phi g e') / 2))%R e).
  pose proof (smp_pvedge f F phi G g HF HG SF SG) as SP.
  rewrite (smp_recon (fun q' x' y' => Me d F q' x' y' * G q' x' y' * ((a + Q q' x' y') / 2))%R); [reflexivity| | |exact He].
  - intros q. pose proof (per_Me PX PY d F q HF). pose proof (HG q).
    assert (per (Q q)) by (apply per_Mv; intros; now apply per_Pv). per.
  - intros e' He'. rewrite (smp_emean F phi HF SF e' He'), (SG e' He'), (SP e He), (SP e' He'). reflexivity.
Qed.
Lemma smp_vlap G g : (forall q, per (G q)) -> smpE G g -> smpE (Vl d G) (vlap m g).
Proof.
  intros HG SG e He. unfold vlap, Vl.
  rewrite (smp_grad (Ou d G) (outflow m g) (per_Ou PX PY d G HG) (smp_outflow G g HG SG) e He).
  rewrite (smp_rgrad (Vo d G) (vort m g) (fun p => per_Vo PX PY d G p HG) (smp_vort G g HG SG) e He). reflexivity.
Qed.

(** The fields as seen through the views. *)
Lemma smp_cells F phi : (forall c, 0 <= c < NC -> phi c = F (rr XCell [c]) (rr YCell [c])) -> smpC F phi.
Proof. intros H c Hc. rewrite H, (hm_xc _ _ _ Hm), (hm_yc _ _ _ Hm) by lia. reflexivity. Qed.
Lemma cos_edge e : 0 <= e < 3 * NC -> cos (rr AngleEdge [e]) = cq (e mod 3).
Proof. intros He. rewrite (hm_ang _ _ _ Hm), hang_R by lia. symmetry. apply cq_cos. apply Z.mod_pos_bound. lia. Qed.
Lemma sin_edge e : 0 <= e < 3 * NC -> sin (rr AngleEdge [e]) = sq (e mod 3).
Proof. intros He. rewrite (hm_ang _ _ _ Hm), hang_R by lia. symmetry. apply sq_sin. apply Z.mod_pos_bound. lia. Qed.
Lemma smp_edges U V g : (forall e, 0 <= e < 3 * NC ->
    g e = (cos (rr AngleEdge [e]) * U (rr XEdge [e]) (rr YEdge [e]) + sin (rr AngleEdge [e]) * V (rr XEdge [e]) (rr YEdge [e]))%R) ->
  smpE (fun q x y => cq q * U x y + sq q * V x y)%R g.
Proof. intros H e He. rewrite H, cos_edge, sin_edge, (hm_xe _ _ _ Hm), (hm_ye _ _ _ Hm) by lia. reflexivity. Qed.
End Sample.
