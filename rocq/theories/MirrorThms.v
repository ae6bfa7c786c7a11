(** Proofs of the properties of mirror images. *)
From Coq Require Import ZArith Reals List Bool Lia Lra FunctionalExtensionality.
From Verif Require Import Arith Arrays Prog Conc Launch Mesh AuxVars Tend Model Hex HexComb RSum Spec MeshProof MeshMem MeshR MeshCalc Stencil Sample Ready StepFn StepVal StepRun StepThms RealTend FieldInv Driver DriverFn EqThms Sim SimScale SimThms TestNlThms MirrorHex SimMirror.
Import ListNotations.
Open Scope Z_scope.

(** [F2] is the mirror image of the periodic function [F1], times [z]. *)
Definition mirror_fn (h : hexargs RA) (sx sy z : R) (F1 F2 : R -> R -> R) : Prop :=
  periodic (period_x h) (period_y h) F1 /\ forall x y : R, F2 x y = (z * F1 (sx * x) (sy * y))%R.
(** [S2] is the mirror image of [S1] ([sx] and [sy] are 1 or -1): the same mesh and parameters, the rotation reversed if the
    orientation is, and mirrored forcing. *)
Definition mirror_image (S1 S2 : setup RA) (sx sy : R) : Prop :=
  let P1 := par_of S1 in let P2 := par_of S2 in
  nx (mesh_of_setup S2) = nx (mesh_of_setup S1) /\ ny (mesh_of_setup S2) = ny (mesh_of_setup S1) /\ (dc (mesh_of_setup S2) : R) = dc (mesh_of_setup S1) /\
  ntracers P2 = ntracers P1 /\ disable_h P2 = disable_h P1 /\ disable_vn P2 = disable_vn P1 /\
  (f0 P2 : R) = (sx * sy * f0 P1)%R /\ grav P2 = grav P1 /\ visc_del2 P2 = visc_del2 P1 /\ visc_del4 P2 = visc_del4 P1 /\ eddy_diff2 P2 = eddy_diff2 P1 /\ eddy_diff4 P2 = eddy_diff4 P1 /\
  match hook S1, hook S2 with
  | None, None => True
  | Some f1, Some f2 => forall t : R, mirror_fn (mesh_of_setup S1) sx sy 1 (fun x y => force_h f1 x y t) (fun x y => force_h f2 x y t) /\
      mirror_fn (mesh_of_setup S1) sx sy sx (fun x y => force_vx f1 x y t) (fun x y => force_vx f2 x y t) /\
      mirror_fn (mesh_of_setup S1) sx sy sy (fun x y => force_vy f1 x y t) (fun x y => force_vy f2 x y t)
  | _, _ => False
  end.

Section Pos.
Context (cf : config) (h : hexargs RA) (Hok : mesh_ok cf h) (Hev : Z.even (ny h) = true).
Local Notation X := (nx h).
Local Notation Y := (ny h).
Local Notation NC := (X * Y).
Local Notation PX := (period_x h : R).
Local Notation PY := (period_y h : R).
Let Hx : 1 <= X := MeshProof.Hx _ _ Hok.
Let Hy : 1 <= Y := MeshProof.Hy _ _ Hok.
Definition sgx (b : bool) : R := if b then (-1)%R else 1%R.
Definition sgy (b : bool) : R := if b then 1%R else (-1)%R.
Lemma mc_pos b c : 0 <= c < NC -> eqmod PX (hxc h (mc X Y b c)) (sgx b * hxc h c) /\ eqmod PY (hyc h (mc X Y b c)) (sgy b * hyc h c).
Proof.
  intros Hc. rewrite !hxc_R, !hyc_R, PX_eq, PY_eq. rewrite (col_mc X Y Hx Hev), (row_mc X Y Hx Hev), (mrow_even Y Hev). unfold mcol, mrow, sgx, sgy, eqmod.
  destruct b; (split; [destruct (Z.even (rowof X c))|]); try (exists 0; lra).
  - exists 1. rewrite !minus_IZR. lra.
  - destruct (Z.eqb_spec (colof X c) (X - 1)) as [->|_]; [exists 2|exists 1]; rewrite !plus_IZR, !minus_IZR; lra.
  - destruct (Z.eqb_spec (rowof X c) (Y - 1)) as [->|_]; [exists 2|exists 1]; rewrite !plus_IZR, !minus_IZR; lra.
Qed.
Lemma sg_mul p s x y : (s = 1 \/ s = -1)%R -> eqmod p x y -> eqmod p (s * x) (s * y).
Proof. intros [-> | ->] [k ->]; [exists k|exists (- k); rewrite opp_IZR]; lra. Qed.
Ltac six j := assert (j = 0 \/ j = 1 \/ j = 2 \/ j = 3 \/ j = 4 \/ j = 5)
    as [-> | [-> | [-> | [-> | [-> | ->]]]]] by lia.
Lemma sg1 b : (sgx b = 1 \/ sgx b = -1)%R. Proof. destruct b; cbn; auto. Qed.
Lemma sg2 b : (sgy b = 1 \/ sgy b = -1)%R. Proof. destruct b; cbn; auto. Qed.
Lemma me_pos b e : 0 <= e < 3 * NC -> eqmod PX (hxe h (me X Y b e)) (sgx b * hxe h e) /\ eqmod PY (hye h (me X Y b e)) (sgy b * hye h e).
Proof.
  intros He. destruct (edge_of h b e He) as (d & q & Hd & Hq & E & E'). rewrite E', E.
  pose proof (mc_range X Y Hx Hy Hev b d Hd) as HD. pose proof (mpi_range b q ltac:(lia)) as HP.
  destruct (hE_pos cf h Hok Hev d q Hd ltac:(lia)) as [A1 A2]. destruct (hE_pos cf h Hok Hev (mc X Y b d) (mpi b q) HD HP) as [B1 B2]. destruct (mc_pos b d Hd) as [C1 C2].
  assert (D1 : dirx (mpi b q) = (sgx b * dirx q)%R) by (assert (q = 0 \/ q = 1 \/ q = 2) as [-> | [-> | ->]] by lia; destruct b; unfold dirx, sgx; cbn [mpi Z.eqb Pos.eqb]; lra).
  assert (D2 : diry (mpi b q) = (sgy b * diry q)%R) by (assert (q = 0 \/ q = 1 \/ q = 2) as [-> | [-> | ->]] by lia; destruct b; unfold diry, sgy; cbn [mpi Z.eqb Pos.eqb orb]; lra).
  split.
  - eapply eqmod_trans; [exact B1|]. eapply eqmod_trans; [apply eqmod_shift, C1|]. apply eqmod_sym. eapply eqmod_trans; [apply sg_mul; [apply sg1|exact A1]|]. apply eqmod_eq. rewrite D1. cbn [Arith.F RA]. ring.
  - eapply eqmod_trans; [exact B2|]. eapply eqmod_trans; [apply eqmod_shift, C2|]. apply eqmod_sym. eapply eqmod_trans; [apply sg_mul; [apply sg2|exact A2]|]. apply eqmod_eq. rewrite D2. cbn [Arith.F RA]. ring.
Qed.
Lemma me_ang b e : 0 <= e < 3 * NC -> (cos (hang (A:=RA) (me X Y b e)) = msgn b e * (sgx b * cos (hang (A:=RA) e)) /\ sin (hang (A:=RA) (me X Y b e)) = msgn b e * (sgy b * sin (hang (A:=RA) e)))%R.
Proof.
  intros He. pose proof (Z.mod_pos_bound e 3 ltac:(lia)) as Hq. unfold me, msgn. rewrite !hang_R. generalize dependent (e mod 3). intros q Hq.
  rewrite hE_mod_ by (apply mpi_range; lia).
  assert (q = 0 \/ q = 1 \/ q = 2) as [-> | [-> | ->]] by lia; destruct b; cbn [mpi Z.eqb Pos.eqb]; repeat match goal with |- context [?a mod 3] => let v := eval vm_compute in (a mod 3) in change (a mod 3) with v end;
    unfold ang, sgx, sgy; cbn [Z.eqb Pos.eqb Z.ltb Z.compare Pos.compare Pos.compare_cont]; rewrite ?cos_0, ?sin_0, ?cos_PI3, ?sin_PI3, ?cos_2PI3, ?sin_2PI3; lra.
Qed.

(** Both mirrors, each if its flag is set. *)
Section Flags.
Context (bx by_ : bool).
Definition oc (f b : bool) (c : Z) : Z := if f then mc X Y b c else c.
Definition oe (f b : bool) (e : Z) : Z := if f then me X Y b e else e.
Definition ov (f b : bool) (v : Z) : Z := if f then mv X Y b v else v.
Definition os (f b : bool) (e : Z) : R := if f then msgn b e else 1%R.
Definition Sc (c : Z) : Z := oc bx true (oc by_ false c).
Definition Se (e : Z) : Z := oe bx true (oe by_ false e).
Definition Sv (v : Z) : Z := ov bx true (ov by_ false v).
Definition Sg (e : Z) : R := (1 * (os by_ false e * os bx true (oe by_ false e)))%R.
Definition fx : R := if bx then (-1)%R else 1%R.
Definition fy : R := if by_ then (-1)%R else 1%R.
Lemma oe_range f b e : 0 <= e < 3 * NC -> 0 <= oe f b e < 3 * NC. Proof. unfold oe. destruct f; [apply me_range; assumption|auto]. Qed.
Lemma oc_range f b e : 0 <= e < NC -> 0 <= oc f b e < NC. Proof. unfold oc. destruct f; [apply mc_range; assumption|auto]. Qed.
Lemma ov_range f b e : 0 <= e < 2 * NC -> 0 <= ov f b e < 2 * NC. Proof. unfold ov. destruct f; [apply mv_range; assumption|auto]. Qed.
Lemma Se_range e : 0 <= e < 3 * NC -> 0 <= Se e < 3 * NC. Proof. intros. now apply oe_range, oe_range. Qed.
Lemma Sc_range e : 0 <= e < NC -> 0 <= Sc e < NC. Proof. intros. now apply oc_range, oc_range. Qed.
Lemma Sg_one e : (Sg e = 1 \/ Sg e = -1)%R.
Proof. unfold Sg, os, msgn. destruct bx, by_; try destruct (_ <? _); try destruct (_ <? _); lra. Qed.
Lemma Sg_sq e : (Sg e * Sg e = 1)%R. Proof. destruct (Sg_one e) as [-> | ->]; ring. Qed.
Lemma f_one : (fx = 1 \/ fx = -1)%R /\ (fy = 1 \/ fy = -1)%R. Proof. unfold fx, fy. destruct bx, by_; auto. Qed.
Lemma oc_pos f b c : 0 <= c < NC -> eqmod PX (hxc h (oc f b c)) ((if f then sgx b else 1) * hxc h c) /\ eqmod PY (hyc h (oc f b c)) ((if f then sgy b else 1) * hyc h c).
Proof. intros Hc. unfold oc. destruct f; [now apply mc_pos|]. rewrite !Rmult_1_l. split; apply eqmod_refl. Qed.
Lemma oe_pos f b c : 0 <= c < 3 * NC -> eqmod PX (hxe h (oe f b c)) ((if f then sgx b else 1) * hxe h c) /\ eqmod PY (hye h (oe f b c)) ((if f then sgy b else 1) * hye h c).
Proof. intros Hc. unfold oe. destruct f; [now apply me_pos|]. rewrite !Rmult_1_l. split; apply eqmod_refl. Qed.
Lemma oe_ang f b e : 0 <= e < 3 * NC -> (cos (hang (A:=RA) (oe f b e)) = os f b e * ((if f then sgx b else 1) * cos (hang (A:=RA) e)) /\ sin (hang (A:=RA) (oe f b e)) = os f b e * ((if f then sgy b else 1) * sin (hang (A:=RA) e)))%R.
Proof. intros He. unfold oe, os. destruct f; [now apply me_ang|]. rewrite !Rmult_1_l. auto. Qed.
Lemma Sc_pos c : 0 <= c < NC -> eqmod PX (hxc h (Sc c)) (fx * hxc h c) /\ eqmod PY (hyc h (Sc c)) (fy * hyc h c).
Proof.
  intros Hc. destruct (oc_pos by_ false c Hc) as [A1 A2]. destruct (oc_pos bx true _ (oc_range by_ false c Hc)) as [B1 B2]. unfold Sc, fx, fy. split.
  - eapply eqmod_trans; [exact B1|]. destruct bx, by_; cbn [sgx sgy] in *; (eapply eqmod_trans; [apply sg_mul; [lra|exact A1]|]); apply eqmod_eq; cbn [Arith.F RA]; ring.
  - eapply eqmod_trans; [exact B2|]. destruct bx, by_; cbn [sgx sgy] in *; (eapply eqmod_trans; [apply sg_mul; [lra|exact A2]|]); apply eqmod_eq; cbn [Arith.F RA]; ring.
Qed.
Lemma Se_pos c : 0 <= c < 3 * NC -> eqmod PX (hxe h (Se c)) (fx * hxe h c) /\ eqmod PY (hye h (Se c)) (fy * hye h c).
Proof.
  intros Hc. destruct (oe_pos by_ false c Hc) as [A1 A2]. destruct (oe_pos bx true _ (oe_range by_ false c Hc)) as [B1 B2]. unfold Se, fx, fy. split.
  - eapply eqmod_trans; [exact B1|]. destruct bx, by_; cbn [sgx sgy] in *; (eapply eqmod_trans; [apply sg_mul; [lra|exact A1]|]); apply eqmod_eq; cbn [Arith.F RA]; ring.
  - eapply eqmod_trans; [exact B2|]. destruct bx, by_; cbn [sgx sgy] in *; (eapply eqmod_trans; [apply sg_mul; [lra|exact A2]|]); apply eqmod_eq; cbn [Arith.F RA]; ring.
Qed.
Lemma Se_ang e : 0 <= e < 3 * NC -> (cos (hang (A:=RA) (Se e)) = Sg e * fx * cos (hang (A:=RA) e) /\ sin (hang (A:=RA) (Se e)) = Sg e * fy * sin (hang (A:=RA) e))%R.
Proof.
  intros He. destruct (oe_ang by_ false e He) as [A1 A2]. destruct (oe_ang bx true _ (oe_range by_ false e He)) as [B1 B2]. unfold Se, Sg, fx, fy. rewrite B1, B2, A1, A2.
  destruct bx, by_; cbn [sgx sgy]; split; ring.
Qed.
End Flags.
End Pos.

Section MirrorRun.
Context (S1 S2 : setup RA) (Hok1 : setup_ok S1) (Hok2 : setup_ok S2) (Hd1 : (0 < (dc (mesh_of_setup S1) : R))%R) (X2 : 2 <= nx (mesh_of_setup S1)) (Hev : Z.even (ny (mesh_of_setup S1)) = true).
Context (bx by_ : bool).
Local Notation h1 := (mesh_of_setup S1).
Local Notation h2 := (mesh_of_setup S2).
Local Notation NC := (nx h1 * ny h1).
Local Notation sx := (fx bx).
Local Notation sy := (fy by_).
Context (U : mirror_image S1 S2 sx sy).
Let Ok1 := proj1 Hok1.
Let Hx : 1 <= nx h1 := MeshProof.Hx _ _ Ok1.
Let Hy : 1 <= ny h1 := MeshProof.Hy _ _ Ok1.
Local Notation sc := (Sc h1 bx by_).
Local Notation se := (Se h1 bx by_).
Local Notation sv := (Sv h1 bx by_).
Local Notation sg := (Sg h1 bx by_).
Lemma opt_sim f b m : ready S1 m -> mesh_sim NC m m (oc h1 f b) (oe h1 f b) (ov h1 f b) (os f b) 1 (if f then -1 else 1).
Proof.
  intros R1. destruct f.
  - apply (mirror_sim (cfg_of S1) h1 Ok1 X2 Hev b (d_nlayers (sdims S1)) m). now apply ready_hex.
  - apply (scale_sim S1 S1 Hok1 Hok1 Hd1 1 ltac:(lra) eq_refl eq_refl ltac:(symmetry; apply Rmult_1_l) m m R1 R1).
Qed.
Lemma mirror_ms m1 m2 : ready S1 m1 -> ready S2 m2 -> mesh_sim NC m1 m2 sc se sv sg 1 (sx * sy).
Proof.
  intros R1 R2. pose proof U as (Ex & Ey & Ed & _).
  pose proof (mesh_sim_trans NC m1 m1 m1 _ _ _ _ _ _ _ _ _ _ _ _ R1_neq_R0 R1_neq_R0 (ov_range _ h1 Ok1 Hev by_ false) (opt_sim bx true m1 R1) (opt_sim by_ false m1 R1)) as M.
  assert (N11 : (1 * 1)%R <> 0%R) by (rewrite Rmult_1_l; apply R1_neq_R0).
  pose proof (mesh_sim_trans NC m1 m1 m2 _ _ _ _ _ _ _ _ _ _ _ _ N11 R1_neq_R0 (fun v Hv => Hv) M
    (scale_sim S1 S2 Hok1 Hok2 Hd1 1 ltac:(lra) Ex Ey ltac:(rewrite Rmult_1_l; exact Ed) m1 m2 R1 R2)) as N.
  replace (1 * 1 * 1)%R with 1%R in N by ring. replace ((if bx then -1 else 1) * (if by_ then -1 else 1) * 1)%R with (sx * sy)%R in N by (unfold fx, fy; ring). exact N.
Qed.
Lemma xy1 m : ready S1 m -> forall c, 0 <= c < NC -> mr m XCell [c] = hxc h1 c /\ mr m YCell [c] = hyc h1 c.
Proof. intros R1 c Hc. pose proof (ready_hex S1 Hok1 m R1) as M. now rewrite (hm_xc _ _ _ M), (hm_yc _ _ _ M) by exact Hc. Qed.
Lemma xye1 m : ready S1 m -> forall c, 0 <= c < 3 * NC -> mr m XEdge [c] = hxe h1 c /\ mr m YEdge [c] = hye h1 c /\ mr m AngleEdge [c] = hang (A:=RA) c.
Proof. intros R1 c Hc. pose proof (ready_hex S1 Hok1 m R1) as M. now rewrite (hm_xe _ _ _ M), (hm_ye _ _ _ M), (hm_ang _ _ _ M) by exact Hc. Qed.
Lemma at_cell m1 m2 (F1 F2 : R -> R -> R) z c : ready S1 m1 -> ready S2 m2 -> 0 <= c < NC -> mirror_fn h1 sx sy z F1 F2 ->
  F2 (mr m2 XCell [c]) (mr m2 YCell [c]) = (z * F1 (mr m1 XCell [sc c]) (mr m1 YCell [sc c]))%R.
Proof.
  intros R1 R2 Hc (P & E). pose proof U as (Ex & Ey & Ed & _). assert (Ed' : (dc h2 : R) = (1 * dc h1)%R) by (rewrite Rmult_1_l; exact Ed).
  rewrite E. f_equal. rewrite (xc_scale S1 S2 Hok1 Hok2 1 Ex Ey Ed' m1 m2 R1 R2 c Hc), (yc_scale S1 S2 Hok1 Hok2 1 Ex Ey Ed' m1 m2 R1 R2 c Hc), !Rmult_1_l.
  destruct (xy1 m1 R1 c Hc) as [-> ->]. destruct (xy1 m1 R1 (sc c) (Sc_range _ h1 Ok1 Hev bx by_ c Hc)) as [-> ->].
  destruct (Sc_pos _ h1 Ok1 Hev bx by_ c Hc) as [A1 A2]. symmetry. now apply (per_at (period_x h1) (period_y h1) F1).
Qed.
Lemma at_edge m1 m2 (F1 F2 G1 G2 : R -> R -> R) e : ready S1 m1 -> ready S2 m2 -> 0 <= e < 3 * NC -> mirror_fn h1 sx sy sx F1 F2 -> mirror_fn h1 sx sy sy G1 G2 ->
  (cos (mr m2 AngleEdge [e]) * F2 (mr m2 XEdge [e]) (mr m2 YEdge [e]) + sin (mr m2 AngleEdge [e]) * G2 (mr m2 XEdge [e]) (mr m2 YEdge [e]) =
   sg e * (cos (mr m1 AngleEdge [se e]) * F1 (mr m1 XEdge [se e]) (mr m1 YEdge [se e]) + sin (mr m1 AngleEdge [se e]) * G1 (mr m1 XEdge [se e]) (mr m1 YEdge [se e])))%R.
Proof.
  intros R1 R2 Hc (P & E) (Q & G). pose proof U as (Ex & Ey & Ed & _). assert (Ed' : (dc h2 : R) = (1 * dc h1)%R) by (rewrite Rmult_1_l; exact Ed).
  rewrite E, G. rewrite (xe_scale S1 S2 Hok1 Hok2 1 Ex Ey Ed' m1 m2 R1 R2 e Hc), (ye_scale S1 S2 Hok1 Hok2 1 Ex Ey Ed' m1 m2 R1 R2 e Hc), (ang_scale S1 S2 Hok1 Hok2 Ex Ey m1 m2 R1 R2 e Hc), !Rmult_1_l.
  destruct (xye1 m1 R1 e Hc) as (-> & -> & ->). destruct (xye1 m1 R1 (se e) (Se_range _ h1 Ok1 Hev bx by_ e Hc)) as (-> & -> & ->).
  destruct (Se_pos _ h1 Ok1 Hev bx by_ e Hc) as [A1 A2]. rewrite (per_at _ _ F1 _ _ _ _ P A1 A2), (per_at _ _ G1 _ _ _ _ Q A1 A2). destruct (Se_ang _ h1 Ok1 Hev bx by_ e Hc) as [-> ->].
  set (f := F1 _ _). set (g := G1 _ _). clearbody f g. pose proof (Sg_sq h1 bx by_ e) as SQ.
  replace (sg e * (sg e * sx * cos (hang (A:=RA) e) * f + sg e * sy * sin (hang (A:=RA) e) * g))%R with (sg e * sg e * (sx * cos (hang (A:=RA) e) * f + sy * sin (hang (A:=RA) e) * g))%R by ring.
  rewrite SQ. cbn [Arith.F RA]. ring.
Qed.

Context (Uf : unforced S1) (N1 : 0 < d_nlayers (sdims S1)).
Lemma mirror_unforced : unforced S2.
Proof.
  pose proof U as (_ & _ & _ & _ & Dh & Dv & _ & _ & _ & _ & _ & _ & K). intros D. rewrite Dh, Dv in D. rewrite (Uf D) in K. destruct (hook S2); [contradiction|reflexivity].
Qed.
Lemma mirror_run st steps m1 m2 y1 y2 m1' m2' : ready S1 m1 -> ready S2 m2 -> disabled_zero S1 Tend m1 -> disabled_zero S2 Tend m2 ->
  holds S1 St m1 y1 -> holds S2 St m2 y2 -> sim S1 S2 sc se (fun _ => 0) sg 1 1 1 (fun _ => 1%R) 1 y1 y2 ->
  exec (sdims S1) (stepper_run S1 st steps) m1 (OK m1') -> exec (sdims S2) (stepper_run S2 st (scaled_steps 1 steps)) m2 (OK m2') ->
  exists z1 z2, holds S1 St m1' z1 /\ holds S2 St m2' z2 /\ sim S1 S2 sc se (fun _ => 0) sg 1 1 1 (fun _ => 1%R) 1 z1 z2.
Proof.
  pose proof U as (Ex & Ey & Ed & En & Dh & Dv & Ef & Eg & Ev2 & Ev4 & Ed2 & Ed4 & K).
  assert (Hd2 : (0 < (dc (mesh_of_setup S2) : R))%R) by (rewrite Ed; exact Hd1).
  apply (sim_run S1 S2 Hok1 Hok2 Hd1 Hd2 ltac:(now rewrite Ex, Ey) sc se sv (fun _ => 0) sg 1%R (sx * sy)%R 1%R 1%R (fun _ => 1%R)).
  - exact mirror_ms.
  - lra.
  - lra.
  - lra.
  - destruct (f_one bx by_) as [[-> | ->] [-> | ->]]; ring.
  - intros; lia.
  - exact Dh.
  - exact Dv.
  - exact En.
  - intros _. rewrite Rmult_1_r. exact Ef.
  - intros _. rewrite Eg. ring.
  - intros _. rewrite Ev2. ring.
  - intros _. rewrite Ev4. ring.
  - rewrite Ed2. ring.
  - rewrite Ed4. ring.
  - intros _ _ j Hj. split; [apply (RV S2 Hok2 j Hj)|]. unfold layer0. clearbody Hx Hy Ok1. case (ksimd (cfg_of S1)); reflexivity.
  - intros n1 n2 t c R1 R2 Hc. unfold hkh. rewrite Rmult_1_l. destruct (hook S1) as [f1|], (hook S2) as [f2|]; try contradiction; [|field].
    destruct (K t) as (K1 & _). rewrite (at_cell n1 n2 _ _ 1 c R1 R2 Hc K1). field.
  - intros n1 n2 t e R1 R2 He. unfold hkv. rewrite Rmult_1_l. destruct (hook S1) as [f1|], (hook S2) as [f2|]; try contradiction; [|field].
    destruct (K t) as (_ & K1 & K2). rewrite (at_edge n1 n2 _ _ _ _ e R1 R2 He K1 K2). field.
  - exact Uf.
  - exact mirror_unforced.
Qed.

Lemma mirror_program (I1 I2 : initial RA) :
  mirror_fn h1 sx sy 1 (ini_h I1) (ini_h I2) -> mirror_fn h1 sx sy sx (ini_vx I1) (ini_vx I2) -> mirror_fn h1 sx sy sy (ini_vy I1) (ini_vy I2) ->
  (forall l, mirror_fn h1 sx sy 1 (ini_tr I1 l) (ini_tr I2 l)) ->
  forall st steps m1' m2', exec (sdims S1) (program S1 st I1 steps) (mzero RA) (OK m1') -> exec (sdims S2) (program S2 st I2 steps) (mzero RA) (OK m2') ->
  forall k2, 0 <= k2 < d_nlayers (sdims S2) ->
  (forall c, 0 <= c < NC -> mr m2' (HCell St) [c; k2] = mr m1' (HCell St) [sc c; 0%Z]) /\
  (forall e, 0 <= e < 3 * NC -> mr m2' (VnEdge St) [e; k2] = (sg e * mr m1' (VnEdge St) [se e; 0%Z])%R) /\
  (forall l c, 0 <= l < ntracers (par_of S1) -> 0 <= c < NC -> mr m2' (TrCell St) [l; c; k2] = mr m1' (TrCell St) [l; sc c; 0%Z]).
Proof.
  intros HIh HIx HIy HIt st steps m1' m2' X1 X2' k2 Hk2. pose proof U as (Ex & Ey & Ed & En & _).
  destruct (program_split S1 Hok1 st I1 steps (fun m m' => exec (sdims S1) (stepper_run S1 st steps) m (OK m'))) as [A1 _].
  { intros m Hm. destruct (prologue_spec S1 Hok1 st I1 m Hm) as (Rm & _). pose proof (hs_stepper_run S1 Hok1 st steps m (ready_wfm S1 Hok1 m Rm)) as G. apply hsafe_always in G. destruct G as [G [n Gn]]. split; [|exists n; exact Gn].
    intros o Ho. destruct (G o Ho) as (n' & -> & _). eauto. }
  destruct (program_split S2 Hok2 st I2 steps (fun m m' => exec (sdims S2) (stepper_run S2 st steps) m (OK m'))) as [A2 _].
  { intros m Hm. destruct (prologue_spec S2 Hok2 st I2 m Hm) as (Rm & _). pose proof (hs_stepper_run S2 Hok2 st steps m (ready_wfm S2 Hok2 m Rm)) as G. apply hsafe_always in G. destruct G as [G [n Gn]]. split; [|exists n; exact Gn].
    intros o Ho. destruct (G o Ho) as (n' & -> & _). eauto. }
  destruct (A1 _ X1) as (q1 & Q1 & m1 & B1 & C1). injection Q1 as <-. destruct (A2 _ X2') as (q2 & Q2 & m2 & B2 & C2). injection Q2 as <-.
  destruct (prologue_spec S1 Hok1 st I1 m1 B1) as (R1 & Z1 & Y1). destruct (prologue_spec S2 Hok2 st I2 m2 B2) as (R2 & Z2 & Y2).
  assert (C2' : exec (sdims S2) (stepper_run S2 st (scaled_steps 1 steps)) m2 (OK m2')).
  { unfold scaled_steps. rewrite (map_ext _ (fun s => s)); [rewrite map_id; exact C2|]. intros [t dt]. cbn [fst snd]. now rewrite !Rmult_1_l. }
  destruct (mirror_run st steps m1 m2 (ini_fields I1 m1) (ini_fields I2 m2) m1' m2') as (z1 & z2 & D1 & D2 & D3); auto using zero_disabled.
  - intros j Hj. unfold ini_fields. cbn [fh fv ft]. split; [|split].
    + intros c Hc. rewrite (at_cell m1 m2 _ _ 1 c R1 R2 Hc HIh). cbn [Arith.F RA]. ring.
    + intros e He. cbn [fadd fmul fcos fsin RA Arith.F].
      match goal with |- @eq _ ?x _ => match x with (?p * ?q + ?r * ?s)%R => idtac end end || idtac.
      pose proof (at_edge m1 m2 _ _ _ _ e R1 R2 He HIx HIy) as E. cbn [Arith.F RA] in E. lra.
    + intros l c Hl Hc. rewrite (at_cell m1 m2 _ _ 1 c R1 R2 Hc (HIt l)). cbn [Arith.F RA]. ring.
  - destruct (D1 0 ltac:(lia)) as (G1 & G2 & G3). destruct (D2 k2 Hk2) as (K1 & K2 & K3). destruct (D3 k2 Hk2) as (W1 & W2 & W3).
    assert (EN : d_ncells (sdims S2) = NC) by (cbn [sdims dims_of d_ncells]; now rewrite Ex, Ey).
    assert (EE : d_nedges (sdims S2) = 3 * NC) by (cbn [sdims dims_of d_nedges]; now rewrite Ex, Ey).
    split; [|split].
    + intros c Hc. rewrite K1, (G1 (sc c)), W1 by (rewrite ?EN; try exact Hc; apply (Sc_range _ h1 Ok1 Hev); exact Hc). cbn [Arith.F RA]. ring.
    + intros e He. rewrite K2, (G2 (se e)), W2 by (rewrite ?EE; try exact He; apply (Se_range _ h1 Ok1 Hev); exact He). cbn [Arith.F RA]. field.
    + intros l c Hl Hc. rewrite K3, (G3 l (sc c)), W3 by (rewrite ?EN, ?En; try assumption; apply (Sc_range _ h1 Ok1 Hev); exact Hc). cbn [Arith.F RA]. ring.
Qed.
End MirrorRun.
Lemma C89_no_preferred_orientation_proof :
forall (S1 S2 : setup RA) (st : stepper) (sx sy : R) (I1 I2 : initial RA) (steps : list (R * R)) (m1 m2 : mem RA), let h := mesh_of_setup S1 in
  setup_ok S1 -> setup_ok S2 -> (0 < (dc h : R))%R -> 2 <= nx h -> Z.even (ny h) = true -> (sx = 1 \/ sx = -1)%R -> (sy = 1 \/ sy = -1)%R -> mirror_image S1 S2 sx sy ->
  (disable_h (par_of S1) = true \/ disable_vn (par_of S1) = true -> hook S1 = None) ->
  mirror_fn h sx sy 1 (ini_h I1) (ini_h I2) -> mirror_fn h sx sy sx (ini_vx I1) (ini_vx I2) -> mirror_fn h sx sy sy (ini_vy I1) (ini_vy I2) ->
  (forall l, mirror_fn h sx sy 1 (ini_tr I1 l) (ini_tr I2 l)) ->
  exec (sdims S1) (program S1 st I1 steps) (mzero RA) (OK m1) -> exec (sdims S2) (program S2 st I2 steps) (mzero RA) (OK m2) ->
  (forall c, 0 <= c < d_ncells (sdims S1) -> exists c', 0 <= c' < d_ncells (sdims S1) /\
    eqmod (period_x h) (mr m1 XCell [c']) (sx * mr m2 XCell [c]) /\ eqmod (period_y h) (mr m1 YCell [c']) (sy * mr m2 YCell [c]) /\
    forall k1 k2, 0 <= k1 < d_nlayers (sdims S1) -> 0 <= k2 < d_nlayers (sdims S2) ->
      mr m2 (HCell St) [c; k2] = mr m1 (HCell St) [c'; k1] /\ forall l, 0 <= l < ntracers (par_of S1) -> mr m2 (TrCell St) [l; c; k2] = mr m1 (TrCell St) [l; c'; k1]) /\
  (forall e, 0 <= e < d_nedges (sdims S1) -> exists e' s, 0 <= e' < d_nedges (sdims S1) /\ (s = 1 \/ s = -1)%R /\
    eqmod (period_x h) (mr m1 XEdge [e']) (sx * mr m2 XEdge [e]) /\ eqmod (period_y h) (mr m1 YEdge [e']) (sy * mr m2 YEdge [e]) /\
    (cos (mr m1 AngleEdge [e']) = s * sx * cos (mr m2 AngleEdge [e]))%R /\ (sin (mr m1 AngleEdge [e']) = s * sy * sin (mr m2 AngleEdge [e]))%R /\
    forall k1 k2, 0 <= k1 < d_nlayers (sdims S1) -> 0 <= k2 < d_nlayers (sdims S2) -> mr m2 (VnEdge St) [e; k2] = (s * mr m1 (VnEdge St) [e'; k1])%R).
Proof.
  intros S1 S2 st sx sy I1 I2 steps m1 m2 h Ok1 Ok2 Hd HX Hev Hsx Hsy U Uf Hh Hvx Hvy Ht X1 X2.
  assert (Ex : exists bx, sx = fx bx) by (destruct Hsx as [-> | ->]; [exists false|exists true]; reflexivity). assert (Ey : exists by_, sy = fy by_) by (destruct Hsy as [-> | ->]; [exists false|exists true]; reflexivity).
  destruct Ex as [bx ->]. destruct Ey as [by_ ->]. pose proof (proj1 Ok1) as Mk.
  assert (HI1 : forall x y : R, (ini_h I1 (1 * x) (1 * y) = 1 * ini_h I1 x y /\ ini_vx I1 (1 * x) (1 * y) = 1 / 1 * ini_vx I1 x y /\ ini_vy I1 (1 * x) (1 * y) = 1 / 1 * ini_vy I1 x y /\
    forall l, ini_tr I1 l (1 * x) (1 * y) = 1 * ini_tr I1 l x y)%R).
  { intros x y. rewrite !Rmult_1_l. replace (1 / 1)%R with 1%R by field. rewrite !Rmult_1_l. repeat split. intros l. now rewrite Rmult_1_l. }
  assert (X1' : exec (sdims S1) (program S1 st I1 (map (fun s : R * R => (1 * fst s, 1 * snd s)%R) steps)) (mzero RA) (OK m1)).
  { rewrite (map_ext _ (fun s => s)); [rewrite map_id; exact X1|]. intros [t dt]. cbn [fst snd]. now rewrite !Rmult_1_l. }
  assert (LY : forall k1, 0 <= k1 < d_nlayers (sdims S1) -> (forall c, 0 <= c < d_ncells (sdims S1) -> mr m1 (HCell St) [c; k1] = (1 * mr m1 (HCell St) [c; 0%Z])%R) /\
    (forall e, 0 <= e < d_nedges (sdims S1) -> mr m1 (VnEdge St) [e; k1] = (1 / 1 * mr m1 (VnEdge St) [e; 0%Z])%R) /\
    (forall l c, 0 <= l < ntracers (par_of S1) -> 0 <= c < d_ncells (sdims S1) -> mr m1 (TrCell St) [l; c; k1] = (1 * mr m1 (TrCell St) [l; c; 0%Z])%R)).
  { intros k1 Hk1. exact (units_program S1 S1 Ok1 Ok1 Hd 1 1 1 ltac:(lra) ltac:(lra) ltac:(lra) (units_refl S1) Uf ltac:(lia) (fun _ => 1%R) I1 I1 HI1 st steps m1 m1 X1 X1' k1 Hk1). }
  pose proof (prog_ready S1 Ok1 st I1 steps m1 X1) as R1. pose proof (prog_ready S2 Ok2 st I2 steps m2 X2) as R2.
  pose proof U as (Ex & Ey & Ed & _). assert (Ed' : (dc (mesh_of_setup S2) : R) = (1 * dc h)%R) by (rewrite Rmult_1_l; exact Ed).
  pose proof (fun N1 => mirror_program S1 S2 Ok1 Ok2 Hd HX Hev bx by_ U Uf N1 I1 I2 Hh Hvx Hvy Ht st steps m1 m2 X1 X2) as P.
  split.
  - intros c Hc. exists (Sc h bx by_ c). pose proof (Sc_range _ h Mk Hev bx by_ c Hc) as Hc'. split; [exact Hc'|].
    rewrite (xc_scale S1 S2 Ok1 Ok2 1 Ex Ey Ed' m1 m2 R1 R2 c Hc), (yc_scale S1 S2 Ok1 Ok2 1 Ex Ey Ed' m1 m2 R1 R2 c Hc), !Rmult_1_l.
    destruct (xy1 S1 Ok1 m1 R1 c Hc) as [-> ->]. destruct (xy1 S1 Ok1 m1 R1 (Sc h bx by_ c) Hc') as [-> ->]. destruct (Sc_pos _ h Mk Hev bx by_ c Hc) as [P1 P2]. split; [exact P1|]. split; [exact P2|].
    intros k1 k2 Hk1 Hk2. destruct (P ltac:(lia) k2 Hk2) as (Q1 & _ & Q3). destruct (LY k1 Hk1) as (L1 & _ & L3). split.
    + rewrite Q1 by exact Hc. rewrite L1 by exact Hc'. symmetry. apply Rmult_1_l.
    + intros l Hl. rewrite Q3 by assumption. rewrite L3 by assumption. symmetry. apply Rmult_1_l.
  - intros e He. exists (Se h bx by_ e), (Sg h bx by_ e). pose proof (Se_range _ h Mk Hev bx by_ e He) as He'. split; [exact He'|]. split; [apply Sg_one|].
    rewrite (xe_scale S1 S2 Ok1 Ok2 1 Ex Ey Ed' m1 m2 R1 R2 e He), (ye_scale S1 S2 Ok1 Ok2 1 Ex Ey Ed' m1 m2 R1 R2 e He), (ang_scale S1 S2 Ok1 Ok2 Ex Ey m1 m2 R1 R2 e He), !Rmult_1_l.
    destruct (xye1 S1 Ok1 m1 R1 e He) as (-> & -> & ->). destruct (xye1 S1 Ok1 m1 R1 (Se h bx by_ e) He') as (-> & -> & ->). destruct (Se_pos _ h Mk Hev bx by_ e He) as [P1 P2]. split; [exact P1|]. split; [exact P2|].
    destruct (Se_ang _ h Mk Hev bx by_ e He) as [P3 P4]. split; [exact P3|]. split; [exact P4|].
    intros k1 k2 Hk1 Hk2. destruct (P ltac:(lia) k2 Hk2) as (_ & Q2 & _). destruct (LY k1 Hk1) as (_ & L2 & _).
    rewrite Q2 by exact He. rewrite L2 by exact He'. unfold Rdiv. rewrite Rinv_1, !Rmult_1_l. reflexivity.
Qed.

