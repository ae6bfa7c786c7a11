(** Setups on meshes with the same cells and different spacing are similar. *)
From Coq Require Import ZArith Reals List Bool Lia Lra FunctionalExtensionality.
From Verif Require Import Arith Arrays Prog Conc Launch Mesh AuxVars Tend Model Hex RSum Spec MeshProof MeshMem MeshR Ready StepFn StepVal StepRun StepThms RealTend FieldInv Driver DriverFn EqThms Sim.
Import ListNotations.
Open Scope Z_scope.

Section Scale.
Context (S1 S2 : setup RA) (Hok1 : setup_ok S1) (Hok2 : setup_ok S2) (Hd1 : (0 < (dc (mesh_of_setup S1) : R))%R) (a : R) (Ha : (0 < a)%R).
Local Notation h1 := (mesh_of_setup S1).
Local Notation h2 := (mesh_of_setup S2).
Local Notation NC := (nx h1 * ny h1).
Context (Ex : nx h2 = nx h1) (Ey : ny h2 = ny h1) (Ed : (dc h2 : R) = (a * dc h1)%R).
Let X1 : 1 <= nx h1 := MeshProof.Hx _ _ (proj1 Hok1).
Let Y1 : 1 <= ny h1 := MeshProof.Hy _ _ (proj1 Hok1).

Section Mems.
Context (m1 m2 : mem RA) (R1 : ready S1 m1) (R2 : ready S2 m2).
Let M1 := ready_hex S1 Hok1 m1 R1.
Let M2 := ready_hex S2 Hok2 m2 R2.
Let S3 : (0 < sqrt 3)%R. Proof. apply sqrt_lt_R0; lra. Qed.

Let Dn2 : hdve h2 = (a * hdve h1)%R. Proof. unfold hdve. cbn [fmul fdiv fsqrt fofZ RA]. rewrite Ed. cbn [Arith.F RA]. field. Qed.
Let An2 : hareac h2 = (a * a * hareac h1)%R. Proof. unfold hareac. cbn [fmul fdiv fsqrt fofZ RA]. rewrite Ed. cbn [Arith.F RA]. field. Qed.
Let Tn2 : hatri h2 = (a * a * hatri h1)%R. Proof. unfold hatri. cbn [fmul fdiv fsqrt fofZ RA]. rewrite Ed. cbn [Arith.F RA]. field. Qed.
Let Kn2 : hkite h2 = (a * a * hkite h1)%R. Proof. unfold hkite. cbn [fmul fdiv fsqrt fofZ RA]. rewrite Ed. cbn [Arith.F RA]. field. Qed.
Let Dn0 : hdve h1 <> 0%R. Proof. unfold hdve. cbn [fmul fdiv fsqrt fofZ RA]. apply Rgt_not_eq. unfold Rdiv. repeat apply Rmult_lt_0_compat; try assumption; lra. Qed.
Let An0 : hareac h1 <> 0%R. Proof. unfold hareac. cbn [fmul fdiv fsqrt fofZ RA]. apply Rgt_not_eq. unfold Rdiv. repeat apply Rmult_lt_0_compat; try assumption; lra. Qed.
Let Tn0 : hatri h1 <> 0%R. Proof. unfold hatri. cbn [fmul fdiv fsqrt fofZ RA]. apply Rgt_not_eq. unfold Rdiv. repeat apply Rmult_lt_0_compat; try assumption; lra. Qed.

Lemma out_form h nl (m : mem RA) : 1 <= nx h -> 1 <= ny h -> hexmem h nl m -> forall g c, 0 <= c < nx h * ny h ->
  outflow m g c = (rsum 6 (fun j => IZR (hesc h c j) * hdve h * g (hE (nx h) (ny h) c j)) / hareac h)%R.
Proof.
  intros Hx Hy M g c Hc. unfold outflow. rewrite (hm_noc _ _ _ M), (hm_area _ _ _ M) by exact Hc. f_equal. apply rsum_ext. intros j Hj. cbv zeta.
  rewrite (hm_eoc _ _ _ M), (hm_esc _ _ _ M), (hm_dve _ _ _ M); try lia; [reflexivity|]. apply hE_range; assumption.
Qed.
Lemma kin_form h nl (m : mem RA) : 1 <= nx h -> 1 <= ny h -> hexmem h nl m -> forall u c, 0 <= c < nx h * ny h ->
  kin m u c = (rsum 6 (fun j => hdve h * dc h * (u (hE (nx h) (ny h) c j) * u (hE (nx h) (ny h) c j))) / hareac h / 4)%R.
Proof.
  intros Hx Hy M g c Hc. unfold kin. rewrite (hm_noc _ _ _ M), (hm_area _ _ _ M) by exact Hc. do 2 f_equal. apply rsum_ext. intros j Hj. cbv zeta.
  pose proof (hE_range (nx h) (ny h) Hx Hy c j Hc ltac:(lia)).
  rewrite (hm_eoc _ _ _ M) by lia. rewrite (hm_dve _ _ _ M), (hm_dce _ _ _ M) by assumption. reflexivity.
Qed.
Lemma vort_form h nl (m : mem RA) : 1 <= nx h -> 1 <= ny h -> hexmem h nl m -> forall g v, 0 <= v < 2 * (nx h * ny h) ->
  vort m g v = (rsum 3 (fun j => IZR (hesv h v j) * dc h * g (heov (nx h) (ny h) v j)) / hatri h)%R.
Proof.
  intros Hx Hy M g c Hc. unfold vort, circ. rewrite (hm_atri _ _ _ M) by exact Hc. f_equal. apply rsum_ext. intros j Hj. cbv zeta.
  rewrite (hm_eov _ _ _ M), (hm_esv _ _ _ M), (hm_dce _ _ _ M); try lia; [reflexivity|]. apply heov_range; assumption.
Qed.
Lemma hvert_form h nl (m : mem RA) : 1 <= nx h -> 1 <= ny h -> hexmem h nl m -> forall g v, 0 <= v < 2 * (nx h * ny h) ->
  hvert m g v = (rsum 3 (fun j => hkite h * g (hcov (nx h) (ny h) v j)) / hatri h)%R.
Proof.
  intros Hx Hy M g c Hc. unfold hvert. rewrite (hm_atri _ _ _ M) by exact Hc. f_equal. apply rsum_ext. intros j Hj. cbv zeta.
  rewrite (hm_cov _ _ _ M), (hm_kite _ _ _ M); try lia. reflexivity.
Qed.
Lemma recon_form h nl (m : mem RA) : hexmem h nl m -> forall g e, 0 <= e < 3 * (nx h * ny h) ->
  recon m g e = rsum 10 (fun j => hw (A:=RA) e j * g (heoe (nx h) (ny h) e j))%R.
Proof.
  intros M g e He. unfold recon. rewrite (hm_noe _ _ _ M) by exact He. apply rsum_ext. intros j Hj. rewrite (hm_eoe _ _ _ M), (hm_w _ _ _ M) by lia. reflexivity.
Qed.
Lemma scale_sim : mesh_sim NC m1 m2 (fun c => c) (fun e => e) (fun v => v) (fun _ => 1%R) a 1%R.
Proof.
  assert (A0 : a <> 0%R) by lra. assert (D0 : (dc h1 : R) <> 0%R) by (apply Rgt_not_eq; exact Hd1).
  assert (X2 : 1 <= nx h2) by (rewrite Ex; exact X1). assert (Y2 : 1 <= ny h2) by (rewrite Ey; exact Y1).
  assert (RE : forall c j, 0 <= c < NC -> 0 <= j < 6 -> 0 <= hE (nx h1) (ny h1) c j < 3 * NC) by (intros; apply hE_range; assumption).
  assert (EN : nx h2 * ny h2 = NC) by now rewrite Ex, Ey.
  split; try (intros; assumption).
  - intros z g1 g2 E c Hc. rewrite (out_form h1 _ m1 X1 Y1 M1), (out_form h2 _ m2 X2 Y2 M2) by (rewrite ?EN; exact Hc). rewrite An2, Ex, Ey.
    rewrite (rsum_ext 6 (fun j => IZR (hesc h2 c j) * hdve h2 * g2 (hE (nx h1) (ny h1) c j))%R (fun j => z * a * (IZR (hesc h1 c j) * hdve h1 * g1 (hE (nx h1) (ny h1) c j)))%R).
    + rewrite rsum_scal. cbn [Arith.F RA]. field. split; assumption.
    + intros j Hj. rewrite E, Dn2 by (apply RE; [exact Hc|lia]). replace (hesc h2 c j) with (hesc h1 c j) by (unfold hesc; now rewrite Ex, Ey). cbn [Arith.F RA]. ring.
  - intros z p1 p2 E e He. unfold grad. rewrite !(hm_coe _ _ _ M1), !(hm_coe _ _ _ M2), (hm_dce _ _ _ M1), (hm_dce _ _ _ M2) by (rewrite ?EN; lia). rewrite Ex, Ey, Ed.
    rewrite !E by now apply hcoe_range. cbn [Arith.F RA]. field. split; assumption.
  - intros z p1 p2 E e He. unfold emean. rewrite !(hm_coe _ _ _ M1), !(hm_coe _ _ _ M2) by (rewrite ?EN; lia). rewrite Ex, Ey.
    rewrite !E by now apply hcoe_range. field.
  - intros z g1 g2 E c Hc. rewrite (kin_form h1 _ m1 X1 Y1 M1), (kin_form h2 _ m2 X2 Y2 M2) by (rewrite ?EN; exact Hc). rewrite An2, Ex, Ey.
    rewrite (rsum_ext 6 (fun j => hdve h2 * dc h2 * (g2 (hE (nx h1) (ny h1) c j) * g2 (hE (nx h1) (ny h1) c j)))%R (fun j => z * z * (a * a) * (hdve h1 * dc h1 * (g1 (hE (nx h1) (ny h1) c j) * g1 (hE (nx h1) (ny h1) c j))))%R).
    + rewrite rsum_scal. cbn [Arith.F RA]. field. split; assumption.
    + intros j Hj. rewrite E, Dn2, Ed by (apply RE; [exact Hc|lia]). cbn [Arith.F RA]. ring.
  - intros z g1 g2 E v Hv. rewrite (vort_form h1 _ m1 X1 Y1 M1), (vort_form h2 _ m2 X2 Y2 M2) by (rewrite ?EN; exact Hv). rewrite Tn2, Ex, Ey.
    rewrite (rsum_ext 3 (fun j => IZR (hesv h2 v j) * dc h2 * g2 (heov (nx h1) (ny h1) v j))%R (fun j => z * a * (IZR (hesv h1 v j) * dc h1 * g1 (heov (nx h1) (ny h1) v j)))%R).
    + rewrite rsum_scal. cbn [Arith.F RA]. field. split; assumption.
    + intros j Hj. rewrite E, Ed by (apply heov_range; assumption). replace (hesv h2 v j) with (hesv h1 v j) by (unfold hesv; now rewrite Ex, Ey). cbn [Arith.F RA]. ring.
  - intros z g1 g2 E v Hv. rewrite (hvert_form h1 _ m1 X1 Y1 M1), (hvert_form h2 _ m2 X2 Y2 M2) by (rewrite ?EN; exact Hv). rewrite Tn2, Ex, Ey.
    rewrite (rsum_ext 3 (fun j => hkite h2 * g2 (hcov (nx h1) (ny h1) v j))%R (fun j => z * (a * a) * (hkite h1 * g1 (hcov (nx h1) (ny h1) v j)))%R).
    + rewrite rsum_scal. cbn [Arith.F RA]. field. split; assumption.
    + intros j Hj. rewrite E, Kn2 by (apply hcov_range; assumption). cbn [Arith.F RA]. ring.
  - intros z p1 p2 E e He. unfold rgrad. rewrite !(hm_voe _ _ _ M1), !(hm_voe _ _ _ M2), (hm_dve _ _ _ M1), (hm_dve _ _ _ M2) by (rewrite ?EN; lia). rewrite Ex, Ey, Dn2.
    rewrite !E by (apply hvoe_range; assumption). cbn [Arith.F RA]. field. split; assumption.
  - intros z p1 p2 E e He. rewrite !(hm_voe _ _ _ M1), !(hm_voe _ _ _ M2) by (rewrite ?EN; lia). rewrite Ex, Ey.
    rewrite !E by (apply hvoe_range; assumption). field.
  - intros z g1 g2 E e He. rewrite (recon_form h1 _ m1 M1), (recon_form h2 _ m2 M2) by (rewrite ?EN; exact He). rewrite Ex, Ey.
    rewrite (rsum_ext 10 _ (fun j => z * (hw (A:=RA) e j * g1 (heoe (nx h1) (ny h1) e j)))%R).
    + rewrite rsum_scal. cbn [Arith.F RA]. ring.
    + intros j Hj. rewrite E by (apply heoe_range; assumption). cbn [Arith.F RA]. ring.
Qed.
(** Positions. *)
Lemma hxc_scale c : hxc h2 c = (a * hxc h1 c)%R.
Proof. unfold hxc. rewrite Ex. destruct (Z.even _); cbn [fadd fmul fdiv fofZ RA]; rewrite Ed; cbn [Arith.F RA]; field. Qed.
Lemma hyc_scale c : hyc h2 c = (a * hyc h1 c)%R.
Proof. unfold hyc. rewrite Ex. cbn [fadd fmul fdiv fsqrt fofZ RA]; rewrite Ed; cbn [Arith.F RA]; field. Qed.
Lemma xc_scale c : 0 <= c < NC -> (mr m2 XCell [c] = a * mr m1 XCell [c])%R.
Proof. intros Hc. rewrite (hm_xc _ _ _ M1), (hm_xc _ _ _ M2) by (rewrite ?Ex, ?Ey; exact Hc). apply hxc_scale. Qed.
Lemma yc_scale c : 0 <= c < NC -> (mr m2 YCell [c] = a * mr m1 YCell [c])%R.
Proof. intros Hc. rewrite (hm_yc _ _ _ M1), (hm_yc _ _ _ M2) by (rewrite ?Ex, ?Ey; exact Hc). apply hyc_scale. Qed.
Lemma xe_scale e : 0 <= e < 3 * NC -> (mr m2 XEdge [e] = a * mr m1 XEdge [e])%R.
Proof.
  intros Hc. rewrite (hm_xe _ _ _ M1), (hm_xe _ _ _ M2) by (rewrite ?Ex, ?Ey; exact Hc). unfold hxe. cbv zeta. rewrite hxc_scale.
  destruct (e mod 3 =? 0); [|destruct (e mod 3 =? 1)]; cbn [fadd fsub fmul fdiv fsqrt fofZ RA]; rewrite Ed; cbn [Arith.F RA]; field.
Qed.
Lemma ye_scale e : 0 <= e < 3 * NC -> (mr m2 YEdge [e] = a * mr m1 YEdge [e])%R.
Proof.
  intros Hc. rewrite (hm_ye _ _ _ M1), (hm_ye _ _ _ M2) by (rewrite ?Ex, ?Ey; exact Hc). unfold hye. cbv zeta. rewrite hyc_scale.
  destruct (e mod 3 =? 0); [reflexivity|]; cbn [fadd fsub fmul fdiv fsqrt fofZ RA]; rewrite Ed; cbn [Arith.F RA]; field.
Qed.
Lemma ang_scale e : 0 <= e < 3 * NC -> mr m2 AngleEdge [e] = mr m1 AngleEdge [e].
Proof. intros Hc. rewrite (hm_ang _ _ _ M1), (hm_ang _ _ _ M2) by (rewrite ?Ex, ?Ey; exact Hc). reflexivity. Qed.
End Mems.
End Scale.
