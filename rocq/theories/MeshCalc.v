(** Discrete vector calculus identities of the built mesh, in exact real arithmetic. *)
From Coq Require Import ZArith Reals List Bool Lia Lra ZifyBool.
From Verif Require Import Arith Arrays Prog Conc Mesh RSum Spec Hex HexComb Launch MeshProof MeshMem MeshFacts RSum MeshR.
Import ListNotations.
Open Scope Z_scope.

Section Calc.
Context (cf : config) (h : hexargs RA) (ntr : Z).
Local Notation D := (dims_of cf h ntr).
Local Notation X := (nx h).
Local Notation Y := (ny h).
Local Notation NC := (nx h * ny h).
Local Notation dcR := (dc h : R).
Context (Hok : mesh_ok cf h).
Let Hx := Hx cf h Hok.
Let Hy := Hy cf h Hok.
Local Notation nb := (nb X Y).
Local Notation hE := (hE X Y).
Local Notation hV := (hV X Y).
Local Notation hcoe := (hcoe X Y).
Local Notation hvoe := (hvoe X Y).
Local Notation heoe := (heoe X Y).
Local Notation hcov := (hcov X Y).
Local Notation heov := (heov X Y).
Ltac six j := assert (j = 0 \/ j = 1 \/ j = 2 \/ j = 3 \/ j = 4 \/ j = 5)
    as [-> | [-> | [-> | [-> | [-> | ->]]]]] by lia.
Ltac three q := assert (q = 0 \/ q = 1 \/ q = 2) as [-> | [-> | ->]] by lia.
Ltac mod6 := repeat match goal with |- context [(?a mod 6)] => let v := eval vm_compute in (a mod 6) in change (a mod 6) with v end.
Ltac mod6_in H := repeat match type of H with context [(?a mod 6)] => let v := eval vm_compute in (a mod 6) in change (a mod 6) with v in H end.

(** Signs at a vertex. *)
Definition vs (v s : Z) : R := IZR (hesv h v s).
Lemma vs_e d s : 0 <= d < NC -> 0 <= s < 3 -> vs (2 * d) s = (if s =? 2 then -1 else 1)%R.
Proof.
  intros Hd Hs. unfold vs, hesv. rewrite (hesv_closed X Y Hx Hy) by lia. unfold eend. rewrite mod2'. cbn [Z.eqb].
  three s; reflexivity.
Qed.
Lemma vs_o d s : 0 <= d < NC -> 0 <= s < 3 -> vs (2 * d + 1) s = (if s =? 2 then 1 else -1)%R.
Proof.
  intros Hd Hs. unfold vs, hesv. rewrite (hesv_closed X Y Hx Hy) by lia. unfold eend. rewrite mod2 by lia.
  three s; reflexivity.
Qed.
(** Signs at a cell. *)
Definition cs (c j : Z) : R := IZR (hesc h c j).
Lemma cs_closed c j : 2 <= X -> 2 <= Y -> 0 <= c < NC -> 0 <= j < 6 -> cs c j = (if j <? 3 then -1 else 1)%R.
Proof.
  intros H1 H2 Hc Hj. unfold cs, hesc. rewrite coe0_hE by auto. six j; reflexivity.
Qed.

(** The circulation of a difference, for any size. *)
Lemma curl_sum (g : Z -> R) v : 0 <= v < 2 * NC ->
  rsum 3 (fun s => vs v s * g (heov v s))%R =
  if v mod 2 =? 0 then (g (3 * (v / 2))%Z + g (3 * inb_ X Y (v / 2) 2 + 2)%Z - g (3 * inb_ X Y (v / 2) 2 + 1)%Z)%R
  else (- g (3 * (v / 2))%Z - g (3 * inb_ X Y (v / 2) 3 + 2)%Z + g (3 * (v / 2) + 1)%Z)%R.
Proof.
  intros Hv. destruct (vdec v) as [d Hd]. assert (Hd' : 0 <= d < NC) by lia. rewrite rsum_small3.
  destruct Hd as [-> | ->].
  - rewrite !vs_e, !heov_e, mod2', div2' by lia. cbn [Z.eqb Pos.eqb]. lra.
  - rewrite !vs_o, !heov_o, mod2, div2 by lia. cbn [Z.eqb Pos.eqb]. lra.
Qed.

Lemma curl_grad (phi : Z -> R) v : Z.even Y = true -> 0 <= v < 2 * NC ->
  (rsum 3 (fun s => vs v s * (phi (hcoe (heov v s) 1) - phi (hcoe (heov v s) 0))) = 0)%R.
Proof.
  intros Hev Hv. rewrite (curl_sum (fun e => phi (hcoe e 1) - phi (hcoe e 0))%R) by lia.
  destruct (vdec v) as [d Hd]. assert (Hd' : 0 <= d < NC) by lia.
  assert (E3 : forall q, 3 * q = 3 * q + 0) by (intros; lia).
  destruct Hd as [-> | ->]; rewrite ?mod2', ?div2', ?mod2, ?div2 by lia; cbn [Z.eqb];
    rewrite (E3 d); replace (3 * d + 0 + 1) with (3 * d + 1) by lia; rewrite !hcoe_q by lia; cbn [Z.eqb Pos.eqb].
  - pose proof (inb_range X Y Hx Hy d 2 Hd') as Ha.
    replace (3 + 0) with 3 by lia. replace (3 + 2) with 5 by lia. replace (3 + 1) with 4 by lia.
    rewrite !(inb_is_nb X Y Hx Hy Hev) by (try (apply nb_range; assumption); auto; lia). mod6.
    pose proof (nb_opp X Y Hx Hev d 5 Hd' ltac:(lia)) as E1. pose proof (nb_turn X Y Hx Hev d 5 Hd' ltac:(lia)) as E2.
    mod6_in E1. mod6_in E2. rewrite E1, E2. lra.
  - pose proof (inb_range X Y Hx Hy d 3 Hd') as Ha.
    replace (3 + 0) with 3 by lia. replace (3 + 2) with 5 by lia. replace (3 + 1) with 4 by lia.
    rewrite !(inb_is_nb X Y Hx Hy Hev) by (try (apply nb_range; assumption); auto; lia). mod6.
    pose proof (nb_turn X Y Hx Hev d 0 Hd' ltac:(lia)) as E2. mod6_in E2. rewrite E2. lra.
Qed.

Lemma curl_grad_odd : 2 <= X -> Z.even Y = false -> exists v (phi : Z -> R), 0 <= v < 2 * NC /\
  (rsum 3 (fun s => vs v s * (phi (hcoe (heov v s) 1) - phi (hcoe (heov v s) 0))) <> 0)%R.
Proof.
  intros H2 Hodd. pose (d := (Y - 1) * X).
  assert (Hd : 0 <= d < NC) by (unfold d; pose proof Hy; nia).
  assert (Hc : colof X d = 0) by (unfold d, colof; apply Z.mod_mul; lia).
  assert (Hr : rowof X d = Y - 1) by (unfold d, rowof; apply Z.div_mul; lia).
  exists (2 * d), (fun c => if c =? d then 1%R else 0%R). split; [lia|].
  rewrite (curl_sum (fun e => (if hcoe e 1 =? d then 1%R else 0%R) - (if hcoe e 0 =? d then 1%R else 0%R))%R) by lia.
  rewrite mod2', div2'. cbn [Z.eqb]. replace (3 * d) with (3 * d + 0) by lia. rewrite !hcoe_q by lia. cbn [Z.eqb Pos.eqb].
  replace (3 + 0) with 3 by lia. replace (3 + 2) with 5 by lia. replace (3 + 1) with 4 by lia.
  pose proof (inb_range X Y Hx Hy d 2 Hd) as Ha.
  assert (Hp0 : pyr Y (Y - 1) = 0) by (unfold pyr; rewrite Z.eqb_refl; reflexivity).
  assert (Ra : rowof X (inb_ X Y d 2) = 0) by (rewrite (row_inb X Y Hx), Hr by auto; exact Hp0).
  assert (Ca : colof X (inb_ X Y d 2) = 0).
  { rewrite (col_inb X Y Hx), Hr, Hc by auto. cbn [Z.eqb Pos.eqb]. rewrite Hp0. reflexivity. }
  assert (Hm0 : myr Y 0 = Y - 1) by reflexivity.
  assert (Evm : Z.even (Y - 1) = true) by (rewrite Z.even_sub, Hodd; reflexivity).
  assert (E4 : inb_ X Y (inb_ X Y d 2) 4 = d).
  { apply (cell_ext X Hx).
    - rewrite (col_inb X Y Hx), Ra, Ca, Hc by auto. cbn [Z.eqb Pos.eqb]. rewrite Hm0, Evm. reflexivity.
    - rewrite (row_inb X Y Hx), Ra, Hr by auto. exact Hm0. }
  assert (E5 : inb_ X Y (inb_ X Y d 2) 5 <> d).
  { intros E. assert (Ec : colof X (inb_ X Y (inb_ X Y d 2) 5) = colof X d) by now rewrite E.
    rewrite (col_inb X Y Hx), Ra, Ca, Hc in Ec by auto. cbn [Z.eqb Pos.eqb] in Ec. rewrite Hm0, Evm in Ec.
    pose proof (pxc_ne X 0 H2 ltac:(lia)). auto. }
  assert (E3 : inb_ X Y d 3 <> d).
  { intros E. assert (Ec : colof X (inb_ X Y d 3) = colof X d) by now rewrite E.
    rewrite (col_inb X Y Hx), Hc in Ec by auto. cbn [Z.eqb Pos.eqb] in Ec.
    pose proof (mxc_ne X 0 H2 ltac:(lia)). auto. }
  rewrite E4, Z.eqb_refl. apply Z.eqb_neq in E3. apply Z.eqb_neq in E5. rewrite E3, E5.
  destruct (inb_ X Y d 2 =? d); lra.
Qed.

Lemma div_rot_grad (psi : Z -> R) c : 2 <= X -> 2 <= Y -> Z.even Y = true -> 0 <= c < NC ->
  (rsum 6 (fun j => cs c j * (psi (hvoe (hE c j) 1) - psi (hvoe (hE c j) 0))) = 0)%R.
Proof.
  intros H1 H2 Hev Hc. rewrite rsum_small6, !cs_closed by lia. cbn [Z.ltb Z.compare Pos.compare Pos.compare_cont].
  unfold Hex.hE. cbn [Z.ltb Z.compare Pos.compare Pos.compare_cont].
  change (3 - 3) with 0. change (4 - 3) with 1. change (5 - 3) with 2.
  rewrite !hvoe_q by lia. cbn [Z.eqb]. unfold Hex.hV. cbn [Z.eqb Pos.eqb Z.add Pos.add Pos.succ].
  pose proof (nb_turn' X Y Hx Hev c 4 Hc ltac:(lia)) as E2.
  pose proof (nb_turn' X Y Hx Hev c 5 Hc ltac:(lia)) as E3.
  pose proof (nb_opp X Y Hx Hev c 5 Hc ltac:(lia)) as E1.
  mod6_in E1. mod6_in E2. mod6_in E3. rewrite E1, E2, E3. lra.
Qed.

(** ** The reconstructed tangential field *)
(** Part of the reconstruction at local edge [j] of cell [c] that comes from cell [c]. *)
Definition tpart (u : Z -> R) (c j : Z) : R :=
  (let w k := cw (j mod 3) k in
   w 0%Z * u (hE c ((j + 1) mod 6)) + w 1%Z * u (hE c ((j + 2) mod 6)) + w 2%Z * u (hE c ((j + 3) mod 6)) +
   w 3%Z * u (hE c ((j + 4) mod 6)) + w 4%Z * u (hE c ((j + 5) mod 6)))%R.
Lemma recon_sum (u : Z -> R) d q : 0 <= d < NC -> 0 <= q < 3 ->
  rsum 10 (fun s => hw (A:=RA) (3 * d + q) s * u (heoe (3 * d + q) s))%R =
  (sqrt 3 / 3 * (tpart u (inb_ X Y d (3 + q)) (3 + q) + tpart u d q))%R.
Proof.
  intros Hd Hq. rewrite rsum_small10, !hw_cw, !mod3 by lia.
  repeat match goal with |- context [?a mod 5] => let v := eval vm_compute in (a mod 5) in change (a mod 5) with v end.
  unfold Hex.heoe, ecell. cbn [Z.ltb Z.compare Pos.compare Pos.compare_cont]. rewrite !mod3, !div3 by lia.
  unfold tpart. cbn zeta.
  three q; repeat match goal with |- context [(?a + 1 + ?b) mod 6] => let v := eval vm_compute in ((a + 1 + b) mod 6) in change ((a + 1 + b) mod 6) with v end;
    mod6; repeat match goal with |- context [?a mod 3] => let v := eval vm_compute in (a mod 3) in change (a mod 3) with v end; 
    mod6; lra.
Qed.

Lemma trisk (u : Z -> R) v : 2 <= X -> 2 <= Y -> Z.even Y = true -> 0 <= v < 2 * NC ->
  rsum 3 (fun s => vs v s * rsum 10 (fun k => hw (A:=RA) (heov v s) k * u (heoe (heov v s) k)))%R =
  (- (sqrt 3 / 18) * rsum 3 (fun s => rsum 6 (fun j => cs (hcov v s) j * u (hE (hcov v s) j))))%R.
Proof.
  intros H1 H2 Hev Hv.
  rewrite (curl_sum (fun e => rsum 10 (fun k => hw (A:=RA) e k * u (heoe e k)))%R) by lia.
  assert (Hd3 : forall c, 0 <= c < NC -> rsum 6 (fun j => cs c j * u (hE c j))%R =
    (- u (hE c 0%Z) - u (hE c 1%Z) - u (hE c 2%Z) + u (hE c 3%Z) + u (hE c 4%Z) + u (hE c 5%Z))%R).
  { intros c Hc. rewrite rsum_small6, !cs_closed by lia. cbn [Z.ltb Z.compare Pos.compare Pos.compare_cont]. lra. }
  rewrite rsum_small3, !Hd3 by (apply hcov_range; auto; lia).
  destruct (vdec v) as [d Hd]. assert (Hd' : 0 <= d < NC) by lia.
  pose proof (inb_range X Y Hx Hy d 2 Hd') as Ha. pose proof (inb_range X Y Hx Hy d 3 Hd') as Hb.
  pose proof (inb_range X Y Hx Hy d 4 Hd') as Hb4.
  destruct Hd as [-> | ->]; rewrite ?mod2', ?div2', ?mod2, ?div2 by lia; cbn [Z.eqb].
  - rewrite !hcov_e. cbn [Z.eqb Pos.eqb]. replace (3 * d) with (3 * d + 0) by lia.
    rewrite !recon_sum by lia. replace (3 + 0) with 3 by lia. replace (3 + 2) with 5 by lia. replace (3 + 1) with 4 by lia.
    set (a := inb_ X Y d 2) in *. set (b := inb_ X Y d 3) in *.
    assert (Ea : a = nb d 5) by (unfold a; rewrite (inb_is_nb X Y Hx Hy Hev) by lia; mod6; reflexivity).
    assert (Eb : b = nb d 0) by (unfold b; rewrite (inb_is_nb X Y Hx Hy Hev) by lia; mod6; reflexivity).
    assert (E5 : inb_ X Y a 5 = d).
    { rewrite (inb_is_nb X Y Hx Hy Hev) by lia. mod6. rewrite Ea. exact (nb_opp X Y Hx Hev d 5 Hd' ltac:(lia)). }
    assert (E4 : inb_ X Y a 4 = b).
    { rewrite (inb_is_nb X Y Hx Hy Hev) by lia. mod6. rewrite Ea, Eb. exact (nb_turn X Y Hx Hev d 5 Hd' ltac:(lia)). }
    rewrite E5, E4.
    (* shared edges *)
    assert (S1 : hE b 3 = hE d 0) by (unfold Hex.hE; cbn [Z.ltb Z.compare Pos.compare Pos.compare_cont]; unfold b; rewrite (nb_inb X Y Hx) by lia; lia).
    assert (S2 : hE d 5 = hE a 2) by (unfold Hex.hE; cbn [Z.ltb Z.compare Pos.compare Pos.compare_cont]; rewrite Ea; lia).
    assert (S3 : hE b 4 = hE a 1).
    { unfold Hex.hE; cbn [Z.ltb Z.compare Pos.compare Pos.compare_cont]. rewrite <- E4. rewrite (nb_inb X Y Hx) by lia. lia. }
    unfold tpart. cbn zeta. mod6.
    repeat match goal with |- context [?a mod 3] => let v := eval vm_compute in (a mod 3) in change (a mod 3) with v end.
    unfold cw. cbn [Z.eqb Pos.eqb]. rewrite S1, S2, S3. lra.
  - rewrite !hcov_o. cbn [Z.eqb Pos.eqb]. replace (3 * d) with (3 * d + 0) by lia.
    replace (3 * d + 0 + 1) with (3 * d + 1) by lia.
    rewrite !recon_sum by lia. replace (3 + 0) with 3 by lia. replace (3 + 2) with 5 by lia. replace (3 + 1) with 4 by lia.
    set (a := inb_ X Y d 4) in *. set (b := inb_ X Y d 3) in *.
    assert (Ea : a = nb d 1) by (unfold a; rewrite (inb_is_nb X Y Hx Hy Hev) by lia; mod6; reflexivity).
    assert (Eb : b = nb d 0) by (unfold b; rewrite (inb_is_nb X Y Hx Hy Hev) by lia; mod6; reflexivity).
    assert (E5 : inb_ X Y b 5 = a).
    { rewrite (inb_is_nb X Y Hx Hy Hev) by lia. mod6. rewrite Ea, Eb. exact (nb_turn X Y Hx Hev d 0 Hd' ltac:(lia)). }
    rewrite E5.
    assert (S1 : hE b 3 = hE d 0) by (unfold Hex.hE; cbn [Z.ltb Z.compare Pos.compare Pos.compare_cont]; unfold b; rewrite (nb_inb X Y Hx) by lia; lia).
    assert (S2 : hE a 4 = hE d 1) by (unfold Hex.hE; cbn [Z.ltb Z.compare Pos.compare Pos.compare_cont]; unfold a; rewrite (nb_inb X Y Hx) by lia; lia).
    assert (S3 : hE a 5 = hE b 2).
    { unfold Hex.hE; cbn [Z.ltb Z.compare Pos.compare Pos.compare_cont]. rewrite <- E5. rewrite (nb_inb X Y Hx) by lia. lia. }
    unfold tpart. cbn zeta. mod6.
    repeat match goal with |- context [?a mod 3] => let v := eval vm_compute in (a mod 3) in change (a mod 3) with v end.
    unfold cw. cbn [Z.eqb Pos.eqb]. rewrite S1, S2, S3. lra.
Qed.
End Calc.

Section OnMem.
Context (cf : config) (h : hexargs RA) (ntr : Z).
Local Notation D := (dims_of cf h ntr).
Local Notation X := (nx h).
Local Notation Y := (ny h).
Local Notation NC := (nx h * ny h).
Context (Hok : mesh_ok cf h) (Hdc : (0 < (dc h : R))%R) (m : mem RA) (Hm : hexmem h (d_nlayers D) m).
Let Hx := Hx cf h Hok.
Let Hy := Hy cf h Hok.
Local Notation ri a ix := (mi m a ix%Z).
Local Notation rr a ix := (mr m a ix%Z : R).

Lemma circ_eq g v : 0 <= v < 2 * NC -> circ m g v = (dc h * rsum 3 (fun s => vs h v s * g (heov X Y v s)))%R.
Proof.
  intros Hv. unfold circ. rewrite <- rsum_scal. apply rsum_ext. intros s Hs. cbn zeta.
  rewrite (hm_eov _ _ _ Hm), (hm_esv _ _ _ Hm) by lia. rewrite (hm_dce _ _ _ Hm) by (apply heov_range; auto).
  unfold vs. cbn [fofZ RA]. ring.
Qed.
Lemma outflow_eq g c : 0 <= c < NC ->
  outflow m g c = (hdve h / hareac h * rsum 6 (fun j => cs h c j * g (hE X Y c j)))%R.
Proof.
  intros Hc. unfold outflow. rewrite (hm_noc _ _ _ Hm), (hm_area _ _ _ Hm) by lia.
  unfold Rdiv. rewrite (Rmult_comm (hdve h)), Rmult_assoc, Rmult_comm. f_equal.
  rewrite <- rsum_scal. apply rsum_ext. intros j Hj. cbn zeta.
  rewrite (hm_eoc _ _ _ Hm), (hm_esc _ _ _ Hm) by lia. rewrite (hm_dve _ _ _ Hm) by (apply hE_range; auto).
  unfold cs. cbn [fofZ RA]. ring.
Qed.
Lemma recon_eq g e : 0 <= e < 3 * NC -> recon m g e = rsum 10 (fun k => hw (A:=RA) e k * g (heoe X Y e k))%R.
Proof.
  intros He. unfold recon. rewrite (hm_noe _ _ _ Hm) by lia. apply rsum_ext. intros k Hk.
  now rewrite (hm_w _ _ _ Hm), (hm_eoe _ _ _ Hm) by lia.
Qed.

Lemma m_curl_grad_iff : 2 <= X ->
  ((forall (phi : Z -> R) v, 0 <= v < 2 * NC -> circ m (grad m phi) v = 0%R) <-> Z.even Y = true).
Proof.
  intros H2.
  assert (E : forall phi v, 0 <= v < 2 * NC -> circ m (grad m phi) v =
    rsum 3 (fun s => vs h v s * (phi (hcoe X Y (heov X Y v s) 1) - phi (hcoe X Y (heov X Y v s) 0)))%R).
  { intros phi v Hv. rewrite circ_eq, <- rsum_scal by lia. apply rsum_ext. intros s Hs. unfold grad.
    pose proof (heov_range X Y Hx Hy v s Hv) as He. rewrite !(hm_coe _ _ _ Hm), (hm_dce _ _ _ Hm) by lia. field. lra. }
  split.
  - intros H. destruct (Z.even Y) eqn:Ev; [reflexivity|]. exfalso.
    destruct (curl_grad_odd cf h Hok H2 Ev) as (v & phi & Hv & N). apply N. rewrite <- E by lia. now apply H.
  - intros Ev phi v Hv. rewrite E by lia. now apply (curl_grad cf h Hok).
Qed.

Lemma m_div_rot_grad (psi : Z -> R) c : 2 <= X -> 2 <= Y -> Z.even Y = true -> 0 <= c < NC ->
  outflow m (rgrad m psi) c = 0%R.
Proof.
  intros H1 H2 Hev Hc. rewrite outflow_eq by lia. unfold rgrad.
  rewrite (rsum_ext _ _ (fun j => / hdve h * (cs h c j * (psi (hvoe X Y (hE X Y c j) 1) - psi (hvoe X Y (hE X Y c j) 0))))%R).
  - rewrite rsum_scal, (div_rot_grad cf h Hok) by auto. lra.
  - intros j Hj. pose proof (hE_range X Y Hx Hy c j Hc Hj). rewrite !(hm_voe _ _ _ Hm), (hm_dve _ _ _ Hm) by lia.
    unfold Rdiv. cbn [fofZ RA]. ring.
Qed.

Lemma m_trisk (u : Z -> R) v : 2 <= X -> 2 <= Y -> Z.even Y = true -> 0 <= v < 2 * NC ->
  circ m (recon m u) v = (- rsum 3 (fun s => rr KiteareasOnVertex [v; s] * outflow m u (ri CellsOnVertex [v; s])))%R.
Proof.
  intros H1 H2 Hev Hv. rewrite circ_eq by lia.
  rewrite (rsum_ext 3 _ (fun s => vs h v s * rsum 10 (fun k => hw (A:=RA) (heov X Y v s) k * u (heoe X Y (heov X Y v s) k)))%R).
  2:{ intros s Hs. rewrite recon_eq by (apply heov_range; auto). reflexivity. }
  rewrite (trisk cf h Hok) by auto.
  rewrite (rsum_ext 3 (fun s => _ * outflow m _ _)%R (fun s => hkite h * (hdve h / hareac h) * rsum 6 (fun j => cs h (hcov X Y v s) j * u (hE X Y (hcov X Y v s) j)))%R).
  2:{ intros s Hs. rewrite (hm_kite _ _ _ Hm), (hm_cov _ _ _ Hm) by lia.
      rewrite outflow_eq by (apply hcov_range; auto). ring. }
  rewrite rsum_scal. rewrite hkite_R, hdve_R, hareac_R. pose proof sqrt3_pos. field. lra.
Qed.
End OnMem.
