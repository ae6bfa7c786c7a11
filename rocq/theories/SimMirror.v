(** Mirror images of setups are similar to them. *)
From Coq Require Import ZArith Reals List Bool Lia Lra FunctionalExtensionality.
From Verif Require Import Arith Arrays Prog Conc Launch Mesh AuxVars Tend Model Hex HexComb RSum Spec MeshProof MeshMem MeshR MeshCalc Stencil Sample Ready StepFn StepVal StepRun StepThms RealTend FieldInv Driver DriverFn EqThms Sim SimScale MirrorHex.
Import ListNotations.
Open Scope Z_scope.

(** Similarities compose. *)
Lemma mesh_sim_trans NC m1 m2 m3 sc1 se1 sv1 sg1 a1 w1 sc2 se2 sv2 sg2 a2 w2 : a1 <> 0%R -> a2 <> 0%R -> (forall v, 0 <= v < 2 * NC -> 0 <= sv2 v < 2 * NC) ->
  mesh_sim NC m1 m2 sc1 se1 sv1 sg1 a1 w1 -> mesh_sim NC m2 m3 sc2 se2 sv2 sg2 a2 w2 ->
  mesh_sim NC m1 m3 (fun c => sc1 (sc2 c)) (fun e => se1 (se2 e)) (fun v => sv1 (sv2 v)) (fun e => sg2 e * sg1 (se2 e))%R (a1 * a2) (w1 * w2).
Proof.
  intros A1 A2 SV M N.
  assert (EC : forall z (p1 p3 : Z -> R), (forall c, 0 <= c < NC -> p3 c = (z * p1 (sc1 (sc2 c)))%R) -> (forall c, 0 <= c < NC -> p3 c = (z * (fun c => 1 * p1 (sc1 c)) (sc2 c))%R)) by (intros z p1 p3 E c Hc; rewrite E by exact Hc; ring).
  assert (EE : forall z (p1 p3 : Z -> R), (forall e, 0 <= e < 3 * NC -> p3 e = (z * (sg2 e * sg1 (se2 e)) * p1 (se1 (se2 e)))%R) -> (forall e, 0 <= e < 3 * NC -> p3 e = (z * sg2 e * (fun e => 1 * sg1 e * p1 (se1 e)) (se2 e))%R)) by (intros z p1 p3 E e He; rewrite E by exact He; ring).
  assert (EV : forall z (p1 p3 : Z -> R), (forall v, 0 <= v < 2 * NC -> p3 v = (z * p1 (sv1 (sv2 v)))%R) -> (forall v, 0 <= v < 2 * NC -> p3 v = (z * (fun v => 1 * p1 (sv1 v)) (sv2 v))%R)) by (intros z p1 p3 E v Hv; rewrite E by exact Hv; ring).
  destruct M as [Mc Me Mout Mgrad Memean Mkin Mvort Mhvert Mrgrad Mvmean Mrecon], N as [Nc Ne Nout Ngrad Nemean Nkin Nvort Nhvert Nrgrad Nvmean Nrecon].
  split; auto.
  - intros z g1 g3 E c Hc. rewrite (Nout z _ g3 (EE z g1 g3 E) c Hc). rewrite (Mout 1%R g1 _ (fun e He => eq_refl) (sc2 c) (Nc c Hc)). field. auto.
  - intros z g1 g3 E e He. rewrite (Ngrad z _ g3 (EC z g1 g3 E) e He). rewrite (Mgrad 1%R g1 _ (fun c Hc => eq_refl) (se2 e) (Ne e He)). field. auto.
  - intros z g1 g3 E e He. rewrite (Nemean z _ g3 (EC z g1 g3 E) e He). rewrite (Memean 1%R g1 _ (fun c Hc => eq_refl) (se2 e) (Ne e He)). ring.
  - intros z g1 g3 E c Hc. rewrite (Nkin z _ g3 (EE z g1 g3 E) c Hc). rewrite (Mkin 1%R g1 _ (fun e He => eq_refl) (sc2 c) (Nc c Hc)). ring.
  - intros z g1 g3 E v Hv. rewrite (Nvort z _ g3 (EE z g1 g3 E) v Hv). rewrite (Mvort 1%R g1 _ (fun e He => eq_refl) (sv2 v) (SV v Hv)). field. auto.
  - intros z g1 g3 E v Hv. rewrite (Nhvert z _ g3 (EC z g1 g3 E) v Hv). rewrite (Mhvert 1%R g1 _ (fun e He => eq_refl) (sv2 v) (SV v Hv)). ring.
  - intros z g1 g3 E e He. rewrite (Nrgrad z _ g3 (EV z g1 g3 E) e He). rewrite (Mrgrad 1%R g1 _ (fun c Hc => eq_refl) (se2 e) (Ne e He)). field. auto.
  - intros z g1 g3 E e He. rewrite (Nvmean z _ g3 (EV z g1 g3 E) e He). rewrite (Mvmean 1%R g1 _ (fun c Hc => eq_refl) (se2 e) (Ne e He)). ring.
  - intros z g1 g3 E e He. rewrite (Nrecon z _ g3 (EE z g1 g3 E) e He). rewrite (Mrecon 1%R g1 _ (fun c Hc => eq_refl) (se2 e) (Ne e He)). ring.
Qed.

Section MirrorMesh.
Context (cf : config) (h : hexargs RA) (Hok : mesh_ok cf h) (X2 : 2 <= nx h) (Hev : Z.even (ny h) = true) (Hd : (0 < (dc h : R))%R).
Local Notation X := (nx h).
Local Notation Y := (ny h).
Local Notation NC := (X * Y).
Let Hx : 1 <= X := MeshProof.Hx _ _ Hok.
Let Hy : 1 <= Y := MeshProof.Hy _ _ Hok.
Let Y2 : 2 <= Y := ny2 Y Hy Hev.
Context (b : bool).
Local Notation sc := (mc X Y b).
Local Notation se := (me X Y b).
Local Notation sv := (mv X Y b).
Local Notation nb := (Hex.nb X Y).
Local Notation hE := (Hex.hE X Y).
Local Notation hV := (Hex.hV X Y).

(** Does the edge keep its direction? *)
Definition msgn (bb : bool) (e : Z) : R := if mpi bb (e mod 3) <? 3 then 1%R else (-1)%R.

Ltac six j := assert (j = 0 \/ j = 1 \/ j = 2 \/ j = 3 \/ j = 4 \/ j = 5)
    as [-> | [-> | [-> | [-> | [-> | ->]]]]] by lia.
Ltac three q := assert (q = 0 \/ q = 1 \/ q = 2) as [-> | [-> | ->]] by lia.
Ltac modc := repeat match goal with |- context [?a mod 6] => let v := eval vm_compute in (a mod 6) in change (a mod 6) with v
  | |- context [?a mod 3] => let v := eval vm_compute in (a mod 3) in change (a mod 3) with v end.
Ltac mod6_in H := repeat match type of H with context [?a mod 6] => let v := eval vm_compute in (a mod 6) in change (a mod 6) with v in H end.

Lemma msgn_hE c j : 0 <= j < 6 -> msgn b (hE c j) = if (j <? 3) then if mpi b j <? 3 then 1%R else (-1)%R else if mpi b j <? 3 then (-1)%R else 1%R.
Proof. intros Hj. unfold msgn. rewrite hE_mod_ by exact Hj. six j; destruct b; reflexivity. Qed.
(** Cells and vertices of an edge. *)
Lemma coe_hE c j s : 0 <= c < NC -> 0 <= j < 6 -> 0 <= s < 2 -> hcoe X Y (hE c j) s = if j <? 3 then if s =? 0 then nb c j else c else if s =? 0 then c else nb c j.
Proof.
  intros Hc Hj Hs. assert (C : s = 0 \/ s = 1) by lia. unfold hcoe. destruct (Z.ltb_spec j 3).
  - destruct C as [-> | ->]; cbn [Z.eqb].
    + unfold ecell. rewrite hE_div_, hE_mod_ by exact Hj. destruct (Z.ltb_spec j 3); [|lia]. rewrite (inb_is_nb X Y Hx Hy Hev) by (try exact Hc; rewrite Z.mod_small by lia; lia).
      f_equal. three j; reflexivity.
    + rewrite hE_div_ by exact Hj. destruct (Z.ltb_spec j 3); [reflexivity|lia].
  - destruct C as [-> | ->]; cbn [Z.eqb].
    + apply ecell_hE; lia.
    + rewrite hE_div_ by exact Hj. destruct (Z.ltb_spec j 3); [lia|reflexivity].
Qed.
Lemma voe_hE c j s : 0 <= c < NC -> 0 <= j < 6 -> 0 <= s < 2 -> hvoe X Y (hE c j) s = if j <? 3 then if s =? 0 then hV c (j + 1) else hV c j else if s =? 0 then hV c j else hV c ((j + 1) mod 6).
Proof.
  intros Hc Hj Hs. assert (C : s = 0 \/ s = 1) by lia.
  unfold Hex.hE. destruct (Z.ltb_spec j 3).
  - rewrite hvoe_q by lia. destruct (s =? 0); reflexivity.
  - rewrite hvoe_q by lia.
    pose proof (nb_turn X Y Hx Hev c j Hc Hj) as T. pose proof (nb_turn' X Y Hx Hev c j Hc Hj) as U. pose proof (nb_opp X Y Hx Hev c j Hc Hj) as O.
    assert (j = 3 \/ j = 4 \/ j = 5) as [-> | [-> | ->]] by lia; mod6_in T; mod6_in U; mod6_in O; destruct C as [-> | ->]; cbn [Z.eqb]; modc; change (3 - 3) with 0; change (4 - 3) with 1; change (5 - 3) with 2; cbn [Z.add Pos.add Pos.succ]; unfold Hex.hV; cbn [Z.eqb Pos.eqb]; congruence.
Qed.
Lemma edge_of e : 0 <= e < 3 * NC -> exists d q, 0 <= d < NC /\ 0 <= q < 3 /\ e = hE d q /\ se e = hE (sc d) (mpi b q).
Proof.
  intros He. exists (e / 3), (e mod 3). pose proof (Z.mod_pos_bound e 3 ltac:(lia)). split; [now apply (ediv_range X Y)|]. split; [lia|]. split; [|reflexivity].
  unfold Hex.hE. destruct (Z.ltb_spec (e mod 3) 3); [|lia]. pose proof (Z.div_mod e 3 ltac:(lia)). lia.
Qed.
Lemma mcoe e s : 0 <= e < 3 * NC -> 0 <= s < 2 -> sc (hcoe X Y e s) = hcoe X Y (se e) (if (mpi b (e mod 3) <? 3) then s else 1 - s).
Proof.
  intros He Hs. destruct (edge_of e He) as (d & q & Hd' & Hq & E & E'). rewrite E'. rewrite E at 1 2. rewrite (coe_hE d q s), hE_mod_ by lia.
  pose proof (mpi_range b q ltac:(lia)). rewrite coe_hE; [|apply mc_range; assumption|assumption|destruct (_ <? _); lia]. rewrite <- mc_nb by (assumption || lia).
  assert (s = 0 \/ s = 1) as [-> | ->] by lia; three q; destruct b; reflexivity.
Qed.
Lemma mvoe e s : 0 <= e < 3 * NC -> 0 <= s < 2 -> sv (hvoe X Y e s) = hvoe X Y (se e) (if (mpi b (e mod 3) <? 3) then 1 - s else s).
Proof.
  intros He Hs. destruct (edge_of e He) as (d & q & Hd' & Hq & E & E'). rewrite E'. rewrite E at 1 2. rewrite (voe_hE d q s), hE_mod_ by lia.
  pose proof (mpi_range b q ltac:(lia)). rewrite voe_hE; [|apply mc_range; assumption|assumption|destruct (_ <? _); lia].
  assert (s = 0 \/ s = 1) as [-> | ->] by lia; three q; cbn [Z.eqb Z.ltb Z.compare Pos.compare Pos.compare_cont]; rewrite mv_hV by (assumption || lia); destruct b; reflexivity.
Qed.
(** Sums. *)
Lemma cs_mirror c j : 0 <= c < NC -> 0 <= j < 6 -> (cs h c j * msgn b (hE c j))%R = cs h (sc c) (mpi b j).
Proof.
  intros Hc Hj. pose proof (mpi_range b j Hj). rewrite !(cs_closed cf h Hok) by (try assumption; now apply mc_range). rewrite msgn_hE by exact Hj.
  six j; destruct b; cbn; ring.
Qed.
Lemma recon_hE (u : Z -> R) c j : 0 <= c < NC -> 0 <= j < 6 ->
  rsum 10 (fun s => hw (A:=RA) (hE c j) s * u (heoe X Y (hE c j) s))%R = (sqrt 3 / 3 * (tpart h u (nb c j) ((j + 3) mod 6) + tpart h u c j))%R.
Proof.
  intros Hc Hj. unfold Hex.hE. destruct (Z.ltb_spec j 3).
  - rewrite (recon_sum h u c j) by lia. rewrite (inb_is_nb X Y Hx Hy Hev) by lia. three j; modc; reflexivity.
  - pose proof (nb_range X Y Hx Hy c j Hc) as Hn. rewrite (recon_sum h u (nb c j) (j - 3)) by lia. rewrite (inb_is_nb X Y Hx Hy Hev) by lia.
    pose proof (nb_opp X Y Hx Hev c j Hc Hj) as O. replace ((3 + (j - 3) + 3) mod 6) with ((j + 3) mod 6) by (f_equal; lia). rewrite O. replace (3 + (j - 3)) with j by lia.
    replace ((j + 3) mod 6) with (j - 3); [rring|]. assert (j = 3 \/ j = 4 \/ j = 5) as [-> | [-> | ->]] by lia; reflexivity.
Qed.
Lemma tpart_mirror (z : R) (g1 g2 : Z -> R) c j : (forall e, 0 <= e < 3 * NC -> g2 e = (z * msgn b e * g1 (se e))%R) -> 0 <= c < NC -> 0 <= j < 6 ->
  tpart h g2 c j = (- (z * msgn b (hE c j)) * tpart h g1 (sc c) (mpi b j))%R.
Proof.
  intros E Hc Hj. unfold tpart. cbv zeta. pose proof (fun j H => hE_range X Y Hx Hy c j Hc H) as Hr.
  rewrite !E by (apply Hr, Z.mod_pos_bound; lia). rewrite !me_hE by (try assumption; apply Z.mod_pos_bound; lia). rewrite !msgn_hE by (try assumption; apply Z.mod_pos_bound; lia).
  six j; destruct b; modc; cbn [mpi Z.eqb Pos.eqb Z.ltb Z.compare Pos.compare Pos.compare_cont]; modc; unfold cw; cbn [Z.eqb Pos.eqb]; field.
Qed.

Lemma msgn_sq e : (msgn b e * msgn b e = 1)%R.
Proof. unfold msgn. destruct (_ <? _); ring. Qed.

(** The sums over the edges and the cells of a vertex. *)
Lemma vs_mirror (z : R) (g1 g2 : Z -> R) v : (forall e, 0 <= e < 3 * NC -> g2 e = (z * msgn b e * g1 (se e))%R) -> 0 <= v < 2 * NC ->
  rsum 3 (fun s => vs h v s * g2 (heov X Y v s))%R = (- z * rsum 3 (fun s => vs h (sv v) s * g1 (heov X Y (sv v) s)))%R.
Proof.
  intros E Hv. rewrite !(curl_sum cf h Hok) by (try exact Hv; apply mv_range; assumption). 
  destruct (vdec v) as [d Hd0]. assert (Hd' : 0 <= d < NC) by lia. pose proof (mc_range X Y Hx Hy Hev b d Hd') as HD. set (D := sc d) in *.
  pose proof (nb_range X Y Hx Hy d 5 Hd') as H5. pose proof (nb_range X Y Hx Hy d 0 Hd') as H0.
  pose proof (fun j H => nb_opp X Y Hx Hev D j HD H) as O. pose proof (fun j H => nb_turn X Y Hx Hev D j HD H) as T. pose proof (fun j H => nb_turn' X Y Hx Hev D j HD H) as U.
  assert (L : forall c q, 0 <= q < 3 -> (3 * c + q)%Z = hE c q) by (intros c q Hq; unfold Hex.hE; destruct (Z.ltb_spec q 3); [reflexivity|lia]).
  assert (L0 : forall c, (3 * c)%Z = hE c 0) by (intros c; rewrite <- L by lia; lia).
  assert (MV : sv v = hV D (mrho b (v mod 2))) by (unfold mv; destruct Hd0 as [-> | ->]; rewrite ?div2, ?div2' by lia; reflexivity).
  assert (RD : forall c, 0 <= c < NC -> forall q, 0 <= q < 3 -> 0 <= hE c q < 3 * NC) by (intros; apply hE_range; assumption || lia).
  rewrite MV. clear MV.
  destruct Hd0 as [-> | ->]; rewrite ?mod2', ?div2', ?mod2, ?div2 by lia; cbn [Z.eqb]; rewrite !(inb_is_nb X Y Hx Hy Hev d) by lia; change ((2 + 3) mod 6) with 5; change ((3 + 3) mod 6) with 0.
  - rewrite ?L, ?L0 by lia. rewrite !E by (apply RD; [assumption|lia]). rewrite !me_hE, !msgn_hE by (try assumption; lia). rewrite !mc_nb by (try assumption; lia). fold D.
    destruct b; cbn [mpi mrho Z.eqb Pos.eqb Z.ltb Z.compare Pos.compare Pos.compare_cont]; unfold Hex.hV; cbn [Z.eqb Pos.eqb]; rewrite ?mod2', ?div2', ?mod2, ?div2 by lia; cbn [Z.eqb].
    + pose proof (nb_range X Y Hx Hy D 3 HD) as N3. rewrite !(inb_is_nb X Y Hx Hy Hev (nb D 3)) by lia. change ((2 + 3) mod 6) with 5.
      pose proof (T 3 ltac:(lia)) as T3. mod6_in T3. rewrite T3. rewrite ?L, ?L0 by lia. pose proof (hE_opp X Y Hx Hev D 3 HD ltac:(lia)) as O3. mod6_in O3. rewrite O3. ring.
    + rewrite !(inb_is_nb X Y Hx Hy Hev D) by lia. change ((3 + 3) mod 6) with 0. rewrite ?L, ?L0 by lia.
      pose proof (hE_opp X Y Hx Hev D 1 HD ltac:(lia)) as O1. mod6_in O1. rewrite O1.
      pose proof (nb_range X Y Hx Hy D 1 HD) as N1. pose proof (hE_opp X Y Hx Hev (nb D 1) 5 N1 ltac:(lia)) as O5. mod6_in O5. rewrite <- O5.
      pose proof (U 1 ltac:(lia)) as U1. mod6_in U1. rewrite U1. ring.
  - rewrite ?L, ?L0 by lia. rewrite !E by (apply RD; [assumption|lia]). rewrite !me_hE, !msgn_hE by (try assumption; lia). rewrite !mc_nb by (try assumption; lia). fold D.
    destruct b; cbn [mpi mrho Z.eqb Pos.eqb Z.ltb Z.compare Pos.compare Pos.compare_cont]; unfold Hex.hV; cbn [Z.eqb Pos.eqb]; rewrite ?mod2', ?div2', ?mod2, ?div2 by lia; cbn [Z.eqb].
    + pose proof (nb_range X Y Hx Hy D 3 HD) as N3. rewrite !(inb_is_nb X Y Hx Hy Hev (nb D 3)) by lia. change ((3 + 3) mod 6) with 0.
      pose proof (O 3 ltac:(lia)) as O3. mod6_in O3. rewrite O3. rewrite ?L, ?L0 by lia. pose proof (hE_opp X Y Hx Hev D 3 HD ltac:(lia)) as P3. mod6_in P3. rewrite P3.
      pose proof (hE_opp X Y Hx Hev (nb D 3) 1 N3 ltac:(lia)) as P1. mod6_in P1. rewrite <- P1. pose proof (U 3 ltac:(lia)) as U3. mod6_in U3. rewrite <- ?U3. 
      ring.
    + rewrite !(inb_is_nb X Y Hx Hy Hev D) by lia. rewrite ?L, ?L0 by lia. change ((2 + 3) mod 6) with 5.
      pose proof (hE_opp X Y Hx Hev D 5 HD ltac:(lia)) as P5. mod6_in P5. rewrite <- P5.
      pose proof (nb_range X Y Hx Hy D 0 HD) as N0. pose proof (hE_opp X Y Hx Hev (nb D 0) 4 N0 ltac:(lia)) as P4. mod6_in P4. rewrite <- P4.
      pose proof (U 0 ltac:(lia)) as U0. mod6_in U0. rewrite U0. ring.
Qed.

Lemma cov_mirror (z : R) (p1 p2 : Z -> R) v : (forall c, 0 <= c < NC -> p2 c = (z * p1 (sc c))%R) -> 0 <= v < 2 * NC ->
  rsum 3 (fun s => p2 (hcov X Y v s)) = (z * rsum 3 (fun s => p1 (hcov X Y (sv v) s)))%R.
Proof.
  intros E Hv. rewrite !rsum_small3.
  rewrite !E by (apply hcov_range; assumption).
  destruct (vdec v) as [d Hd0]. assert (Hd' : 0 <= d < NC) by lia. pose proof (mc_range X Y Hx Hy Hev b d Hd') as HD. set (D := sc d) in *.
  pose proof (fun j H => nb_opp X Y Hx Hev D j HD H) as O. pose proof (fun j H => nb_turn X Y Hx Hev D j HD H) as T. pose proof (fun j H => nb_turn' X Y Hx Hev D j HD H) as U.
  assert (MV : sv v = hV D (mrho b (v mod 2))) by (unfold mv; destruct Hd0 as [-> | ->]; rewrite ?div2, ?div2' by lia; reflexivity).
  pose proof (nb_range X Y Hx Hy D 3 HD) as N3.
  rewrite MV. clear MV.
  destruct Hd0 as [-> | ->]; rewrite ?mod2', ?mod2, ?hcov_e, ?hcov_o by lia; cbn [Z.eqb Pos.eqb]; rewrite !(inb_is_nb X Y Hx Hy Hev d) by lia; rewrite !mc_nb by (try assumption; apply Z.mod_pos_bound; lia);
    fold D; modc; destruct b; cbn [mpi mrho Z.eqb Pos.eqb]; unfold Hex.hV; cbn [Z.eqb Pos.eqb]; rewrite ?hcov_e, ?hcov_o; cbn [Z.eqb Pos.eqb]; rewrite ?(inb_is_nb X Y Hx Hy Hev D), ?(inb_is_nb X Y Hx Hy Hev (nb D 3)) by lia; modc.
  - pose proof (T 3 ltac:(lia)) as T3. mod6_in T3. pose proof (O 3 ltac:(lia)) as O3. mod6_in O3. rewrite ?T3, ?O3. ring.
  - ring.
  - pose proof (U 3 ltac:(lia)) as T3. mod6_in T3. pose proof (O 3 ltac:(lia)) as O3. mod6_in O3. rewrite ?T3, ?O3. ring.
  - ring.
Qed.

Lemma mirror_sim nl (m : mem RA) : hexmem h nl m -> mesh_sim NC m m sc se sv (msgn b) 1 (-1).
Proof.
  intros M. pose proof (fun c j Hc H => hE_range X Y Hx Hy c j Hc H) as RE.
  split; try (intros; (now apply mc_range) || (now apply me_range)).
  - intros z g1 g2 E c Hc. pose proof (mc_range X Y Hx Hy Hev b c Hc) as HD. rewrite !(out_form h nl m Hx Hy M) by assumption.
    rewrite (rsum_ext 6 _ (fun j => z * (IZR (hesc h (sc c) (mpi b j)) * hdve h * g1 (hE (sc c) (mpi b j))))%R).
    + rewrite rsum_scal, !rsum_small6. destruct b; cbn [mpi Z.eqb Pos.eqb]; cbn [Arith.F RA]; unfold Rdiv; rewrite Rinv_1; ring.
    + intros j Hj. rewrite E by (apply RE; [exact Hc|lia]). rewrite me_hE by (assumption || lia).
      pose proof (cs_mirror c j Hc ltac:(lia)) as CS. unfold cs in CS. rewrite <- CS. cbn [Arith.F RA]. ring.
  - intros z p1 p2 E e He. pose proof (me_range X Y Hx Hy Hev b e He) as HD. unfold grad. rewrite !(hm_coe _ _ _ M), !(hm_dce _ _ _ M) by (assumption || lia).
    rewrite !E by now apply hcoe_range. rewrite !mcoe by (assumption || lia). unfold msgn. destruct (mpi b (e mod 3) <? 3); [change (1 - 0) with 1|change (1 - 0) with 1; change (1 - 1) with 0]; unfold Rdiv; rewrite Rinv_1; cbn [Arith.F RA]; ring.
  - intros z p1 p2 E e He. pose proof (me_range X Y Hx Hy Hev b e He) as HD. unfold emean. rewrite !(hm_coe _ _ _ M) by (assumption || lia).
    rewrite !E by now apply hcoe_range. rewrite !mcoe by (assumption || lia). destruct (mpi b (e mod 3) <? 3); [change (1 - 0) with 1|change (1 - 0) with 1; change (1 - 1) with 0]; field.
  - intros z g1 g2 E c Hc. pose proof (mc_range X Y Hx Hy Hev b c Hc) as HD. rewrite !(kin_form h nl m Hx Hy M) by assumption.
    rewrite (rsum_ext 6 _ (fun j => z * z * (hdve h * dc h * (g1 (hE (sc c) (mpi b j)) * g1 (hE (sc c) (mpi b j)))))%R).
    + rewrite rsum_scal, !rsum_small6. destruct b; cbn [mpi Z.eqb Pos.eqb]; cbn [Arith.F RA]; unfold Rdiv; ring.
    + intros j Hj. rewrite E by (apply RE; [exact Hc|lia]). rewrite me_hE by (assumption || lia).
      replace (z * msgn b (hE c j) * g1 (hE (sc c) (mpi b j)) * (z * msgn b (hE c j) * g1 (hE (sc c) (mpi b j))))%R with (msgn b (hE c j) * msgn b (hE c j) * (z * z * (g1 (hE (sc c) (mpi b j)) * g1 (hE (sc c) (mpi b j)))))%R by ring.
      rewrite msgn_sq. cbn [Arith.F RA]. ring.
  - intros z g1 g2 E v Hv. pose proof (mv_range X Y Hx Hy Hev b v Hv) as HD. rewrite !(vort_form h nl m Hx Hy M) by assumption.
    rewrite (rsum_ext 3 _ (fun s => dc h * (vs h v s * g2 (heov X Y v s)))%R) by (intros; unfold vs; cbn [Arith.F RA]; ring).
    rewrite (rsum_ext 3 (fun j => IZR (hesv h (sv v) j) * dc h * g1 (heov X Y (sv v) j))%R (fun s => dc h * (vs h (sv v) s * g1 (heov X Y (sv v) s)))%R) by (intros; unfold vs; cbn [Arith.F RA]; ring).
    rewrite !rsum_scal, (vs_mirror z g1 g2 v E Hv). unfold Rdiv. rewrite Rinv_1. cbn [Arith.F RA]. ring.
  - intros z p1 p2 E v Hv. pose proof (mv_range X Y Hx Hy Hev b v Hv) as HD. rewrite !(hvert_form h nl m Hx Hy M) by assumption.
    rewrite !rsum_scal, (cov_mirror z p1 p2 v E Hv). unfold Rdiv. cbn [Arith.F RA]. ring.
  - intros z p1 p2 E e He. pose proof (me_range X Y Hx Hy Hev b e He) as HD. unfold rgrad. rewrite !(hm_voe _ _ _ M), !(hm_dve _ _ _ M) by (assumption || lia).
    rewrite !E by (apply hvoe_range; assumption). rewrite !mvoe by (assumption || lia). unfold msgn. destruct (mpi b (e mod 3) <? 3); [change (1 - 0) with 1; change (1 - 1) with 0|]; unfold Rdiv; rewrite Rinv_1; cbn [Arith.F RA]; ring.
  - intros z p1 p2 E e He. pose proof (me_range X Y Hx Hy Hev b e He) as HD. rewrite !(hm_voe _ _ _ M) by (assumption || lia).
    rewrite !E by (apply hvoe_range; assumption). rewrite !mvoe by (assumption || lia). destruct (mpi b (e mod 3) <? 3); [change (1 - 0) with 1; change (1 - 1) with 0|]; field.
  - intros z g1 g2 E e He. pose proof (me_range X Y Hx Hy Hev b e He) as HD. rewrite !(recon_form h nl m M) by assumption.
    destruct (edge_of e He) as (d & q & Hd' & Hq & E1 & E2). rewrite E2, E1. pose proof (mc_range X Y Hx Hy Hev b d Hd') as HD'. pose proof (mpi_range b q ltac:(lia)) as HP. pose proof (nb_range X Y Hx Hy d q Hd') as HN.
    rewrite !recon_hE by (assumption || lia). rewrite (tpart_mirror z g1 g2 d q E Hd' ltac:(lia)), (tpart_mirror z g1 g2 (nb d q) ((q + 3) mod 6) E HN) by (apply Z.mod_pos_bound; lia).
    rewrite hE_opp by (assumption || lia). rewrite mc_nb by (assumption || lia).
    replace (mpi b ((q + 3) mod 6)) with ((mpi b q + 3) mod 6) by (three q; destruct b; reflexivity). ring.
Qed.
End MirrorMesh.
