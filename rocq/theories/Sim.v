(** Similar setups: if the operators of two meshes agree up to renumbering, orientation and factors, so do the
    tendencies and the runs. *)
From Coq Require Import ZArith Reals List Bool Lia Lra FunctionalExtensionality.
From Verif Require Import Arith Arrays Prog Conc Launch Mesh AuxVars Tend Model RSum Spec MeshProof MeshMem MeshR Ready StepFn StepVal StepRun StepThms RealTend EqThms FieldInv Driver DriverFn.
Import ListNotations.
Open Scope Z_scope.

Definition hkh (S : setup RA) (m : mem RA) (time : R) (c : Z) : R :=
  match hook S with None => 0%R | Some f => force_h f (mr m XCell [c]) (mr m YCell [c]) time end.
Definition hkv (S : setup RA) (m : mem RA) (time : R) (e : Z) : R :=
  match hook S with None => 0%R | Some f => (cos (mr m AngleEdge [e]) * force_vx f (mr m XEdge [e]) (mr m YEdge [e]) time
            + sin (mr m AngleEdge [e]) * force_vy f (mr m XEdge [e]) (mr m YEdge [e]) time)%R end.
Definition layer0 (S : setup RA) (k : Z) : Z := if ksimd (cfg_of S) then k / lanes (cfg_of S) * lanes (cfg_of S) else k.

(** The tendency of fields, by the formulas of C59. *)
Lemma tend_formula (S : setup RA) (Hok : setup_ok S) (Hdc : (0 < (dc (mesh_of_setup S) : R))%R) (time : R) y k : tendency_of S time y k ->
  forall m, ready S m -> forall j, 0 <= j < d_nlayers (sdims S) ->
  let P := par_of S in let h c := fh y c j : R in let u e := fv y e j : R in let u0 e := fv y e (layer0 S j) : R in
  (forall c, 0 <= c < d_ncells (sdims S) -> fh k c j = ((if disable_h P then 0 else - outflow m (fun e => emean m h e * u e) c) + hkh S m time c)%R) /\
  (forall e, 0 <= e < d_nedges (sdims S) -> fv k e j = ((if disable_vn P then 0 else
             pvflux m (f0 P) h u e - grad m (fun c => kin m u c + grav P * h c) e
             + Rmax 0 (visc_del2 P) * vlap m u e
             - Rmax 0 (visc_del4 P) * (grad m (outflow m (vlap m u)) e - rgrad m (vort m (vlap m u0)) e)) + hkv S m time e)%R) /\
  (forall l c, 0 <= l < ntracers P -> 0 <= c < d_ncells (sdims S) ->
     let r c := (ft y l c j / fh y c j)%R in let hgrad e := (emean m h e * grad m r e)%R in
     ft k l c j = (- outflow m (fun e => emean m h e * u e * emean m r e) c + Rmax 0 (eddy_diff2 P) * outflow m hgrad c
       - Rmax 0 (eddy_diff4 P) * outflow m (grad m (outflow m hgrad)) c)%R).
Proof.
  intros T m Hr j Hj.
  pose (n := Mem (mi m) (fun a ix => if const_loc (LR a ix) then mr m a ix else match a, ix with
    | HCell St, [c; k] => fh y c k | VnEdge St, [e; k] => fv y e k | TrCell St, [l; c; k] => ft y l c k | _, _ => 0%R end) : mem RA).
  assert (Rn : ready S n).
  { destruct Hr as (m0 & H0 & Hm). exists m0. split; [exact H0|]. intros l Hl. rewrite <- Hm by exact Hl. destruct l as [a ix|a ix]; [reflexivity|]. unfold mget. cbn [mr n]. now rewrite Hl. }
  assert (Z0 : disabled_zero S Tend n) by (intros q Hq; split; intros; reflexivity).
  assert (Hy : holds S St n y) by (intros q Hq; repeat split; intros; reflexivity).
  pose proof (T St n ltac:(discriminate) Rn Hy Z0) as [TA [n' Tx]].
  destruct (TA _ Tx) as (n'' & E & HT). injection E as <-.
  destruct (C59_tendency_is_the_discrete_equations_proof S Hok Hdc Tend St time Replace n ltac:(discriminate) Rn) as [CA _].
  destruct (CA _ Tx) as (n'' & E & HC). injection E as <-. specialize (HC j Hj). cbv zeta in HC. destruct HC as (C1 & C2 & C3). destruct (HT j Hj) as (T1 & T2 & T3).
  assert (Rx : forall v x, ((if Rlt_dec 0 v then v * x else 0) = Rmax 0 v * x)%R).
  { intros v x. destruct (Rlt_dec 0 v); [rewrite Rmax_right by lra|rewrite Rmax_left by lra]; ring. }
  assert (Mm : forall a ix, const_loc (LR a ix) = true -> mr n a ix = mr m a ix) by (intros a ix Ha; cbn [n mr]; now rewrite Ha).
  cbv zeta. split; [|split].
  - intros c Hc. rewrite <- T1 by exact Hc. rewrite C1 by exact Hc. unfold hkh. change (mr n XCell [c]) with (mr m XCell [c]) in *. change (mr n YCell [c]) with (mr m YCell [c]).
    change (outflow n (fun e => emean n (fun c => mr n (HCell St) [c; j]) e * mr n (VnEdge St) [e; j])%R c) with (outflow m (fun e => emean m (fun c => fh y c j) e * fv y e j)%R c).
    change (mr n (HCell Tend) [c; j]) with 0%R. destruct (disable_h (par_of S)); cbn [Arith.F RA]; apply Rminus_diag_uniq; ring.
  - intros e He. rewrite <- T2 by exact He. rewrite C2 by exact He. unfold hkv, layer0. change (mr n XEdge [e]) with (mr m XEdge [e]). change (mr n YEdge [e]) with (mr m YEdge [e]). change (mr n AngleEdge [e]) with (mr m AngleEdge [e]). rewrite !Rx.
    change (mr n (VnEdge Tend) [e; j]) with 0%R. destruct (disable_vn (par_of S)); [cbn [Arith.F RA]; apply Rminus_diag_uniq; ring|].
    cbn [Arith.F RA]. rewrite Rplus_0_l. reflexivity.
  - intros l c Hl Hc. rewrite <- T3 by assumption. rewrite C3 by assumption. rewrite !Rx. change (mr n (TrCell Tend) [l; c; j]) with 0%R. cbn [Arith.F RA]. rewrite Rminus_0_l. reflexivity.
Qed.

(** The operators of [m2] are those of [m1] at the renumbered places. *)
Record mesh_sim (NC : Z) (m1 m2 : mem RA) (sc se sv : Z -> Z) (sg : Z -> R) (a w : R) : Prop := {
  ms_c : forall c, 0 <= c < NC -> 0 <= sc c < NC;
  ms_e : forall e, 0 <= e < 3 * NC -> 0 <= se e < 3 * NC;
  ms_out : forall z g1 g2, (forall e, 0 <= e < 3 * NC -> g2 e = (z * sg e * g1 (se e))%R) -> forall c, 0 <= c < NC -> outflow m2 g2 c = (z / a * outflow m1 g1 (sc c))%R;
  ms_grad : forall z p1 p2, (forall c, 0 <= c < NC -> p2 c = (z * p1 (sc c))%R) -> forall e, 0 <= e < 3 * NC -> grad m2 p2 e = (z / a * sg e * grad m1 p1 (se e))%R;
  ms_emean : forall z p1 p2, (forall c, 0 <= c < NC -> p2 c = (z * p1 (sc c))%R) -> forall e, 0 <= e < 3 * NC -> emean m2 p2 e = (z * emean m1 p1 (se e))%R;
  ms_kin : forall z u1 u2, (forall e, 0 <= e < 3 * NC -> u2 e = (z * sg e * u1 (se e))%R) -> forall c, 0 <= c < NC -> kin m2 u2 c = (z * z * kin m1 u1 (sc c))%R;
  ms_vort : forall z u1 u2, (forall e, 0 <= e < 3 * NC -> u2 e = (z * sg e * u1 (se e))%R) -> forall v, 0 <= v < 2 * NC -> vort m2 u2 v = (w * (z / a) * vort m1 u1 (sv v))%R;
  ms_hvert : forall z p1 p2, (forall c, 0 <= c < NC -> p2 c = (z * p1 (sc c))%R) -> forall v, 0 <= v < 2 * NC -> hvert m2 p2 v = (z * hvert m1 p1 (sv v))%R;
  ms_rgrad : forall z p1 p2, (forall v, 0 <= v < 2 * NC -> p2 v = (z * p1 (sv v))%R) -> forall e, 0 <= e < 3 * NC -> rgrad m2 p2 e = (w * (z / a) * sg e * rgrad m1 p1 (se e))%R;
  ms_vmean : forall z p1 p2, (forall v, 0 <= v < 2 * NC -> p2 v = (z * p1 (sv v))%R) -> forall e, 0 <= e < 3 * NC ->
    ((p2 (mi m2 VerticesOnEdge [e; 0%Z]) + p2 (mi m2 VerticesOnEdge [e; 1%Z])) / 2 = z * ((p1 (mi m1 VerticesOnEdge [se e; 0%Z]) + p1 (mi m1 VerticesOnEdge [se e; 1%Z])) / 2))%R;
  ms_recon : forall z g1 g2, (forall e, 0 <= e < 3 * NC -> g2 e = (z * sg e * g1 (se e))%R) -> forall e, 0 <= e < 3 * NC -> recon m2 g2 e = (w * z * sg e * recon m1 g1 (se e))%R
}.

Ltac rfield := match goal with |- @eq _ ?x ?y => change (@eq R x y) end; field.

Section Similar.
Context (S1 S2 : setup RA) (Hok1 : setup_ok S1) (Hok2 : setup_ok S2) (Hd1 : (0 < (dc (mesh_of_setup S1) : R))%R) (Hd2 : (0 < (dc (mesh_of_setup S2) : R))%R).
Local Notation NC := (nx (mesh_of_setup S1) * ny (mesh_of_setup S1)).
Local Notation NL2 := (d_nlayers (sdims S2)).
Local Notation P1 := (par_of S1).
Local Notation P2 := (par_of S2).
Context (EN : nx (mesh_of_setup S2) * ny (mesh_of_setup S2) = NC) (sc se sv kl : Z -> Z) (sg : Z -> R) (a w b ah : R) (at_ : Z -> R).
Context (Hms : forall m1 m2, ready S1 m1 -> ready S2 m2 -> mesh_sim NC m1 m2 sc se sv sg a w) (Ha : a <> 0%R) (Hb : b <> 0%R) (Hah : ah <> 0%R) (Hw : (w * w = 1)%R).
Context (Kl : forall j, 0 <= j < NL2 -> 0 <= kl j < d_nlayers (sdims S1)).
Context (Edh : disable_h P2 = disable_h P1) (Edv : disable_vn P2 = disable_vn P1) (Ent : ntracers P2 = ntracers P1).
Context (Ef : disable_vn P1 = false -> (f0 P2 * b = w * f0 P1)%R) (Eg : disable_vn P1 = false -> (grav P2 * (ah * b * b) = a * a * grav P1)%R).
Context (Ev2 : disable_vn P1 = false -> (Rmax 0 (visc_del2 P2) * b = a * a * Rmax 0 (visc_del2 P1))%R)
  (Ev4 : disable_vn P1 = false -> (Rmax 0 (visc_del4 P2) * b = a * a * (a * a) * Rmax 0 (visc_del4 P1))%R)
  (Ed2 : (Rmax 0 (eddy_diff2 P2) * b = a * a * Rmax 0 (eddy_diff2 P1))%R) (Ed4 : (Rmax 0 (eddy_diff4 P2) * b = a * a * (a * a) * Rmax 0 (eddy_diff4 P1))%R).
Context (E0 : disable_vn P1 = false -> (Rmax 0 (visc_del4 P1) <> 0)%R -> forall j, 0 <= j < NL2 -> 0 <= layer0 S2 j < NL2 /\ kl (layer0 S2 j) = layer0 S1 (kl j)).
Context (Hkh : forall m1 m2 time c, ready S1 m1 -> ready S2 m2 -> 0 <= c < NC -> (hkh S2 m2 (b * time) c = ah / b * hkh S1 m1 time (sc c))%R)
  (Hkv : forall m1 m2 time e, ready S1 m1 -> ready S2 m2 -> 0 <= e < 3 * NC -> (hkv S2 m2 (b * time) e = a / (b * b) * sg e * hkv S1 m1 time (se e))%R).

(** [y2] is [q] times the image of [y1]. *)
Definition sim (q : R) (y1 y2 : fields RA) : Prop := forall j, 0 <= j < NL2 ->
  (forall c, 0 <= c < NC -> fh y2 c j = (q * ah * fh y1 (sc c) (kl j))%R) /\
  (forall e, 0 <= e < 3 * NC -> fv y2 e j = (q * (a / b) * sg e * fv y1 (se e) (kl j))%R) /\
  (forall l c, 0 <= l < ntracers P1 -> 0 <= c < NC -> ft y2 l c j = (q * at_ l * ft y1 l (sc c) (kl j))%R).

Section Ops.
Context (m1 m2 : mem RA) (M : mesh_sim NC m1 m2 sc se sv sg a w).
Lemma sim_pvort z f1 f2 h1 h2 u1 u2 : (f2 * b = w * f1)%R -> z <> 0%R -> (forall c, 0 <= c < NC -> h2 c = (z * h1 (sc c))%R) -> (forall e, 0 <= e < 3 * NC -> u2 e = (a / b * sg e * u1 (se e))%R) ->
  forall v, 0 <= v < 2 * NC -> pvort m2 f2 h2 u2 v = (w / (b * z) * pvort m1 f1 h1 u1 (sv v))%R.
Proof.
  intros Hf Hz Hh Hu v Hv. unfold pvort. rewrite (ms_hvert _ _ _ _ _ _ _ _ _ M z h1 h2 Hh v Hv), (ms_vort _ _ _ _ _ _ _ _ _ M (a / b) u1 u2 Hu v Hv).
  replace (f2 : R) with (w * f1 / b)%R by (rewrite <- Hf; rfield; exact Hb). unfold Rdiv. rewrite !Rinv_mult. generalize (/ hvert m1 h1 (sv v))%R. intros X. rfield. repeat split; assumption.
Qed.
Lemma sim_pvflux z f1 f2 h1 h2 u1 u2 : (f2 * b = w * f1)%R -> z <> 0%R -> (forall c, 0 <= c < NC -> h2 c = (z * h1 (sc c))%R) -> (forall e, 0 <= e < 3 * NC -> u2 e = (a / b * sg e * u1 (se e))%R) ->
  forall e, 0 <= e < 3 * NC -> pvflux m2 f2 h2 u2 e = (a / (b * b) * sg e * pvflux m1 f1 h1 u1 (se e))%R.
Proof.
  intros Hf Hz Hh Hu e He.
  assert (E : forall e, 0 <= e < 3 * NC -> pvedge m2 f2 h2 u2 e = (w / (b * z) * pvedge m1 f1 h1 u1 (se e))%R).
  { intros e' He'. unfold pvedge. apply (ms_vmean _ _ _ _ _ _ _ _ _ M (w / (b * z)) (pvort m1 f1 h1 u1) (pvort m2 f2 h2 u2)); [|exact He']. now apply sim_pvort. }
  change (pvflux m2 f2 h2 u2 e) with (recon m2 (fun e' => emean m2 h2 e' * u2 e' * ((pvedge m2 f2 h2 u2 e + pvedge m2 f2 h2 u2 e') / 2))%R e).
  change (pvflux m1 f1 h1 u1 (se e)) with (recon m1 (fun e' => emean m1 h1 e' * u1 e' * ((pvedge m1 f1 h1 u1 (se e) + pvedge m1 f1 h1 u1 e') / 2))%R (se e)).
  rewrite (ms_recon _ _ _ _ _ _ _ _ _ M (a / b * (w / b)) (fun e' => emean m1 h1 e' * u1 e' * ((pvedge m1 f1 h1 u1 (se e) + pvedge m1 f1 h1 u1 e') / 2))%R); [|intros e' He'|exact He].
  - replace (w * (a / b * (w / b)) * sg e)%R with (w * w * (a / (b * b) * sg e))%R by (rfield; exact Hb). rewrite Hw. ring.
  - rewrite (ms_emean _ _ _ _ _ _ _ _ _ M z h1 h2 Hh e' He'), Hu, !E by assumption. rfield. split; assumption.
Qed.
Lemma sim_vlap z u1 u2 : (forall e, 0 <= e < 3 * NC -> u2 e = (z * sg e * u1 (se e))%R) ->
  forall e, 0 <= e < 3 * NC -> vlap m2 u2 e = (z / (a * a) * sg e * vlap m1 u1 (se e))%R.
Proof.
  intros Hu e He. unfold vlap. rewrite (ms_grad _ _ _ _ _ _ _ _ _ M (z / a) (outflow m1 u1) (outflow m2 u2)), (ms_rgrad _ _ _ _ _ _ _ _ _ M (w * (z / a)) (vort m1 u1) (vort m2 u2)); try exact He.
  - replace (w * (w * (z / a) / a))%R with (w * w * (z / (a * a)))%R by (rfield; exact Ha). rewrite Hw. rfield. exact Ha.
  - intros v Hv. now apply (ms_vort _ _ _ _ _ _ _ _ _ M).
  - intros c Hc. now apply (ms_out _ _ _ _ _ _ _ _ _ M).
Qed.
End Ops.

Lemma ncells2 : d_ncells (sdims S2) = NC. Proof using EN. cbn [sdims dims_of d_ncells]. exact EN. Qed.
Lemma nedges2 : d_nedges (sdims S2) = 3 * NC. Proof using EN. rewrite <- EN. reflexivity. Qed.

Lemma sim_tend (time : R) y1 y2 k1 k2 : sim 1 y1 y2 -> tendency_of S1 time y1 k1 -> tendency_of S2 (b * time)%R y2 k2 -> sim (/ b) k1 k2.
Proof.
  intros Hy T1 T2 j Hj. destruct (ready_any S1 Hok1 (fun _ _ => 0%R)) as (m1 & R1 & _). destruct (ready_any S2 Hok2 (fun _ _ => 0%R)) as (m2 & R2 & _).
  pose proof (Hms m1 m2 R1 R2) as M.
  pose proof (tend_formula S1 Hok1 Hd1 time y1 k1 T1 m1 R1 (kl j) (Kl j Hj)) as F1. pose proof (tend_formula S2 Hok2 Hd2 (b * time)%R y2 k2 T2 m2 R2 j Hj) as F2.
  cbv zeta in F1, F2. destruct F1 as (A1 & A2 & A3). destruct F2 as (B1 & B2 & B3). rewrite ncells2 in B1, B3. rewrite nedges2 in B2. change (d_ncells (sdims S1)) with NC in *. change (d_nedges (sdims S1)) with (3 * NC) in *.
  destruct (Hy j Hj) as (Y1 & Y2 & Y3).
  assert (Yh : forall c, 0 <= c < NC -> fh y2 c j = (ah * fh y1 (sc c) (kl j))%R) by (intros c Hc; rewrite Y1 by exact Hc; rewrite Rmult_1_l; reflexivity).
  assert (Yv : forall e, 0 <= e < 3 * NC -> fv y2 e j = (a / b * sg e * fv y1 (se e) (kl j))%R) by (intros e He; rewrite Y2 by exact He; rewrite Rmult_1_l; reflexivity).
  set (h1 := fun c => fh y1 c (kl j) : R) in *. set (h2 := fun c => fh y2 c j : R) in *. set (u1 := fun e => fv y1 e (kl j) : R) in *. set (u2 := fun e => fv y2 e j : R) in *.
  assert (Em : forall e, 0 <= e < 3 * NC -> emean m2 h2 e = (ah * emean m1 h1 (se e))%R) by (intros e He; now apply (ms_emean _ _ _ _ _ _ _ _ _ M)).
  split; [|split].
  - intros c Hc. rewrite B1 by exact Hc. rewrite A1 by (now apply (ms_c _ _ _ _ _ _ _ _ _ M)). rewrite Edh, (Hkh m1 m2 time c R1 R2 Hc).
    destruct (disable_h P1); [rfield; exact Hb|].
    rewrite (ms_out _ _ _ _ _ _ _ _ _ M (ah * (a / b)) (fun e => emean m1 h1 e * fv y1 e (kl j))%R); [|intros e He; rewrite Em by exact He; rewrite Yv by exact He; rfield; exact Hb|exact Hc].
    rfield. split; assumption.
  - intros e He. rewrite B2 by exact He. rewrite A2 by (now apply (ms_e _ _ _ _ _ _ _ _ _ M)). rewrite Edv, (Hkv m1 m2 time e R1 R2 He).
    destruct (disable_vn P1) eqn:Dv; [rfield; exact Hb|]. specialize (Ef eq_refl). specialize (Eg eq_refl). specialize (Ev2 eq_refl). specialize (Ev4 eq_refl). specialize (E0 eq_refl).
    rewrite (sim_pvflux m1 m2 M ah (f0 P1) (f0 P2) h1 h2 u1 u2 Ef Hah Yh Yv e He), (sim_vlap m1 m2 M (a / b) u1 u2 Yv e He).
    rewrite (ms_grad _ _ _ _ _ _ _ _ _ M (a / b * (a / b)) (fun c => kin m1 u1 c + grav P1 * fh y1 c (kl j))%R); [|intros c Hc|exact He].
    2:{ rewrite (ms_kin _ _ _ _ _ _ _ _ _ M (a / b) u1 u2 Yv c Hc). rewrite Yh by exact Hc.
        replace (grav P2 : R) with (a * a * grav P1 / (ah * b * b))%R by (rewrite <- Eg; rfield; split; assumption). rfield. split; assumption. }
    set (u01 := fun e => fv y1 e (layer0 S1 (kl j)) : R). set (u02 := fun e => fv y2 e (layer0 S2 j) : R).
    assert (V4 : (Rmax 0 (visc_del4 P2) * (grad m2 (outflow m2 (vlap m2 u2)) e - rgrad m2 (vort m2 (vlap m2 u02)) e) = a / (b * b) * sg e * (Rmax 0 (visc_del4 P1) * (grad m1 (outflow m1 (vlap m1 u1)) (se e) - rgrad m1 (vort m1 (vlap m1 u01)) (se e))))%R).
    { destruct (Req_dec (Rmax 0 (visc_del4 P1)) 0) as [Z|N].
      - rewrite Z in Ev4 |- *. rewrite Rmult_0_r in Ev4. apply Rmult_integral in Ev4. destruct Ev4 as [X|X]; [rewrite X; ring|contradiction].
      - destruct (E0 N j Hj) as [L0 L1].
        assert (Y0 : forall e, 0 <= e < 3 * NC -> u02 e = (a / b * sg e * u01 (se e))%R).
        { intros e' He'. unfold u02, u01. rewrite <- L1. rewrite (proj1 (proj2 (Hy (layer0 S2 j) L0)) e' He'). ring. }
        rewrite (ms_grad _ _ _ _ _ _ _ _ _ M (/ b / (a * a)) (outflow m1 (vlap m1 u1))), (ms_rgrad _ _ _ _ _ _ _ _ _ M (w * (/ b / (a * a))) (vort m1 (vlap m1 u01))); try exact He.
        + replace (w * (w * (/ b / (a * a)) / a))%R with (w * w * (/ (b * (a * a * a))))%R by (rfield; split; assumption). rewrite Hw.
          replace (Rmax 0 (visc_del4 P2)) with (a * a * (a * a) * Rmax 0 (visc_del4 P1) / b)%R by (rewrite <- Ev4; rfield; exact Hb). rfield. split; assumption.
        + intros v Hv. rewrite (ms_vort _ _ _ _ _ _ _ _ _ M (/ b / a) (vlap m1 u01) (vlap m2 u02)); [rfield; split; assumption|intros e' He'|exact Hv].
          rewrite (sim_vlap m1 m2 M (a / b) u01 u02 Y0 e' He'). rfield. split; assumption.
        + intros c Hc. rewrite (ms_out _ _ _ _ _ _ _ _ _ M (/ b / a) (vlap m1 u1) (vlap m2 u2)); [rfield; split; assumption|intros e' He'|exact Hc].
          rewrite (sim_vlap m1 m2 M (a / b) u1 u2 Yv e' He'). rfield. split; assumption. }
    rewrite V4. replace (Rmax 0 (visc_del2 P2)) with (a * a * Rmax 0 (visc_del2 P1) / b)%R by (rewrite <- Ev2; rfield; exact Hb). rfield. split; assumption.
  - intros l c Hl Hc. rewrite B3 by (rewrite ?Ent; assumption). rewrite A3 by (try assumption; now apply (ms_c _ _ _ _ _ _ _ _ _ M)).
    set (r1 := fun c => (ft y1 l c (kl j) / fh y1 c (kl j))%R). set (r2 := fun c => (ft y2 l c j / fh y2 c j)%R).
    assert (Er : forall c, 0 <= c < NC -> r2 c = (at_ l / ah * r1 (sc c))%R).
    { intros c' Hc'. unfold r2, r1. rewrite Yh, Y3 by assumption. unfold Rdiv. rewrite !Rinv_mult. cbn [Arith.F RA]. ring. }
    assert (Eh : forall e, 0 <= e < 3 * NC -> (emean m2 h2 e * grad m2 r2 e = at_ l / a * sg e * (emean m1 h1 (se e) * grad m1 r1 (se e)))%R).
    { intros e He. rewrite Em, (ms_grad _ _ _ _ _ _ _ _ _ M (at_ l / ah) r1 r2 Er e He) by exact He. rfield. split; assumption. }
    assert (Eo : forall c, 0 <= c < NC -> outflow m2 (fun e => emean m2 h2 e * grad m2 r2 e)%R c = (at_ l / (a * a) * outflow m1 (fun e => emean m1 h1 e * grad m1 r1 e)%R (sc c))%R).
    { intros c' Hc'. rewrite (ms_out _ _ _ _ _ _ _ _ _ M (at_ l / a) (fun e => emean m1 h1 e * grad m1 r1 e)%R); [rfield; exact Ha|exact Eh|exact Hc']. }
    rewrite Eo by exact Hc.
    rewrite (ms_out _ _ _ _ _ _ _ _ _ M (a / b * at_ l) (fun e => emean m1 h1 e * fv y1 e (kl j) * emean m1 r1 e)%R); [|intros e He|exact Hc].
    2:{ rewrite Em, (ms_emean _ _ _ _ _ _ _ _ _ M (at_ l / ah) r1 r2 Er e He) by exact He. rewrite Yv by exact He. rfield. split; assumption. }
    rewrite (ms_out _ _ _ _ _ _ _ _ _ M (at_ l / (a * a * a)) (grad m1 (outflow m1 (fun e => emean m1 h1 e * grad m1 r1 e)%R))); [|intros e He|exact Hc].
    2:{ rewrite (ms_grad _ _ _ _ _ _ _ _ _ M (at_ l / (a * a)) _ _ Eo e He). rfield. exact Ha. }
    replace (Rmax 0 (eddy_diff2 P2)) with (a * a * Rmax 0 (eddy_diff2 P1) / b)%R by (rewrite <- Ed2; rfield; exact Hb).
    replace (Rmax 0 (eddy_diff4 P2)) with (a * a * (a * a) * Rmax 0 (eddy_diff4 P1) / b)%R by (rewrite <- Ed4; rfield; exact Hb). rfield. split; assumption.
Qed.

Lemma sim_add (x dt : R) y1 y2 k1 k2 : sim 1 y1 y2 -> sim (/ b) k1 k2 ->
  sim 1 (fmap2 (A:=RA) (fun u v => (u + dt * x * v)%R) y1 k1) (fmap2 (A:=RA) (fun u v => (u + b * dt * x * v)%R) y2 k2).
Proof using Hb.
  intros Y K j Hj. destruct (Y j Hj) as (A1 & A2 & A3). destruct (K j Hj) as (B1 & B2 & B3). cbn [fmap2 fh fv ft].
  split; [|split]; intros; [rewrite A1, B1 by assumption|rewrite A2, B2 by assumption|rewrite A3, B3 by assumption]; rfield; exact Hb.
Qed.
Lemma sim_acc (x : R) y1 y2 k1 k2 : x = 0%R \/ sim (/ b) y1 y2 -> sim (/ b) k1 k2 ->
  sim (/ b) (fmap2 (A:=RA) (fun u v => (x * u + v)%R) y1 k1) (fmap2 (A:=RA) (fun u v => (x * u + v)%R) y2 k2).
Proof using Hb.
  intros [->|Y] K j Hj; destruct (K j Hj) as (B1 & B2 & B3); cbn [fmap2 fh fv ft].
  - split; [|split]; intros; [rewrite B1 by assumption|rewrite B2 by assumption|rewrite B3 by assumption]; rfield; exact Hb.
  - destruct (Y j Hj) as (A1 & A2 & A3).
    split; [|split]; intros; [rewrite A1, B1 by assumption|rewrite A2, B2 by assumption|rewrite A3, B3 by assumption]; rfield; exact Hb.
Qed.
Definition scaled_steps (l : list (R * R)) : list (R * R) := map (fun s => (b * fst s, b * snd s)%R) l.

Lemma sim_rk4 steps : unforced S1 -> unforced S2 -> forall m1 m2 y1 y2, ready S1 m1 -> ready S2 m2 -> disabled_zero S1 Tend m1 -> disabled_zero S2 Tend m2 ->
  holds S1 St m1 y1 -> holds S2 St m2 y2 -> sim 1 y1 y2 ->
  exists z1 z2, holds S1 St (rk4_run_fn S1 steps m1) z1 /\ holds S2 St (rk4_run_fn S2 (scaled_steps steps) m2) z2 /\ sim 1 z1 z2.
Proof.
  intros U1 U2. induction steps as [|[t dt] l IH]; intros m1 m2 y1 y2 R1 R2 Z1 Z2 Y1 Y2 HS; [exists y1, y2; auto|].
  change (rk4_run_fn S1 ((t, dt) :: l) m1) with (rk4_run_fn S1 l (rk4_fn S1 t dt m1)).
  change (rk4_run_fn S2 (scaled_steps ((t, dt) :: l)) m2) with (rk4_run_fn S2 (scaled_steps l) (rk4_fn S2 (b * t)%R (b * dt)%R m2)).
  assert (T : forall i, (b * t + rk4_c (A:=RA) i * (b * dt) = b * (t + rk4_c (A:=RA) i * dt))%R) by (intros; rring).
  destruct (tendency_ex S1 Hok1 t y1) as [k1 K1]. destruct (tendency_ex S1 Hok1 (t + rk4_c (A:=RA) 0 * dt)%R (add (A:=RA) dt (rk4_a 0) y1 k1)) as [k2 K2].
  destruct (tendency_ex S1 Hok1 (t + rk4_c (A:=RA) 1 * dt)%R (add (A:=RA) dt (rk4_a 1) y1 k2)) as [k3 K3]. destruct (tendency_ex S1 Hok1 (t + rk4_c (A:=RA) 2 * dt)%R (add (A:=RA) dt (rk4_a 2) y1 k3)) as [k4 K4].
  destruct (tendency_ex S2 Hok2 (b * t)%R y2) as [g1 G1]. destruct (tendency_ex S2 Hok2 (b * t + rk4_c (A:=RA) 0 * (b * dt))%R (add (A:=RA) (b * dt)%R (rk4_a 0) y2 g1)) as [g2 G2].
  destruct (tendency_ex S2 Hok2 (b * t + rk4_c (A:=RA) 1 * (b * dt))%R (add (A:=RA) (b * dt)%R (rk4_a 1) y2 g2)) as [g3 G3]. destruct (tendency_ex S2 Hok2 (b * t + rk4_c (A:=RA) 2 * (b * dt))%R (add (A:=RA) (b * dt)%R (rk4_a 2) y2 g3)) as [g4 G4].
  destruct (rk4_holds S1 Hok1 t dt m1 y1 k1 k2 k3 k4 U1 R1 Y1 Z1 K1 K2 K3 K4) as (A1 & A2 & A3).
  destruct (rk4_holds S2 Hok2 (b * t)%R (b * dt)%R m2 y2 g1 g2 g3 g4 U2 R2 Y2 Z2 G1 G2 G3 G4) as (B1 & B2 & B3).
  refine (IH _ _ _ _ A3 B3 A2 B2 A1 B1 _). rewrite T in G2, G3, G4.
  pose proof (sim_tend t y1 y2 k1 g1 HS K1 G1) as D1.
  pose proof (sim_tend _ _ _ _ _ (sim_add (rk4_a (A:=RA) 0) dt _ _ _ _ HS D1) K2 G2) as D2.
  pose proof (sim_tend _ _ _ _ _ (sim_add (rk4_a (A:=RA) 1) dt _ _ _ _ HS D2) K3 G3) as D3.
  pose proof (sim_tend _ _ _ _ _ (sim_add (rk4_a (A:=RA) 2) dt _ _ _ _ HS D3) K4 G4) as D4.
  exact (sim_add _ _ _ _ _ _ (sim_add _ _ _ _ _ _ (sim_add _ _ _ _ _ _ (sim_add _ _ _ _ _ _ HS D1) D2) D3) D4).
Qed.
Lemma sim_lsrk n steps : forall m1 m2 y1 y2, ready S1 m1 -> ready S2 m2 -> 
  holds S1 St m1 y1 -> holds S2 St m2 y2 -> sim 1 y1 y2 ->
  exists z1 z2, holds S1 St (lsrk_run_fn S1 n steps m1) z1 /\ holds S2 St (lsrk_run_fn S2 n (scaled_steps steps) m2) z2 /\ sim 1 z1 z2.
Proof.
  induction steps as [|[t dt] l IH]; intros m1 m2 y1 y2 R1 R2 Y1 Y2 HS; [exists y1, y2; auto|].
  change (lsrk_run_fn S1 n ((t, dt) :: l) m1) with (lsrk_run_fn S1 n l (lsrk_fn S1 n t dt m1)).
  change (lsrk_run_fn S2 n (scaled_steps ((t, dt) :: l)) m2) with (lsrk_run_fn S2 n (scaled_steps l) (lsrk_fn S2 n (b * t)%R (b * dt)%R m2)).
  assert (C : n <= 0 \/ 0 <= n) by lia. destruct C as [C|Hn].
  { unfold lsrk_fn. rewrite zseq_neg by exact C. cbn [fold_left]. eapply IH; eassumption. }
  destruct (stages_ex S1 Hok1 n t dt y1 (fld Tend m1) Hn) as (Ya & Qa & Ka & EYa & EQa & Ha'). destruct (stages_ex S2 Hok2 n (b * t) (b * dt) y2 (fld Tend m2) Hn) as (Yb & Qb & Kb & EYb & EQb & Hb').
  destruct (lsrk_holds S1 Hok1 n t dt m1 Ya Qa Ka Hn R1) as (A1 & A2 & _); [rewrite EYa; exact Y1|rewrite EQa; apply holds_fld|exact Ha'|].
  destruct (lsrk_holds S2 Hok2 n (b * t) (b * dt) m2 Yb Qb Kb Hn R2) as (B1 & B2 & _); [rewrite EYb; exact Y2|rewrite EQb; apply holds_fld|exact Hb'|].
  refine (IH _ _ _ _ A1 B1 A2 B2 _).
  assert (G : forall j, 0 <= j -> j <= n -> sim 1 (Ya j) (Yb j) /\ (j = 0 \/ sim (/ b) (Qa j) (Qb j))); [|apply (G n Hn); lia].
  apply (natlike_ind (fun j => j <= n -> sim 1 (Ya j) (Yb j) /\ (j = 0 \/ sim (/ b) (Qa j) (Qb j)))).
  - intros _. rewrite EYa, EYb. auto.
  - intros j Hj G Hjn. destruct (G ltac:(lia)) as [GY GQ]. unfold Z.succ. destruct (Ha' j ltac:(lia)) as (H1 & H2 & H3). destruct (Hb' j ltac:(lia)) as (I1 & I2 & I3).
    assert (T : (b * t + lsrk_c (A:=RA) n j * (b * dt) = b * (t + lsrk_c (A:=RA) n j * dt))%R) by rring. rewrite T in I1.
    pose proof (sim_tend _ _ _ _ _ GY H1 I1) as D1.
    assert (Q : sim (/ b) (Qa (j + 1)) (Qb (j + 1))).
    { rewrite H2, I2. apply sim_acc; [|exact D1]. destruct GQ as [->|GQ]; [left; apply lsrk_a0|now right]. }
    split; [|now right]. rewrite H3, I3. apply sim_add; assumption.
Qed.
Lemma sim_run st steps m1 m2 y1 y2 m1' m2' : unforced S1 -> unforced S2 -> ready S1 m1 -> ready S2 m2 -> disabled_zero S1 Tend m1 -> disabled_zero S2 Tend m2 ->
  holds S1 St m1 y1 -> holds S2 St m2 y2 -> sim 1 y1 y2 ->
  exec (sdims S1) (stepper_run S1 st steps) m1 (OK m1') -> exec (sdims S2) (stepper_run S2 st (scaled_steps steps)) m2 (OK m2') -> 
  exists z1 z2, holds S1 St m1' z1 /\ holds S2 St m2' z2 /\ sim 1 z1 z2.
Proof.
  intros U1 U2 R1 R2 Z1 Z2 Y1 Y2 HS X1 X2.
  pose proof (hs_stepper_run S1 Hok1 st steps m1 (ready_wfm S1 Hok1 m1 R1)) as G1. apply hsafe_always in G1. destruct G1 as [G1 _]. destruct (G1 _ X1) as (n1 & E1 & M1). injection E1 as <-.
  pose proof (hs_stepper_run S2 Hok2 st (scaled_steps steps) m2 (ready_wfm S2 Hok2 m2 R2)) as G2. apply hsafe_always in G2. destruct G2 as [G2 _]. destruct (G2 _ X2) as (n2 & E2 & M2). injection E2 as <-.
  assert (G : exists z1 z2, holds S1 St (run_fn S1 st steps m1) z1 /\ holds S2 St (run_fn S2 st (scaled_steps steps) m2) z2 /\ sim 1 z1 z2).
  { destruct st; cbn [run_fn]; [eapply sim_rk4|eapply sim_lsrk]; eassumption. }
  destruct G as (z1 & z2 & H1 & H2 & H3). exists z1, z2. split; [eapply holds_meq; [apply meq_sym; exact M1|exact H1]|]. split; [eapply holds_meq; [apply meq_sym; exact M2|exact H2]|exact H3].
Qed.
End Similar.
