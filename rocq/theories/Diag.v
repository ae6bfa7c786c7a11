(** The diagnostics in exact arithmetic: every order of the reductions gives the exact sum. *)
From Coq Require Import ZArith Reals List Bool Lia Lra Permutation.
From Verif Require Import Arith Arrays Prog Conc Launch Mesh AuxVars Tend Model Hex RSum Spec MeshProof MeshMem Over Formulas RealOps KernBase Terms KernAux KernTend TendFn StepFn Ready SumParts RealTend.
Import ListNotations.
Open Scope Z_scope.

Lemma reduces_sum D (m : mem RA) body l r (f : Z -> R) :
  (forall i (x : R), In i l -> exists m', run D (body i x) m = Some ((x + f i)%R, m')) ->
  reduces D m body l r -> r = Some (Rsum l f).
Proof.
  intros Hb H. induction H as [l r H|l1 l2 r1 r2 H1 IH1 H2 IH2|l l' r H1 H2 IH].
  - subst r. cut (forall a : R, fold_left (fun acc i => match acc with
        | Some x => match run D (body i x) m with Some (y, _) => Some y | None => None end
        | None => None end) l (Some a) = Some (a + Rsum l f)%R).
    { intros E. rewrite E. cbn [fofZ RA]. f_equal. lra. }
    induction l as [|i l IH]; intros a; cbn [fold_left].
    + cbn. f_equal. lra.
    + destruct (Hb i a) as [m' E]; [now left|]. rewrite E. rewrite IH by (intros; apply Hb; now right). f_equal. cbn. fold (Rsum l f). lra.
  - rewrite IH1, IH2 by (intros; apply Hb, in_or_app; auto). rewrite Rsum_app. reflexivity.
  - rewrite IH by (intros; apply Hb; eapply Permutation_in; eauto). f_equal. now apply Rsum_perm.
Qed.
Lemma reduces_ex {A} D (m : mem A) body l : exists r, reduces D m body l r.
Proof. eexists. now apply red_leaf. Qed.

Section Diag.
Context (S : setup RA) (Hok : setup_ok S).
Local Notation cf := (cfg_of S).
Local Notation P := (par_of S).
Local Notation h := (mesh_of_setup S).
Local Notation D := (sdims S).
Local Notation NC := (nx h * ny h).
Local Notation NL := (d_nlayers D).
Let Hm0 : mesh_ok cf h := proj1 Hok.
Let Hd : wfd cf D := ok_wfd S Hok.
Context (m : mem RA) (Hr : ready S m) (s : sid).
Let Hh : hexmem h NL m := ready_hex S Hok m Hr.
Let Hw : wfm D m := ready_wfm S Hok m Hr.
Local Notation ri b ix := (mi m b ix%Z).
Local Notation rr b ix := (mr m b ix%Z : R).
Let any : loc -> Prop := fun _ => True.

Lemma NL_nonneg : 0 <= NL.
Proof. rewrite (wd_nl _ _ Hd). pose proof (wd_vl _ _ Hd). pose proof (wd_nlv _ _ Hd). nia. Qed.

Ltac rd := apply safe_bind; first [apply safe_rdi | apply safe_rdr]; [cbn [validb rext iext]; first [apply inb1; first [assumption | lia] | apply inb2; split; first [assumption | lia]] | exact I | cbv beta].

Lemma mass_body c (x : R) : 0 <= c < NC -> exists m', run D (column_mass (A:=RA) s c x) m = Some ((x + rsum NL (fun k => rr AreaCell [c] * rr (HCell s) [c; k]))%R, m').
Proof.
  intros Hc.
  assert (H : safe D (column_mass s c (x : F RA)) m any any (fun y _ => y = (x + rsum NL (fun k => rr AreaCell [c] * rr (HCell s) [c; k]))%R)).
  { unfold column_mass. rd. rewrite (hm_mlc _ _ _ Hh) by assumption.
    apply safe_for_ro with (g := fun k (y : F RA) => (y + rr AreaCell [c] * rr (HCell s) [c; k])%R); [apply NL_nonneg| |].
    - intros k y Hk. rd. rd. apply safe_ret. split; reflexivity.
    - now apply (iterZ_rsum NL). }
  destruct (safe_run _ _ _ _ _ _ H) as (y & m' & E & ->). eauto.
Qed.

(** Energy of a cell and layer, divided by the area. *)
Definition ecell (c k : Z) : R :=
  (grav P * rr (HCell s) [c; k] * rr (HCell s) [c; k] / 2 + rr (HCell s) [c; k] * kin m (fun e => rr (VnEdge s) [e; k]) c)%R.
Lemma energy_body c (x : R) : 0 <= c < NC -> exists m', run D (column_energy S s c x) m = Some ((x + rsum NL (fun k => rr AreaCell [c] * ecell c k))%R, m').
Proof.
  intros Hc.
  assert (H : safe D (column_energy S s c (x : F RA)) m any any (fun y _ => y = (x + rsum NL (fun k => rr AreaCell [c] * ecell c k))%R)).
  { unfold column_energy. rd. rewrite (hm_mlc _ _ _ Hh) by assumption.
    apply safe_for_ro with (g := fun k (y : F RA) => (y + rr AreaCell [c] * ecell c k)%R); [apply NL_nonneg| |].
    - intros k y Hk. rd. apply safe_bind.
      apply safe_for_ro with (g := fun j (K : F RA) => let e := ri EdgesOnCell [c; j] in (K + rr DvEdge [e] * rr DcEdge [e] * (rr (VnEdge s) [e; k] * rr (VnEdge s) [e; k]) / 4)%R).
      + rewrite (hm_noc _ _ _ Hh) by assumption. lia.
      + intros j K Hj. rewrite (hm_noc _ _ _ Hh) in Hj by assumption. rd.
        pose proof (wf_eoc _ _ Hw c j Hc Hj) as He. do 4 rd. apply safe_ret. split; [|reflexivity].
        cbn [fadd fmul fdiv fofZ RA F]. unfold Rdiv. apply Rminus_diag_uniq. ring.
      + do 5 rd. apply safe_ret. split; [|reflexivity].
        rewrite (iterZ_rsum _ _ (fun j => let e := ri EdgesOnCell [c; j] in / 4 * (rr DvEdge [e] * rr DcEdge [e] * (rr (VnEdge s) [e; k] * rr (VnEdge s) [e; k])))%R).
        2:{ intros j K. cbv zeta. unfold Rdiv. ring. }
        cbv zeta. rewrite rsum_scal. unfold ecell, kin. cbv zeta. cbn [fadd fmul fdiv fofZ RA F]. unfold Rdiv. apply Rminus_diag_uniq. ring.
    - now apply (iterZ_rsum NL). }
  destruct (safe_run _ _ _ _ _ _ H) as (y & m' & E & ->). eauto.
Qed.

Lemma circulation_body v (x : R) : 0 <= v < 2 * NC -> exists m', run D (column_circulation (A:=RA) s v x) m =
  Some ((x + rsum NL (fun k => circ m (fun e => rr (VnEdge s) [e; k]) v + f0 P * rr AreaTriangle [v]))%R, m').
Proof.
  intros Hc.
  assert (H : safe D (column_circulation s v (x : F RA)) m any any (fun y _ => y = (x + rsum NL (fun k => circ m (fun e => rr (VnEdge s) [e; k]) v + f0 P * rr AreaTriangle [v]))%R)).
  { unfold column_circulation. rd. rewrite (hm_mlvb _ _ _ Hh) by assumption.
    apply safe_for_ro with (g := fun k (y : F RA) => (y + (circ m (fun e => rr (VnEdge s) [e; k]) v + f0 P * rr AreaTriangle [v]))%R); [apply NL_nonneg| |].
    - intros k y Hk. apply safe_bind.
      apply safe_for_ro with (g := fun j (K : F RA) => let e := ri EdgesOnVertex [v; j] in (K + rr EdgeSignOnVertex [v; j] * rr DcEdge [e] * rr (VnEdge s) [e; k])%R).
      + lia.
      + intros j K Hj. rd.
        pose proof (wf_eov _ _ Hw v j Hc Hj) as He. do 3 rd. apply safe_ret. split; [|reflexivity].
        cbn [fadd fmul fdiv fofZ RA F]. unfold Rdiv. apply Rminus_diag_uniq. ring.
      + rd. rd. apply safe_ret. split; [|reflexivity]. rewrite (ready_fv S Hok) by assumption.
        rewrite (iterZ_rsum _ _ (fun j => let e := ri EdgesOnVertex [v; j] in (rr EdgeSignOnVertex [v; j] * rr DcEdge [e] * rr (VnEdge s) [e; k]))%R).
        2:{ intros j K. reflexivity. }
        unfold circ. cbv zeta. cbn [fadd fmul fdiv fofZ RA F]. unfold Rdiv. apply Rminus_diag_uniq. ring.
    - now apply (iterZ_rsum NL). }
  destruct (safe_run _ _ _ _ _ _ H) as (y & m' & E & ->). eauto.
Qed.

Lemma mass_sum r : mass_integral S s m r ->
  r = Some (rsum NC (fun c => rsum NL (fun k => rr AreaCell [c] * rr (HCell s) [c; k])))%R.
Proof.
  unfold mass_integral. apply reduces_sum. intros c x Hc. apply in_zseq in Hc. now apply mass_body.
Qed.
Lemma energy_sum r : energy_integral S s m r -> r = Some (rsum NC (fun c => rsum NL (fun k => rr AreaCell [c] * ecell c k)))%R.
Proof.
  unfold energy_integral. apply reduces_sum. intros c x Hc. apply in_zseq in Hc. now apply energy_body.
Qed.
Lemma circulation_sum r : circulation_integral S s m r ->
  r = Some (rsum (2 * NC) (fun v => rsum NL (fun k => circ m (fun e => rr (VnEdge s) [e; k]) v + f0 P * rr AreaTriangle [v])))%R.
Proof.
  unfold circulation_integral. apply reduces_sum. intros c x Hc. apply in_zseq in Hc. now apply circulation_body.
Qed.
End Diag.
