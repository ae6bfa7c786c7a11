(** Proofs of the properties of [PropsEq.v]. *)
From Coq Require Import ZArith Reals List Bool Lia Lra.
From Verif Require Import Arith Arrays Prog Conc Launch Mesh AuxVars Tend Model Hex RSum Spec MeshProof MeshMem Over Formulas KernBase Terms KernAux KernTend TendFn StepFn Ready Rel RelRun Relate TendVal StepVal RealTend.
Import ListNotations.
Open Scope Z_scope.

Lemma C59_tendency_is_the_discrete_equations_proof :
  forall (S : setup RA), setup_ok S -> (0 < (dc (mesh_of_setup S) : R))%R ->
  forall (t s : sid) (time : R) (md : add_mode) (m : mem RA), s <> t -> ready S m ->
  always (sdims S) (compute_tendency S t s time md) m (fun m' => forall k, 0 <= k < d_nlayers (sdims S) ->
    let P := par_of S in
    let k0 := if ksimd (cfg_of S) then k / lanes (cfg_of S) * lanes (cfg_of S) else k in
    let h := fun c => mr m (HCell s) [c; k] : R in
    let u := fun e => mr m (VnEdge s) [e; k] : R in
    let u0 := fun e => mr m (VnEdge s) [e; k0] : R in
    let base := fun (off : bool) (x : R) => match off, md with false, Replace => 0%R | _, _ => x end in
    (forall c, 0 <= c < d_ncells (sdims S) ->
       mr m' (HCell t) [c; k] =
       (base (disable_h P) (mr m (HCell t) [c; k])
        - (if disable_h P then 0 else outflow m (fun e => emean m h e * u e) c)
        + match hook S with None => 0 | Some f => force_h f (mr m XCell [c]) (mr m YCell [c]) time end)%R) /\
    (forall e, 0 <= e < d_nedges (sdims S) ->
       mr m' (VnEdge t) [e; k] =
       (base (disable_vn P) (mr m (VnEdge t) [e; k])
        + (if disable_vn P then 0 else
             pvflux m (f0 P) h u e - grad m (fun c => kin m u c + grav P * h c) e
             + (if Rlt_dec 0 (visc_del2 P) then visc_del2 P * vlap m u e else 0)
             - (if Rlt_dec 0 (visc_del4 P) then visc_del4 P * (grad m (outflow m (vlap m u)) e - rgrad m (vort m (vlap m u0)) e) else 0))
        + match hook S with None => 0 | Some f =>
            cos (mr m AngleEdge [e]) * force_vx f (mr m XEdge [e]) (mr m YEdge [e]) time
            + sin (mr m AngleEdge [e]) * force_vy f (mr m XEdge [e]) (mr m YEdge [e]) time end)%R) /\
    (forall l c, 0 <= l < ntracers P -> 0 <= c < d_ncells (sdims S) ->
       let r := fun c => (mr m (TrCell s) [l; c; k] / mr m (HCell s) [c; k])%R in
       let hgrad := fun e => (emean m h e * grad m r e)%R in
       mr m' (TrCell t) [l; c; k] =
       (base false (mr m (TrCell t) [l; c; k])
        - outflow m (fun e => emean m h e * u e * emean m r e) c
        + (if Rlt_dec 0 (eddy_diff2 P) then eddy_diff2 P * outflow m hgrad c else 0)
        - (if Rlt_dec 0 (eddy_diff4 P) then eddy_diff4 P * outflow m (grad m (outflow m hgrad)) c else 0))%R)).
Proof.
  intros S Hok Hdc t s time md m Hst Hr. eapply always_fn; [apply rd_tendency; auto|]. intros M [_ E] k Hk.
  cbv zeta.
  assert (L : rv_layer (cfg_of S) k = if ksimd (cfg_of S) then k / lanes (cfg_of S) * lanes (cfg_of S) else k).
  { destruct Hok as (_ & _ & H). unfold rv_layer. destruct (ksimd (cfg_of S)); [|reflexivity]. now rewrite H. }
  rewrite <- L. repeat split; intros.
  - rewrite E, (T_h S Hok m Hr s k Hk t time md c H). unfold hk_h, zr, hook_h.
    destruct (hook S), (disable_h (par_of S)), md; cbn [is_replace fofZ fadd RA F]; apply Rminus_diag_uniq; ring.
  - rewrite E, (T_v S Hok Hdc m Hr s k Hk t time md e Hst H). unfold hk_v, zr, hook_v, vtend, vlap'.
    unfold vel_diff_enabled, vel_hyperdiff_enabled. cbn [flt fofZ RA].
    assert (G : grad m (fun c => kin m (fun e => mr m (VnEdge s) [e; k]) c + grav (par_of S) * mr m (HCell s) [c; k])%R e =
      (grad m (kin m (fun e => mr m (VnEdge s) [e; k])) e + grav (par_of S) * grad m (fun c => mr m (HCell s) [c; k]) e)%R).
    { unfold grad, Rdiv. cbn [F RA]. ring. }
    rewrite G. destruct (Rlt_dec 0 (visc_del2 (par_of S))), (Rlt_dec 0 (visc_del4 (par_of S)));
    destruct (hook S), (disable_vn (par_of S)), md; cbn [is_replace fofZ fadd fmul fcos fsin RA F]; apply Rminus_diag_uniq; ring.
  - rewrite E, (T_tr S Hok m Hr s k Hk t time md l c Hst H H0). unfold zr, ttend. cbv zeta.
    unfold tracer_diff_enabled, tracer_hyperdiff_enabled. cbn [flt fofZ RA].
    destruct (Rlt_dec 0 (eddy_diff2 (par_of S))), (Rlt_dec 0 (eddy_diff4 (par_of S))), md; cbn [is_replace fofZ fadd fmul RA F]; apply Rminus_diag_uniq; ring.
Qed.

