(** The discrete equations. *)
From Coq Require Import ZArith Reals List Bool Lia Lra.
From Verif Require Import Arith Arrays Prog Conc Launch Mesh AuxVars Tend Model RSum Spec MeshProof Ready Relate StepVal EqThms PropsCons.
Import ListNotations.
Open Scope Z_scope.

(** C59: what compute_tendency leaves in the tendency arrays in exact arithmetic, for every build, mesh, parameter set, mode and schedule.  [h], [u], [r] are the thickness, the normal velocity and the tracer concentration in layer [k] of the state passed in; the operators on the right are those of [Spec.v].  With OMEGA_KOKKOS_SIMD the vorticity used in the hyperviscosity is that of layer [k0], the first one of the vector that contains [k] (see C19); otherwise [k0 = k]. *)
Theorem C59_tendency_is_the_discrete_equations :
  forall (S : setup RA), setup_ok S -> (0 < (dc (mesh_of_setup S) : R))%R ->
  forall (t s : sid) (time : R) (md : add_mode) (m : mem RA), s <> t -> ready S m ->
  always (sdims S) (compute_tendency S t s time md) m (fun m' => forall k, 0 <= k < d_nlayers (sdims S) ->
    let P := par_of S in
    let k0 := if ksimd (cfg_of S) then k / lanes (cfg_of S) * lanes (cfg_of S) else k in
    let h := fun c => mr m (HCell s) [c; k] : R in
    let u := fun e => mr m (VnEdge s) [e; k] : R in
    let u0 := fun e => mr m (VnEdge s) [e; k0] : R in
    let base := fun (off : bool) (x : R) => match off, md with false, Replace => 0%R | _, _ => x end in
    (forall c, 0 <= c < d_ncells (sdims S) ->
       mr m' (HCell t) [c; k] =
       (base (disable_h P) (mr m (HCell t) [c; k])
        - (if disable_h P then 0 else outflow m (fun e => emean m h e * u e) c)
        + match hook S with None => 0 | Some f => force_h f (mr m XCell [c]) (mr m YCell [c]) time end)%R) /\
    (forall e, 0 <= e < d_nedges (sdims S) ->
       mr m' (VnEdge t) [e; k] =
       (base (disable_vn P) (mr m (VnEdge t) [e; k])
        + (if disable_vn P then 0 else
             pvflux m (f0 P) h u e - grad m (fun c => kin m u c + grav P * h c) e
             + (if Rlt_dec 0 (visc_del2 P) then visc_del2 P * vlap m u e else 0)
             - (if Rlt_dec 0 (visc_del4 P) then visc_del4 P * (grad m (outflow m (vlap m u)) e - rgrad m (vort m (vlap m u0)) e) else 0))
        + match hook S with None => 0 | Some f =>
            cos (mr m AngleEdge [e]) * force_vx f (mr m XEdge [e]) (mr m YEdge [e]) time
            + sin (mr m AngleEdge [e]) * force_vy f (mr m XEdge [e]) (mr m YEdge [e]) time end)%R) /\
    (forall l c, 0 <= l < ntracers P -> 0 <= c < d_ncells (sdims S) ->
       let r := fun c => (mr m (TrCell s) [l; c; k] / mr m (HCell s) [c; k])%R in
       let hgrad := fun e => (emean m h e * grad m r e)%R in
       mr m' (TrCell t) [l; c; k] =
       (base false (mr m (TrCell t) [l; c; k])
        - outflow m (fun e => emean m h e * u e * emean m r e) c
        + (if Rlt_dec 0 (eddy_diff2 P) then eddy_diff2 P * outflow m hgrad c else 0)
        - (if Rlt_dec 0 (eddy_diff4 P) then eddy_diff4 P * outflow m (grad m (outflow m hgrad)) c else 0))%R)).
Proof. exact C59_tendency_is_the_discrete_equations_proof. Qed.
Print Assumptions C59_tendency_is_the_discrete_equations.

(** Non-vacuity: [S24] has all terms on and tracers. *)
Example C59_applies : setup_ok S24 /\ (0 < (dc (mesh_of_setup S24) : R))%R /\ exists m, ready S24 m.
Proof. split; [apply ok24|]. split; [cbn; lra|]. destruct (any24 (fun _ _ => 0%R)) as (m & H). exists m. apply H. Qed.

