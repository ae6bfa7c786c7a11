(** The mesh operators and the tendency as approximations of the differential operators and equations.
    [smooth n f]: all partial derivatives of [f] up to order [n] exist and are bounded; [is_dx], [is_dy]: partial derivatives;
    [periodic px py f]: [f] has the periods [px] and [py]; the operators with a spacing [d] are those of [Stencil.v]. *)
From Coq Require Import ZArith Reals List Bool Lia Lra.
From Verif Require Import Arith Arrays Prog Conc Launch Mesh AuxVars Tend Model RSum Spec MeshProof Ready Relate StepVal Deriv Stencil Taylor Accur Accur3 Sample Waves PropsMesh PropsCons ConsistThms.
Import ListNotations.
Open Scope Z_scope.

(** C60: the gradient of and the mean over the values of a smooth field at the cell centres are within [C d^2] of its normal derivative and of its value at the edge.  [C] depends on the field only: the bound holds for the finite difference formula at every point of the plane and every spacing [d], and on every mesh with an even number of rows the operator is that formula. *)
Theorem C60_gradient_and_mean_second_order :
  forall F Fx Fy : fn2, smooth 4 F -> is_dx F Fx -> is_dy F Fy ->
  exists C : R,
  (forall d q x y, d <> 0%R -> 0 <= q < 3 ->
     (Rabs (Gr d F q x y - (cq q * Fx x y + sq q * Fy x y)) <= C * d ^ 2)%R /\ (Rabs (Me d F q x y - F x y) <= C * d ^ 2)%R) /\
  (forall (cf : config) (h : hexargs RA), mesh_ok cf h -> 2 <= nx h -> Z.even (ny h) = true -> (0 < (dc h : R))%R ->
   periodic (period_x h) (period_y h) F ->
   always (dims_of cf h 0) (mesh_ctor cf h) (mzero RA) (fun m =>
     let phi := fun c => F (mr m XCell [c]) (mr m YCell [c]) in
     forall e, 0 <= e < 3 * (nx h * ny h) ->
       let x := (mr m XEdge [e] : R) in let y := (mr m YEdge [e] : R) in let a := (mr m AngleEdge [e] : R) in
       grad m phi e = Gr (dc h) F (e mod 3) x y /\ emean m phi e = Me (dc h) F (e mod 3) x y /\
       (Rabs (grad m phi e - (cos a * Fx x y + sin a * Fy x y)) <= C * dc h ^ 2)%R /\
       (Rabs (emean m phi e - F x y) <= C * dc h ^ 2)%R)).
Proof. exact C60_gradient_and_mean_second_order_proof. Qed.
Print Assumptions C60_gradient_and_mean_second_order.

Example C60_mesh_exists : exists (cf : config) (h : hexargs RA), mesh_ok cf h /\ 2 <= nx h /\ Z.even (ny h) = true /\ (0 < (dc h : R))%R.
Proof. exists ex_cf, ex_h. split; [exact ex_ok|]. split; [cbn; lia|]. split; [reflexivity|cbn; lra]. Qed.

(** The divergence of the normal components of a smooth vector field. *)
Theorem C60_divergence_second_order :
  forall U V Ux Vy : fn2, smooth 4 U -> smooth 4 V -> is_dx U Ux -> is_dy V Vy ->
  exists C : R,
  (forall d x y, d <> 0%R -> (Rabs (Ou d (nvec U V) x y - (Ux x y + Vy x y)) <= C * d ^ 2)%R) /\
  (forall (cf : config) (h : hexargs RA), mesh_ok cf h -> 2 <= nx h -> Z.even (ny h) = true -> (0 < (dc h : R))%R ->
   periodic (period_x h) (period_y h) U -> periodic (period_x h) (period_y h) V ->
   always (dims_of cf h 0) (mesh_ctor cf h) (mzero RA) (fun m =>
     let u := fun e => (cos (mr m AngleEdge [e]) * U (mr m XEdge [e]) (mr m YEdge [e]) + sin (mr m AngleEdge [e]) * V (mr m XEdge [e]) (mr m YEdge [e]))%R in
     forall c, 0 <= c < nx h * ny h ->
       let x := (mr m XCell [c] : R) in let y := (mr m YCell [c] : R) in
       outflow m u c = Ou (dc h) (nvec U V) x y /\
       (Rabs (outflow m u c - (Ux x y + Vy x y)) <= C * dc h ^ 2)%R)).
Proof. exact C60_divergence_second_order_proof. Qed.
Print Assumptions C60_divergence_second_order.

(** The tangential component reconstructed from the normal components of a smooth vector field. *)
Theorem C60_reconstruction_second_order :
  forall U V : fn2, smooth 5 U -> smooth 5 V ->
  exists C : R,
  (forall d q x y, d <> 0%R -> 0 <= q < 3 -> (Rabs (Re d (nvec U V) q x y - (- sq q * U x y + cq q * V x y)) <= C * d ^ 2)%R) /\
  (forall (cf : config) (h : hexargs RA), mesh_ok cf h -> 2 <= nx h -> Z.even (ny h) = true -> (0 < (dc h : R))%R ->
   periodic (period_x h) (period_y h) U -> periodic (period_x h) (period_y h) V ->
   always (dims_of cf h 0) (mesh_ctor cf h) (mzero RA) (fun m =>
     let u := fun e => (cos (mr m AngleEdge [e]) * U (mr m XEdge [e]) (mr m YEdge [e]) + sin (mr m AngleEdge [e]) * V (mr m XEdge [e]) (mr m YEdge [e]))%R in
     forall e, 0 <= e < 3 * (nx h * ny h) ->
       let x := (mr m XEdge [e] : R) in let y := (mr m YEdge [e] : R) in let a := (mr m AngleEdge [e] : R) in
       recon m u e = Re (dc h) (nvec U V) (e mod 3) x y /\
       (Rabs (recon m u e - (- sin a * U x y + cos a * V x y)) <= C * dc h ^ 2)%R)).
Proof. exact C60_reconstruction_second_order_proof. Qed.
Print Assumptions C60_reconstruction_second_order.

(** The vorticity of the normal components of a smooth vector field: first order, and the exact first order error, of opposite sign at the two vertices of a cell column (even and odd vertices). *)
Theorem C60_curl_first_order :
  forall U V Ux Uy Vx Uxx Uyy Vxy : fn2, smooth 4 U -> smooth 4 V ->
  is_dx U Ux -> is_dy U Uy -> is_dx V Vx -> is_dx Ux Uxx -> is_dy Uy Uyy -> is_dy Vx Vxy ->
  exists C : R,
  (forall d p x y, d <> 0%R ->
    (Rabs (Vo d (nvec U V) p x y - (Vx x y - Uy x y) - sg p * d / (8 * sqrt 3) * (Uyy x y - Uxx x y + 2 * Vxy x y)) <= C * d ^ 2)%R) /\
  (forall (cf : config) (h : hexargs RA), mesh_ok cf h -> 2 <= nx h -> Z.even (ny h) = true -> (0 < (dc h : R))%R ->
   periodic (period_x h) (period_y h) U -> periodic (period_x h) (period_y h) V ->
   always (dims_of cf h 0) (mesh_ctor cf h) (mzero RA) (fun m =>
     let u := fun e => (cos (mr m AngleEdge [e]) * U (mr m XEdge [e]) (mr m YEdge [e]) + sin (mr m AngleEdge [e]) * V (mr m XEdge [e]) (mr m YEdge [e]))%R in
     forall v, 0 <= v < 2 * (nx h * ny h) ->
       let x := (mr m XVertex [v] : R) in let y := (mr m YVertex [v] : R) in
       vort m u v = Vo (dc h) (nvec U V) (v mod 2) x y /\
       (Rabs (vort m u v - (Vx x y - Uy x y)
              - (if Z.even v then 1 else -1) * dc h / (8 * sqrt 3) * (Uyy x y - Uxx x y + 2 * Vxy x y)) <= C * dc h ^ 2)%R)).
Proof. exact C60_curl_first_order_proof. Qed.
Print Assumptions C60_curl_first_order.

(** C61: the tendency of a state that samples smooth fields is within [C d^2] of the right hand sides of the shallow water equations (flux form for the thickness, advective form for the velocity), plus the forcing; no viscosity.  [C] depends on the fields, the Coriolis parameter and gravity only: see C60. *)
Theorem C61_tendency_consistent :
  forall (h U V hx hy Ux Uy Vx Vy hUx hVy : fn2) (hmin f g : R),
  smooth 5 h -> smooth 5 U -> smooth 5 V ->
  is_dx h hx -> is_dy h hy -> is_dx U Ux -> is_dy U Uy -> is_dx V Vx -> is_dy V Vy ->
  is_dx (fun x y => h x y * U x y)%R hUx -> is_dy (fun x y => h x y * V x y)%R hVy ->
  (0 < hmin)%R -> (forall x y, hmin <= h x y)%R ->
  let au := fun x y => (- (U x y * Ux x y + V x y * Uy x y) + f * V x y - g * hx x y)%R in
  let av := fun x y => (- (U x y * Vx x y + V x y * Vy x y) - f * U x y - g * hy x y)%R in
  exists C : R,
  (forall d x y, d <> 0%R -> (Rabs (Ou d (fun q x y => Me d h q x y * nvec U V q x y) x y - (hUx x y + hVy x y)) <= C * d ^ 2)%R) /\
  (forall d q x y, d <> 0%R -> 0 <= q < 3 ->
     (Rabs (Pf d f h (nvec U V) q x y - Gr d (fun x y => Ki d (nvec U V) x y + g * h x y) q x y - (cq q * au x y + sq q * av x y)) <= C * d ^ 2)%R) /\
  (forall S : setup RA, setup_ok S ->
   let h0 := mesh_of_setup S in
   2 <= nx h0 -> Z.even (ny h0) = true -> (0 < (dc h0 : R))%R ->
   periodic (period_x h0) (period_y h0) h -> periodic (period_x h0) (period_y h0) U -> periodic (period_x h0) (period_y h0) V ->
   f0 (par_of S) = f -> grav (par_of S) = g -> disable_h (par_of S) = false -> disable_vn (par_of S) = false ->
   (visc_del2 (par_of S) <= 0)%R -> (visc_del4 (par_of S) <= 0)%R ->
   forall (t s : sid) (time : R) (m : mem RA) (k : Z), s <> t -> ready S m -> 0 <= k < d_nlayers (sdims S) ->
   (forall c, 0 <= c < d_ncells (sdims S) -> mr m (HCell s) [c; k] = h (mr m XCell [c]) (mr m YCell [c])) ->
   (forall e, 0 <= e < d_nedges (sdims S) -> mr m (VnEdge s) [e; k] =
      (cos (mr m AngleEdge [e]) * U (mr m XEdge [e]) (mr m YEdge [e]) + sin (mr m AngleEdge [e]) * V (mr m XEdge [e]) (mr m YEdge [e]))%R) ->
   let fh := fun x y => match hook S with None => 0%R | Some w => force_h w x y time end in
   let fx := fun x y => match hook S with None => 0%R | Some w => force_vx w x y time end in
   let fy := fun x y => match hook S with None => 0%R | Some w => force_vy w x y time end in
   always (sdims S) (compute_tendency S t s time Replace) m (fun m' =>
     (forall c, 0 <= c < d_ncells (sdims S) ->
        let x := (mr m XCell [c] : R) in let y := (mr m YCell [c] : R) in
        (mr m' (HCell t) [c; k] = - Ou (dc h0) (fun q x y => Me (dc h0) h q x y * nvec U V q x y) x y + fh x y)%R /\
        (Rabs (mr m' (HCell t) [c; k] - (- (hUx x y + hVy x y) + fh x y)) <= C * dc h0 ^ 2)%R) /\
     (forall e, 0 <= e < d_nedges (sdims S) ->
        let x := (mr m XEdge [e] : R) in let y := (mr m YEdge [e] : R) in let a := (mr m AngleEdge [e] : R) in
        (mr m' (VnEdge t) [e; k] = Pf (dc h0) f h (nvec U V) (e mod 3) x y - Gr (dc h0) (fun x y => Ki (dc h0) (nvec U V) x y + g * h x y) (e mod 3) x y
           + (cos a * fx x y + sin a * fy x y))%R /\
        (Rabs (mr m' (VnEdge t) [e; k] - (cos a * (au x y + fx x y) + sin a * (av x y + fy x y))) <= C * dc h0 ^ 2)%R))).
Proof. exact C61_tendency_consistent_proof. Qed.
Print Assumptions C61_tendency_consistent.

(** Waves on the 4 x 6 mesh: the hypotheses of C61 hold for them, and there is a memory that samples them. *)
Definition S61 : setup RA := mkSetup (mkConfig false false false 8) (mkHex (A:=RA) 4 6 (IZR 1) 3)
  (mkParams (A:=RA) (IZR 1) (IZR 10) (IZR 0) (IZR 0) (IZR 0) (IZR 1) (IZR 0) 1 false false) None.
Definition W61 (i j : Z) : fn2 := wave 1 (2 * PI * IZR i / period_x (mesh_of_setup S61)) (2 * PI * IZR j / period_y (mesh_of_setup S61)) 0.
Definition h61 : fn2 := fun x y => (2 + W61 1 1 x y)%R.
Example C61_applies :
  setup_ok S61 /\ 2 <= nx (mesh_of_setup S61) /\ Z.even (ny (mesh_of_setup S61)) = true /\ (0 < (dc (mesh_of_setup S61) : R))%R /\
  smooth 5 h61 /\ (forall i j, smooth 5 (W61 i j)) /\ (forall x y, 1 <= h61 x y)%R /\
  periodic (period_x (mesh_of_setup S61)) (period_y (mesh_of_setup S61)) h61 /\
  (forall i j, periodic (period_x (mesh_of_setup S61)) (period_y (mesh_of_setup S61)) (W61 i j)) /\
  (forall i j, exists hWx hWy, is_dx (fun x y => h61 x y * W61 i j x y)%R hWx /\ is_dy (fun x y => h61 x y * W61 i j x y)%R hWy) /\
  exists m, ready S61 m /\ forall c k e l,
    mr m (HCell St) [c; k] = h61 (mr m XCell [c]) (mr m YCell [c]) /\
    mr m (VnEdge St) [e; k] = (cos (mr m AngleEdge [e]) * W61 1 0 (mr m XEdge [e]) (mr m YEdge [e]) + sin (mr m AngleEdge [e]) * W61 0 1 (mr m XEdge [e]) (mr m YEdge [e]))%R /\
    mr m (TrCell St) [l; c; k] = (h61 (mr m XCell [c]) (mr m YCell [c]) * W61 1 2 (mr m XCell [c]) (mr m YCell [c]))%R.
Proof.
  assert (Ho : setup_ok S61) by ok. split; [exact Ho|]. split; [cbn; lia|]. split; [reflexivity|]. split; [cbn; lra|].
  split; [apply smooth_plus; [apply smooth_const|apply wave_smooth]|]. split; [intros; apply wave_smooth|].
  split. { intros x y. unfold h61, W61, wave. match goal with |- context [cos ?a] => pose proof (COS_bound a) end. lra. }
  assert (HW : forall i j, periodic (period_x (mesh_of_setup S61)) (period_y (mesh_of_setup S61)) (W61 i j)).
  { intros. apply wave_periodic; cbn; [lra|]. pose proof (sqrt_lt_R0 3 ltac:(lra)). lra. }
  split; [apply (per_2 _ _ Rplus); [apply per_c|apply HW]|]. split; [exact HW|].
  split. { intros. eexists _, _. split; intros x y.
    - apply (D_mult (fun s => h61 s y) (fun s => W61 i j s y)); [apply (D_plus (fun _ => 2%R) (fun s => W61 1 1 s y)); [apply D_const|apply wave_dx]|apply wave_dx].
    - apply (D_mult (fun s => h61 x s) (fun s => W61 i j x s)); [apply (D_plus (fun _ => 2%R) (fun s => W61 1 1 x s)); [apply D_const|apply wave_dy]|apply wave_dy]. }
  destruct (ready_any S61 Ho (fun _ _ => 0%R)) as (m0 & R0 & _).
  pose (m := Mem (A:=RA) (mi m0) (fun a ix => match a, ix with
    | HCell _, [c; k] => h61 (mr m0 XCell [c]) (mr m0 YCell [c])
    | VnEdge _, [e; k] => (cos (mr m0 AngleEdge [e]) * W61 1 0 (mr m0 XEdge [e]) (mr m0 YEdge [e]) + sin (mr m0 AngleEdge [e]) * W61 0 1 (mr m0 XEdge [e]) (mr m0 YEdge [e]))%R
    | TrCell _, [l; c; k] => (h61 (mr m0 XCell [c]) (mr m0 YCell [c]) * W61 1 2 (mr m0 XCell [c]) (mr m0 YCell [c]))%R
    | _, _ => mr m0 a ix end)).
  exists m. split; [|intros; repeat split].
  destruct R0 as (m1 & H1 & H2). exists m1. split; [exact H1|]. intros l Hl. rewrite <- H2 by exact Hl.
  destruct l as [a ix|a ix]; [reflexivity|]. destruct a; try reflexivity; discriminate Hl.
Qed.

(** The tracer tendency, including diffusion (switched off when its coefficient is not positive): within [C d^2] of the right hand side of the advection diffusion equation in flux form.  The state holds the content, thickness times concentration [r]. *)
Theorem C61_tracer_tendency_consistent :
  forall (h U V r rx ry hrUx hrVy hrxx hryy : fn2) (kappa : R),
  smooth 5 h -> smooth 5 U -> smooth 5 V -> smooth 5 r -> (forall x y, h x y <> 0%R) ->
  is_dx r rx -> is_dy r ry ->
  is_dx (fun x y => h x y * r x y * U x y)%R hrUx -> is_dy (fun x y => h x y * r x y * V x y)%R hrVy ->
  is_dx (fun x y => h x y * rx x y)%R hrxx -> is_dy (fun x y => h x y * ry x y)%R hryy ->
  exists C : R,
  (forall d x y, d <> 0%R ->
     (Rabs (Ou d (fun q x y => Me d h q x y * nvec U V q x y * Me d r q x y) x y - (hrUx x y + hrVy x y)) <= C * d ^ 2)%R /\
     (Rabs (Ou d (fun q x y => Me d h q x y * Gr d r q x y) x y - (hrxx x y + hryy x y)) <= C * d ^ 2)%R) /\
  (forall S : setup RA, setup_ok S ->
   let h0 := mesh_of_setup S in
   2 <= nx h0 -> Z.even (ny h0) = true -> (0 < (dc h0 : R))%R ->
   periodic (period_x h0) (period_y h0) h -> periodic (period_x h0) (period_y h0) U -> periodic (period_x h0) (period_y h0) V ->
   periodic (period_x h0) (period_y h0) r ->
   eddy_diff2 (par_of S) = kappa -> (eddy_diff4 (par_of S) <= 0)%R ->
   forall (t s : sid) (time : R) (m : mem RA) (l k : Z), s <> t -> ready S m -> 0 <= l < ntracers (par_of S) -> 0 <= k < d_nlayers (sdims S) ->
   (forall c, 0 <= c < d_ncells (sdims S) -> mr m (HCell s) [c; k] = h (mr m XCell [c]) (mr m YCell [c])) ->
   (forall e, 0 <= e < d_nedges (sdims S) -> mr m (VnEdge s) [e; k] =
      (cos (mr m AngleEdge [e]) * U (mr m XEdge [e]) (mr m YEdge [e]) + sin (mr m AngleEdge [e]) * V (mr m XEdge [e]) (mr m YEdge [e]))%R) ->
   (forall c, 0 <= c < d_ncells (sdims S) ->
      mr m (TrCell s) [l; c; k] = (h (mr m XCell [c]) (mr m YCell [c]) * r (mr m XCell [c]) (mr m YCell [c]))%R) ->
   always (sdims S) (compute_tendency S t s time Replace) m (fun m' =>
     forall c, 0 <= c < d_ncells (sdims S) ->
        let x := (mr m XCell [c] : R) in let y := (mr m YCell [c] : R) in
        (mr m' (TrCell t) [l; c; k] = - Ou (dc h0) (fun q x y => Me (dc h0) h q x y * nvec U V q x y * Me (dc h0) r q x y) x y
           + Rmax 0 kappa * Ou (dc h0) (fun q x y => Me (dc h0) h q x y * Gr (dc h0) r q x y) x y)%R /\
        (Rabs (mr m' (TrCell t) [l; c; k] - (- (hrUx x y + hrVy x y) + Rmax 0 kappa * (hrxx x y + hryy x y))) <= C * dc h0 ^ 2)%R)).
Proof. exact C61_tracer_tendency_consistent_proof. Qed.
Print Assumptions C61_tracer_tendency_consistent.

(** C62: the discrete vector Laplacian of the viscous term, applied to the normal components of a smooth vector field, is within [C d^2] of the normal component of the Laplacian minus an error that does not depend on [d]; the sign is +1 for the edge directions 0 and 120 degrees and -1 for 60 degrees. *)
Theorem C62_viscous_term_limit :
  forall U V Ux Uy Vx Vy Uxx Uyy Vxx Vxy Vyy : fn2, smooth 5 U -> smooth 5 V ->
  is_dx U Ux -> is_dy U Uy -> is_dx V Vx -> is_dy V Vy ->
  is_dx Ux Uxx -> is_dy Uy Uyy -> is_dx Vx Vxx -> is_dy Vx Vxy -> is_dy Vy Vyy ->
  exists C : R,
  (forall d q x y, d <> 0%R -> 0 <= q < 3 ->
     (Rabs (Vl d (nvec U V) q x y - (cq q * (Uxx x y + Uyy x y) + sq q * (Vxx x y + Vyy x y)
        - (if q =? 1 then -1 else 1) / 4 * (Uyy x y - Uxx x y + 2 * Vxy x y))) <= C * d ^ 2)%R) /\
  (forall (cf : config) (h : hexargs RA), mesh_ok cf h -> 2 <= nx h -> Z.even (ny h) = true -> (0 < (dc h : R))%R ->
   periodic (period_x h) (period_y h) U -> periodic (period_x h) (period_y h) V ->
   always (dims_of cf h 0) (mesh_ctor cf h) (mzero RA) (fun m =>
     let u := fun e => (cos (mr m AngleEdge [e]) * U (mr m XEdge [e]) (mr m YEdge [e]) + sin (mr m AngleEdge [e]) * V (mr m XEdge [e]) (mr m YEdge [e]))%R in
     forall e, 0 <= e < 3 * (nx h * ny h) ->
       let x := (mr m XEdge [e] : R) in let y := (mr m YEdge [e] : R) in let a := (mr m AngleEdge [e] : R) in
       vlap m u e = Vl (dc h) (nvec U V) (e mod 3) x y /\
       (Rabs (vlap m u e - (cos a * (Uxx x y + Uyy x y) + sin a * (Vxx x y + Vyy x y)
          - (if e mod 3 =? 1 then -1 else 1) / 4 * (Uyy x y - Uxx x y + 2 * Vxy x y))) <= C * dc h ^ 2)%R)).
Proof. exact C62_viscous_term_limit_proof. Qed.
Print Assumptions C62_viscous_term_limit.

(** The claim that the viscous operator approximates the Laplacian is false at every resolution: on every mesh with at least 20 columns, for the flow [(cos (k x), 0)] with one wave length in the domain, its values on the edges facing the x direction are at least 6/5 of the exact ones, and tend to 5/4 of them. *)
Theorem C62_viscosity_consistent_refuted :
  forall (cf : config) (h : hexargs RA), mesh_ok cf h -> 20 <= nx h -> Z.even (ny h) = true -> (0 < (dc h : R))%R ->
  let k := (2 * PI / period_x h)%R in
  exists lam : R, (6 / 5 <= lam)%R /\
  always (dims_of cf h 0) (mesh_ctor cf h) (mzero RA) (fun m =>
    let u := fun e => (cos (mr m AngleEdge [e]) * cos (k * mr m XEdge [e]) + sin (mr m AngleEdge [e]) * 0)%R in
    forall e, 0 <= e < 3 * (nx h * ny h) -> mr m AngleEdge [e] = 0%R ->
      vlap m u e = (lam * (- (k * k) * cos (k * mr m XEdge [e])))%R).
Proof. exact C62_viscosity_consistent_refuted_proof. Qed.
Print Assumptions C62_viscosity_consistent_refuted.

(** There are such edges on every mesh, for example edge 0. *)
Example C62_hyps : exists (cf : config) (h : hexargs RA), mesh_ok cf h /\ 20 <= nx h /\ Z.even (ny h) = true /\ (0 < (dc h : R))%R /\
  always (dims_of cf h 0) (mesh_ctor cf h) (mzero RA) (fun m => mr m AngleEdge [0] = 0%R).
Proof.
  exists ex_cf, (mkHex (A:=RA) 20 6 (IZR 1) 3). assert (O : mesh_ok ex_cf (mkHex (A:=RA) 20 6 (IZR 1) 3)) by ok.
  split; [exact O|]. split; [cbn; lia|]. split; [reflexivity|]. split; [cbn; lra|].
  apply edge0_angle; [exact O].
Qed.

