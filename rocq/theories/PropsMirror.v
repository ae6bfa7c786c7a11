(** Mirror images: the program has no preferred orientation. *)
From Coq Require Import ZArith Reals List Bool Lia Lra.
From Verif Require Import Arith Arrays Prog Conc Launch Mesh AuxVars Tend Model RSum Spec MeshProof Sample Ready Driver PropsCons MirrorThms.
Import ListNotations.
Open Scope Z_scope.
(** On a mesh with an even number of rows (and at least two columns), run two programs of which one is the mirror image of the other: x is replaced by sx x and y by sy y, where sx and sy are 1 or -1, so this covers the mirrors in both axes and the half turn; the components of velocities and forces change sign accordingly; the rotation changes sign if exactly one of sx, sy is -1; initial data and forcing are periodic.  Then the final states are mirror images: to every cell belongs a cell at the mirrored position (up to the periods) that has the same thickness and tracers in the other run, and to every edge an edge at the mirrored position, with mirrored normal up to a sign s, whose velocity is s times that of the other run.  This holds for both steppers, every list of steps, every pair of builds and of numbers of layers, every layer and every schedule.  In particular (S2 = S1, I2 = I1) a flow without rotation that starts symmetric stays symmetric, and so does a rotating flow under the half turn. *)
Theorem C89_no_preferred_orientation :
forall (S1 S2 : setup RA) (st : stepper) (sx sy : R) (I1 I2 : initial RA) (steps : list (R * R)) (m1 m2 : mem RA), let h := mesh_of_setup S1 in
  setup_ok S1 -> setup_ok S2 -> (0 < (dc h : R))%R -> 2 <= nx h -> Z.even (ny h) = true -> (sx = 1 \/ sx = -1)%R -> (sy = 1 \/ sy = -1)%R -> mirror_image S1 S2 sx sy ->
  (disable_h (par_of S1) = true \/ disable_vn (par_of S1) = true -> hook S1 = None) ->
  mirror_fn h sx sy 1 (ini_h I1) (ini_h I2) -> mirror_fn h sx sy sx (ini_vx I1) (ini_vx I2) -> mirror_fn h sx sy sy (ini_vy I1) (ini_vy I2) ->
  (forall l, mirror_fn h sx sy 1 (ini_tr I1 l) (ini_tr I2 l)) ->
  exec (sdims S1) (program S1 st I1 steps) (mzero RA) (OK m1) -> exec (sdims S2) (program S2 st I2 steps) (mzero RA) (OK m2) ->
  (forall c, 0 <= c < d_ncells (sdims S1) -> exists c', 0 <= c' < d_ncells (sdims S1) /\
    eqmod (period_x h) (mr m1 XCell [c']) (sx * mr m2 XCell [c]) /\ eqmod (period_y h) (mr m1 YCell [c']) (sy * mr m2 YCell [c]) /\
    forall k1 k2, 0 <= k1 < d_nlayers (sdims S1) -> 0 <= k2 < d_nlayers (sdims S2) ->
      mr m2 (HCell St) [c; k2] = mr m1 (HCell St) [c'; k1] /\ forall l, 0 <= l < ntracers (par_of S1) -> mr m2 (TrCell St) [l; c; k2] = mr m1 (TrCell St) [l; c'; k1]) /\
  (forall e, 0 <= e < d_nedges (sdims S1) -> exists e' s, 0 <= e' < d_nedges (sdims S1) /\ (s = 1 \/ s = -1)%R /\
    eqmod (period_x h) (mr m1 XEdge [e']) (sx * mr m2 XEdge [e]) /\ eqmod (period_y h) (mr m1 YEdge [e']) (sy * mr m2 YEdge [e]) /\
    (cos (mr m1 AngleEdge [e']) = s * sx * cos (mr m2 AngleEdge [e]))%R /\ (sin (mr m1 AngleEdge [e']) = s * sy * sin (mr m2 AngleEdge [e]))%R /\
    forall k1 k2, 0 <= k1 < d_nlayers (sdims S1) -> 0 <= k2 < d_nlayers (sdims S2) -> mr m2 (VnEdge St) [e; k2] = (s * mr m1 (VnEdge St) [e'; k1])%R).
Proof. exact C89_no_preferred_orientation_proof. Qed.
Print Assumptions C89_no_preferred_orientation.

(** Non-vacuity: a rotating, viscous, forced problem on a mesh of 4 by 6 cells and its mirror image in another build, and a periodic function that is not symmetric. *)
Definition S89 (cf : config) (nl : Z) (s : R) : setup RA := mkSetup cf (mkHex (A:=RA) 4 6 (IZR 2) nl)
  (mkParams (A:=RA) (s * 3)%R (IZR 10) (IZR 0) (IZR 3) (IZR 4) (IZR 5) (IZR 6) 2 false false)
  (Some (@mkForcing RA (fun x y t => t + sin (2 * PI * (s * x) / 8))%R (fun x y t => s * (1 + sin (2 * PI * (s * x) / 8)))%R (fun x y t => cos (2 * PI * (s * x) / 8))%R)).
Example C89_hyps : let S1 := S89 (mkConfig true false true 4) 3 1 in let S2 := S89 (mkConfig false true false 8) 8 (-1) in
  setup_ok S1 /\ setup_ok S2 /\ 2 <= nx (mesh_of_setup S1) /\ Z.even (ny (mesh_of_setup S1)) = true /\ mirror_image S1 S2 (-1) 1.
Proof.
  cbv zeta. split; [ok|]. split; [ok|]. split; [cbn; lia|]. split; [reflexivity|].
  unfold mirror_image, S89. cbn [par_of mesh_of_setup nx ny dc ntracers disable_h disable_vn f0 grav visc_del2 visc_del4 eddy_diff2 eddy_diff4 hook force_h force_vx force_vy].
  assert (PX : (period_x (mkHex (A:=RA) 4 6 (IZR 2) 3) = 8 :> R)%R) by (cbn; lra).
  assert (A : forall x, (2 * PI * (1 * (x + 8)) / 8 = 2 * PI * (1 * x) / 8 + 2 * PI)%R) by (intros; field).
  assert (B : forall x, (2 * PI * (-1 * x) / 8 = 2 * PI * (1 * (-1 * x)) / 8)%R) by (intros; field).
  do 6 (split; [reflexivity|]). split; [cbn [Arith.F RA]; ring|]. do 5 (split; [reflexivity|]).
  intros t. unfold mirror_fn, periodic. rewrite PX. split; [|split]; (split; [intros x y; rewrite A, ?sin_plus, ?cos_plus, ?sin_2PI, ?cos_2PI; split; ring|intros x y; rewrite B; ring]).
Qed.

