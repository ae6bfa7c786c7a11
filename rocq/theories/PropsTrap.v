(** Division by zero does not occur where the thickness is positive. *)
From Coq Require Import ZArith Reals List Bool Lia Lra.
From Verif Require Import Arith Arrays Prog Conc Launch Mesh AuxVars Tend Model Ready Trap TrapThms PropsCons.
Import ListNotations.
Open Scope Z_scope.

(** C36, edges: after [compute_tendency], both thicknesses at an edge lie between the thicknesses of the two cells of the edge. *)
Theorem C36_edge_thickness_between :
  forall (S : setup RA), setup_ok S ->
  forall (t s : sid) (time : R) (md : add_mode) (m : mem RA), s <> t -> ready S m ->
  always (sdims S) (compute_tendency S t s time md) m (fun m' => forall e k lo hi, 0 <= e < d_nedges (sdims S) -> 0 <= k < d_nlayers (sdims S) ->
    (forall j, 0 <= j < 2 -> (lo <= (mr m (HCell s) [mi m CellsOnEdge [e; j]; k] : R) <= hi)%R) ->
    (lo <= (mr m' MeanHEdge [e; k] : R) <= hi)%R /\ (lo <= (mr m' FluxHEdge [e; k] : R) <= hi)%R).
Proof. exact C36_edge_thickness_between_proof. Qed.
Print Assumptions C36_edge_thickness_between.

(** Non-vacuity: a ready memory with any field; the thicknesses here differ from cell to cell. *)
Example C36_edge_ex : exists m, setup_ok S24 /\ ready S24 m /\ forall c k, mr m (HCell St) [c; k] = IZR (1 + Z.abs c).
Proof.
  destruct (any24 (fun a ix => match ix with c :: _ => IZR (1 + Z.abs c) | _ => 0%R end)) as (m & R & E).
  exists m. split; [exact (proj1 ok24)|]. split; [exact R|]. intros c k. now destruct (E St [c; k]) as (-> & _).
Qed.

(** C36, vertices: the relative and planetary vorticity at a vertex are divided by one number, which lies between the thicknesses of the three cells of the vertex. *)
Theorem C36_vertex_thickness_between :
  forall (S : setup RA), setup_ok S -> (0 < (dc (mesh_of_setup S) : R))%R ->
  forall (t s : sid) (time : R) (md : add_mode) (m : mem RA), s <> t -> ready S m ->
  always (sdims S) (compute_tendency S t s time md) m (fun m' => forall v k lo hi, 0 <= v < d_nvertices (sdims S) -> 0 <= k < d_nlayers (sdims S) ->
    (forall j, 0 <= j < 3 -> (lo <= (mr m (HCell s) [mi m CellsOnVertex [v; j]; k] : R) <= hi)%R) ->
    exists H : R, (lo <= H <= hi)%R /\
      mr m' NormRvortVertex [v; k] = (mr m' RvortVertex [v; k] / H)%R /\
      mr m' NormPvortVertex [v; k] = (mr m FVertex [v] / H)%R).
Proof. exact C36_vertex_thickness_between_proof. Qed.
Print Assumptions C36_vertex_thickness_between.

(** Non-vacuity: as above; with positive thicknesses the divisor is positive. *)
Example C36_vertex_ex : exists m, setup_ok S24 /\ ready S24 m /\ forall c k, (1 <= (mr m (HCell St) [c; k] : R))%R /\ mr m (HCell St) [c; k] = IZR (1 + Z.abs c).
Proof.
  destruct C36_edge_ex as (m & H & R & E). exists m. split; [exact H|]. split; [exact R|]. intros c k. rewrite E. split; [|reflexivity].
  apply IZR_le. lia.
Qed.

(** C36, divisions.  [OA] is real arithmetic in which dividing by zero (or taking the square root of a negative number) gives [None], and so does every operation on a [None].  Assume a layer [k] in which the thicknesses are positive, and no [None] in the velocities, tracers and parameters and in the values of the hook.  (With OMEGA_KOKKOS_SIMD the vorticity of the velocity Laplacian is taken from the first layer of the chunk, [rv_layer], so the velocities of that layer count as well.)  Then [compute_tendency] performs no division by zero in that layer: none of the auxiliary variables is [None], a tendency is [None] only if it was [None] before and was accumulated into or is disabled, and nowhere in layer [k] does a [None] appear that was not there before. *)
Theorem C36_no_division_by_zero :
  forall (S : setup OA), setup_ok S ->
  forall (t s : sid) (time : F OA) (md : add_mode) (m : mem OA) (k : Z), s <> t -> ready S m -> 0 <= k < d_nlayers (sdims S) ->
  let P := par_of S in
  (exists d : R, dc (mesh_of_setup S) = Some d /\ (0 < d)%R) ->
  (f0 P <> None /\ grav P <> None /\ visc_del2 P <> None /\ visc_del4 P <> None /\ eddy_diff2 P <> None /\ eddy_diff4 P <> None) ->
  match hook S with
  | None => True
  | Some f => forall x y : F OA, x <> None -> y <> None -> force_h f x y time <> None /\ force_vx f x y time <> None /\ force_vy f x y time <> None
  end ->
  (forall c, 0 <= c < d_ncells (sdims S) -> exists r : R, mr m (HCell s) [c; k] = Some r /\ (0 < r)%R) ->
  (forall e, 0 <= e < d_nedges (sdims S) -> mr m (VnEdge s) [e; k] <> None /\
     mr m (VnEdge s) [e; if ksimd (cfg_of S) then k / vector_length (cfg_of S) * vector_length (cfg_of S) else k] <> None) ->
  (forall l c, 0 <= l < ntracers P -> 0 <= c < d_ncells (sdims S) -> mr m (TrCell s) [l; c; k] <> None) ->
  always (sdims S) (compute_tendency S t s time md) m (fun m' =>
    (forall a ix, In a [RvortVertex; NormRvortVertex; NormPvortVertex; NormRvortEdge; NormPvortEdge; KeCell; VelDivCell; MeanHEdge; FluxHEdge; NormTrCell] ->
       inb (rext (sdims S) a) ix = true -> last ix 0 = k -> mr m' a ix <> None) /\
    (md = Replace ->
       (disable_h P = false -> forall c, 0 <= c < d_ncells (sdims S) -> mr m' (HCell t) [c; k] <> None) /\
       (disable_vn P = false -> forall e, 0 <= e < d_nedges (sdims S) -> mr m' (VnEdge t) [e; k] <> None) /\
       (forall l c, 0 <= l < ntracers P -> 0 <= c < d_ncells (sdims S) -> mr m' (TrCell t) [l; c; k] <> None)) /\
    (forall a ix, inb (rext (sdims S) a) ix = true -> last ix 0 = k -> mr m' a ix = None -> mr m a ix = None)).
Proof. exact C36_no_division_by_zero_proof. Qed.
Print Assumptions C36_no_division_by_zero.

(** Non-vacuity: all terms on, three layers padded to eight, positive thickness and arbitrary velocities and tracers in the three layers, zero thickness in the padding. *)
Definition S36 : setup OA := mkSetup (mkConfig false true false 4) (mkHex (A:=OA) 4 6 (Some 1%R) 3)
  (mkParams (A:=OA) (Some 1%R) (Some 10%R) (Some 0%R) (Some 1%R) (Some 1%R) (Some 1%R) (Some 1%R) 1 false false) None.
Example C36_ex : exists m, setup_ok S36 /\ ready S36 m /\
  (forall k, 0 <= k < 3 -> always (sdims S36) (compute_tendency S36 Tend St (Some 0%R) Replace) m (fun m' =>
     forall c, 0 <= c < 24 -> mr m' (HCell Tend) [c; k] <> None /\ mr m' (TrCell Tend) [0; c; k] <> None)) /\
  (forall c, mr m (HCell St) [c; 3] = Some 0%R).
Proof.
  assert (Hok : setup_ok S36) by ok.
  destruct (ready_any S36 Hok (fun a ix => match a, ix with
    | HCell _, [c; k] => if k <? 3 then Some (IZR (1 + Z.abs c)) else Some 0%R
    | VnEdge _, e :: _ => Some (IZR e) | TrCell _, [_; c; _] => Some (IZR c) | _, _ => None end)) as (m & Rm & E).
  exists m. split; [exact Hok|]. split; [exact Rm|]. split; [|intros c; now rewrite E].
  intros k Hk. assert (Hk' : 0 <= k < 4) by lia.
  pose proof (C36_no_division_by_zero S36 Hok Tend St (Some 0%R) Replace m k ltac:(discriminate) Rm Hk') as Q.
  cbv zeta in Q. assert (Q' := fun a b c d e f => Q a b c d e f). clear Q.
  match type of Q' with _ -> _ -> _ -> _ -> _ -> _ -> always _ _ _ ?Post => assert (W : always (sdims S36) (compute_tendency S36 Tend St (Some 0%R) Replace) m Post) end.
  { apply Q'; clear Q'.
  - exists 1%R. split; [reflexivity|lra].
  - repeat split; discriminate.
  - exact I.
  - intros c _. exists (IZR (1 + Z.abs c)). split; [|apply IZR_lt; lia]. rewrite E by reflexivity. destruct (Z.ltb_spec k 3); [reflexivity|lia].
  - intros e _. split; rewrite E by reflexivity; discriminate.
  - intros l c _ _. rewrite E by reflexivity. discriminate. }
  destruct W as [W [m1 X]]. split; [|now exists m1]. intros o Ho. destruct (W o Ho) as (m' & -> & _ & H2 & _). exists m'. split; [reflexivity|]. intros c Hc. destruct (H2 eq_refl) as (A1 & _ & A3). split; [now apply A1|]. apply A3; [cbn; lia|exact Hc].
Qed.

(** C36, sharpness: in a cell with zero thickness the tracer concentration is computed by a division by zero. *)
Theorem C36_zero_thickness_divides_by_zero :
  forall (S : setup OA), setup_ok S ->
  forall (t s : sid) (time : F OA) (md : add_mode) (m : mem OA) (l c k : Z), s <> t -> ready S m ->
  0 <= l < ntracers (par_of S) -> 0 <= c < d_ncells (sdims S) -> 0 <= k < d_nlayers (sdims S) ->
  mr m (HCell s) [c; k] = Some 0%R ->
  always (sdims S) (compute_tendency S t s time md) m (fun m' => mr m' NormTrCell [l; c; k] = None).
Proof. exact C36_zero_thickness_divides_by_zero_proof. Qed.
Print Assumptions C36_zero_thickness_divides_by_zero.

(** Non-vacuity: the padding layer of the memory of [C36_ex] has zero thickness. *)
Example C36_zero_ex : exists m, ready S36 m /\ exists m', exec (sdims S36) (compute_tendency S36 Tend St (Some 0%R) Replace) m (OK m') /\ mr m' NormTrCell [0; 5; 3] = None.
Proof.
  destruct C36_ex as (m & Hok & Rm & _ & Z0). exists m. split; [exact Rm|].
  destruct (C36_zero_thickness_divides_by_zero S36 Hok Tend St (Some 0%R) Replace m 0 5 3) as [H [m' X]]; try assumption; try discriminate; try (cbn; lia); [apply Z0|].
  exists m'. split; [exact X|]. destruct (H _ X) as (M & E & Q). now injection E as <-.
Qed.

