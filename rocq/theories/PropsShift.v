(** Symmetries: translations of the torus, and renumbering, adding and removing tracers. *)
From Coq Require Import ZArith Reals List Bool Lia Lra.
From Verif Require Import Arith Arrays Prog Conc Launch Mesh AuxVars Tend Model Spec MeshProof Ready Relate Equiv2 PropsMesh PropsCons ShiftThms.
Import ListNotations.
Open Scope Z_scope.

(** C63: started from a translated state, compute_tendency leaves the translated tendency and any number of steps of either stepper leave the translated state, bit for bit, in every arithmetic and for every build, schedule and parameter set.  The translations are those along the rows, and on meshes with an even number of rows all translations that map cells to cells.  [S] has no position dependent forcing. *)
Theorem C63_translation_equivariance :
  forall (A : Arith) (S : setup A), setup_ok S -> hook S = None ->
  forall a b, Z.even (ny (mesh_of_setup S)) = true \/ b = 0 ->
  (forall t s time md m1 m2 m1', s <> t -> ready S m1 -> ready S m2 -> translated S a b s m1 m2 ->
     (md = Replace /\ disable_h (par_of S) = false /\ disable_vn (par_of S) = false) \/ translated S a b t m1 m2 ->
     exec (sdims S) (compute_tendency S t s time md) m1 (OK m1') ->
     always (sdims S) (compute_tendency S t s time md) m2 (fun m2' => translated S a b t m1' m2')) /\
  (forall steps m1 m2 m1', ready S m1 -> ready S m2 -> translated S a b St m1 m2 ->
     (disable_h (par_of S) = false /\ disable_vn (par_of S) = false) \/ translated S a b Tend m1 m2 ->
     exec (sdims S) (rk4_run S steps) m1 (OK m1') ->
     always (sdims S) (rk4_run S steps) m2 (fun m2' => translated S a b St m1' m2')) /\
  (forall n steps m1 m2 m1', ready S m1 -> ready S m2 -> translated S a b St m1 m2 -> translated S a b Tend m1 m2 ->
     exec (sdims S) (lsrk_run S n steps) m1 (OK m1') ->
     always (sdims S) (lsrk_run S n steps) m2 (fun m2' => translated S a b St m1' m2')).
Proof. exact C63_translation_equivariance_proof. Qed.
Print Assumptions C63_translation_equivariance.

(** Every contents of the state has a translate. *)
Example C63_translates (g : rarr -> list Z -> R) : exists m1 m2, ready S24 m1 /\ ready S24 m2 /\
  (forall s ix, mr m1 (HCell s) ix = g (HCell s) ix /\ mr m1 (VnEdge s) ix = g (VnEdge s) ix /\ mr m1 (TrCell s) ix = g (TrCell s) ix) /\
  translated S24 1 1 St m1 m2 /\ translated S24 1 1 Tend m1 m2.
Proof.
  pose proof (fun c Hc => Shift.shc_inv 4 6 ltac:(lia) ltac:(lia) 1 1 c Hc (or_introl eq_refl)) as Hi.
  destruct (ready_any S24 (proj1 ok24) g) as (m1 & R1 & E1).
  destruct (ready_any S24 (proj1 ok24) (fun a ix => match a, ix with
    | HCell _, [c; k] => g a [Shift.shc 4 6 (-1) (-1) c; k]
    | VnEdge _, [e; k] => g a [3 * Shift.shc 4 6 (-1) (-1) (e / 3) + e mod 3; k]
    | TrCell _, [l; c; k] => g a [l; Shift.shc 4 6 (-1) (-1) c; k]
    | _, _ => 0%R end)) as (m2 & R2 & E2).
  exists m1, m2. split; [exact R1|]. split; [exact R2|]. split; [intros; repeat split; now apply E1|].
  assert (T : forall s, translated S24 1 1 s m1 m2); [|now split].
  intros s c k Hc Hk. cbv zeta. change (cell_moved (mesh_of_setup S24) 1 1 c) with (Shift.shc 4 6 1 1 c).
  change (nx (mesh_of_setup S24) * ny (mesh_of_setup S24)) with (4 * 6) in Hc. specialize (Hi c Hc). set (c' := Shift.shc 4 6 1 1 c) in *.
  rewrite !E1, !E2 by reflexivity. change (- (1)) with (-1) in Hi. rewrite Hi. split; [reflexivity|]. split.
  - intros q Hq. rewrite E1, E2 by reflexivity. rewrite !Hex.div3, !Hex.mod3, Hi by assumption. reflexivity.
  - intros l Hl. rewrite E1, E2 by reflexivity. now rewrite Hi.
Qed.
Example C63_applies : setup_ok S24 /\ hook S24 = None /\ Z.even (ny (mesh_of_setup S24)) = true /\
  (cell_moved (mesh_of_setup S24) 1 1 0, cell_moved (mesh_of_setup S24) 1 1 4, cell_moved (mesh_of_setup S24) 0 (-1) 2) = (5, 10, 21).
Proof. split; [apply ok24|]. split; [apply ok24|]. split; reflexivity. Qed.

(** The cells, edges and vertices moved by [a] columns and [b] rows lie [(a + b/2) dc] to the right and [b sqrt(3)/2 dc] up, modulo the periods of the torus, and corresponding edges have the same direction. *)
Theorem C63_translation_is_geometric :
  forall cf (h : hexargs RA), mesh_ok cf h -> forall a b, Z.even (ny h) = true \/ b = 0 ->
  always (dims_of cf h 0) (mesh_ctor cf h) (mzero RA) (fun m => forall c, 0 <= c < nx h * ny h ->
    let c' := cell_moved h a b c in
    let dx := ((IZR a + IZR b / 2) * dc h)%R in
    let dy := (IZR b * (sqrt 3 / 2) * dc h)%R in
    0 <= c' < nx h * ny h /\
    eqmod (period_x h) (mr m XCell [c']) (mr m XCell [c] + dx) /\ eqmod (period_y h) (mr m YCell [c']) (mr m YCell [c] + dy) /\
    (forall q, 0 <= q < 3 -> mr m AngleEdge [3 * c' + q] = mr m AngleEdge [3 * c + q] /\
       eqmod (period_x h) (mr m XEdge [3 * c' + q]) (mr m XEdge [3 * c + q] + dx) /\
       eqmod (period_y h) (mr m YEdge [3 * c' + q]) (mr m YEdge [3 * c + q] + dy)) /\
    (forall q, 0 <= q < 2 ->
       eqmod (period_x h) (mr m XVertex [2 * c' + q]) (mr m XVertex [2 * c + q] + dx) /\
       eqmod (period_y h) (mr m YVertex [2 * c' + q]) (mr m YVertex [2 * c + q] + dy))).
Proof. exact C63_translation_is_geometric_proof. Qed.
Print Assumptions C63_translation_is_geometric.

Example C63_mesh : mesh_ok ex_cf ex_h /\ Z.even (ny ex_h) = true.
Proof. split; [exact ex_ok|reflexivity]. Qed.

(** On a mesh with an odd number of rows, moving by rows is not a symmetry: on the torus of 2 x 3 cells, two rows up, a state with one edge in motion. *)
Theorem C63_odd_rows_refuted :
  ~ (forall (S : setup RA), setup_ok S -> hook S = None -> disable_h (par_of S) = false -> disable_vn (par_of S) = false ->
     forall a b m1 m2 m1' m2', ready S m1 -> ready S m2 -> translated S a b St m1 m2 ->
     exec (sdims S) (compute_tendency S Tend St 0%R Replace) m1 (OK m1') ->
     exec (sdims S) (compute_tendency S Tend St 0%R Replace) m2 (OK m2') -> translated S a b Tend m1' m2').
Proof. exact C63_odd_rows_refuted_proof. Qed.
Print Assumptions C63_odd_rows_refuted.

Example C63_odd_case : exists m1 m2 : mem RA, ready S23 m1 /\ ready S23 m2 /\ translated S23 0 2 St m1 m2 /\ exists k c, mr m1 (VnEdge St) [c; k] = 1%R.
Proof.
  pose proof ok23 as Hok.
  destruct (ready_any S23 Hok (f23 1)) as (m1 & R1 & E1). destruct (ready_any S23 Hok (f23 16)) as (m2 & R2 & E2).
  exists m1, m2. split; [exact R1|]. split; [exact R2|]. split; [|exists 0, 1; now rewrite E1].
  intros c k Hc Hk. cbv zeta. rewrite !E1, !E2 by reflexivity. cbn in Hc. split; [reflexivity|]. split.
  - intros q Hq. rewrite E1, E2 by reflexivity.
    assert (Cc : c = 0 \/ c = 1 \/ c = 2 \/ c = 3 \/ c = 4 \/ c = 5) by lia.
    assert (Cq : q = 0 \/ q = 1 \/ q = 2) by lia.
    destruct Cc as [->|[->|[->|[->|[->| ->]]]]]; destruct Cq as [->|[->| ->]]; reflexivity.
  - intros l Hl. cbn in Hl. lia.
Qed.

(** C64: the thickness, the velocity and each tracer evolve bit for bit as they would with any other set of tracers.  [sg] says which tracer of the run with [n] tracers has the initial values of tracer [l] of the other run; it may permute, drop, add and duplicate tracers. *)
Theorem C64_tracers_are_passive_and_independent :
  forall (A : Arith) (S : setup A) (n : Z) (sg : Z -> Z), setup_ok S -> 0 <= n ->
  (forall l, 0 <= l < ntracers (par_of S) -> 0 <= sg l < n) ->
  let S' := with_tracers S n in
  (forall t s time md m1 m2 m1', s <> t -> ready S m1 -> ready S' m2 -> retraced S sg s m1 m2 ->
     (md = Replace /\ disable_h (par_of S) = false /\ disable_vn (par_of S) = false) \/ retraced S sg t m1 m2 ->
     exec (sdims S) (compute_tendency S t s time md) m1 (OK m1') ->
     always (sdims S') (compute_tendency S' t s time md) m2 (fun m2' => retraced S sg t m1' m2')) /\
  (forall steps m1 m2 m1', ready S m1 -> ready S' m2 -> retraced S sg St m1 m2 ->
     (disable_h (par_of S) = false /\ disable_vn (par_of S) = false) \/ retraced S sg Tend m1 m2 ->
     exec (sdims S) (rk4_run S steps) m1 (OK m1') ->
     always (sdims S') (rk4_run S' steps) m2 (fun m2' => retraced S sg St m1' m2')) /\
  (forall k steps m1 m2 m1', ready S m1 -> ready S' m2 -> retraced S sg St m1 m2 -> retraced S sg Tend m1 m2 ->
     exec (sdims S) (lsrk_run S k steps) m1 (OK m1') ->
     always (sdims S') (lsrk_run S' k steps) m2 (fun m2' => retraced S sg St m1' m2')).
Proof. exact C64_tracers_are_passive_and_independent_proof. Qed.
Print Assumptions C64_tracers_are_passive_and_independent.

(** Without tracers and with the two tracers of [S24]; one tracer copied into both. *)
Example C64_applies : setup_ok (with_tracers S24 0) /\ with_tracers (with_tracers S24 0) (ntracers (par_of S24)) = S24 /\
  setup_ok (with_tracers S24 1) /\ (forall l, 0 <= l < ntracers (par_of S24) -> 0 <= (fun _ => 0) l < 1).
Proof. split; [ok|]. split; [reflexivity|]. split; [ok|]. intros. lia. Qed.

