(** The Kokkos views of the program, their extents, and locations. *)
From Coq Require Import ZArith List Bool Lia.
Import ListNotations.
Open Scope Z_scope.

(** Integer views of [MPASMesh], /repo/src/mesh/mpas_mesh.hpp l.16-59. *)
Inductive iarr : Set :=
| NedgesOnCell | EdgesOnCell | CellsOnCell | VerticesOnCell | KiteIndexOnCell | MaxLevelCell
| NedgesOnEdge | EdgesOnEdge | CellsOnEdge | VerticesOnEdge | MaxLevelEdgeBot | MaxLevelEdgeTop
| EdgesOnVertex | CellsOnVertex | MaxLevelVertexBot | MaxLevelVertexTop.

(** The [ShallowWaterState] objects that exist while a stepper runs: the user's state, the
    stepper's [m_tend], and RK4's [m_provis_state] and [m_old_state]
    (/repo/src/time_integration/time_stepper.hpp l.21, l.32-34). *)
Inductive sid : Set := St | Tend | Provis | Old.

(** Real views: [MPASMesh] (/repo/src/mesh/mpas_mesh.hpp l.24-68), [ShallowWaterState]
    (/repo/src/model/shallow_water_state.hpp l.10-12), the auxiliary variables
    (/repo/src/model/auxiliary_vars/*.hpp), the hyperdiffusion work arrays
    (/repo/src/model/tendency_terms/vel_hyperdiff_edge.hpp l.12-14, tracer_hyperdiff_cell.hpp l.11)
    and [m_f_vertex], [m_f_edge] (/repo/src/model/shallow_water_model.hpp l.32-33).
    [CellField], [EdgeField], [VertexField]: the views [input_field], [grad_field], ... that
    /repo/test/operator_convergence.cpp creates (numbered in [OpTest.v]). *)
Inductive rarr : Set :=
| AreaCell | LatCell | LonCell | XCell | YCell | ZCell | MeshDensity | EdgeSignOnCell
| DcEdge | DvEdge | AngleEdge | LatEdge | LonEdge | XEdge | YEdge | ZEdge | WeightsOnEdge
| MeshScalingDel2 | MeshScalingDel4 | EdgeMask
| AreaTriangle | LatVertex | LonVertex | XVertex | YVertex | ZVertex | KiteareasOnVertex
| EdgeSignOnVertex
| HCell (s : sid) | VnEdge (s : sid) | TrCell (s : sid)
| RvortVertex | NormRvortVertex | NormPvortVertex | NormRvortEdge | NormPvortEdge
| KeCell | VelDivCell | MeanHEdge | FluxHEdge | NormTrCell
| VelDel2Edge | VelDel2RvortVertex | VelDel2DivCell | TracerDel2Cell
| FVertex | FEdge
| CellField (no : Z) | EdgeField (no : Z) | VertexField (no : Z).

Scheme Equality for sid.
Definition iarr_eq_dec : forall a b : iarr, {a = b} + {a <> b}.
Proof. decide equality. Defined.
Definition rarr_eq_dec : forall a b : rarr, {a = b} + {a <> b}.
Proof. decide equality; apply sid_eq_dec || apply Z.eq_dec. Defined.

(** Sizes: [m_ncells], [m_nedges], [m_nvertices], [m_nlayers], [m_nlayers_vec] of [MPASMesh]
    (/repo/src/mesh/mpas_mesh.hpp l.10-14) and [m_ntracers]
    (/repo/src/model/shallow_water_params.hpp l.15). *)
Record dims : Set := mkDims {
  d_ncells : Z; d_nedges : Z; d_nvertices : Z; d_nlayers : Z; d_nlayers_vec : Z; d_ntracers : Z
}.

(** Extents of the integer views: /repo/src/mesh/planar_hexagonal_mesh.cpp l.20-23, l.34-37,
    l.50-51 and /repo/src/mesh/mpas_mesh.cpp l.7-18. [maxedges = 6] (mpas_mesh.hpp l.8). *)
Definition iext (D : dims) (a : iarr) : list Z :=
  match a with
  | NedgesOnCell => [d_ncells D]
  | EdgesOnCell | CellsOnCell | VerticesOnCell | KiteIndexOnCell => [d_ncells D; 6]
  | MaxLevelCell => [d_ncells D]
  | NedgesOnEdge => [d_nedges D]
  | EdgesOnEdge => [d_nedges D; 12]
  | CellsOnEdge | VerticesOnEdge => [d_nedges D; 2]
  | MaxLevelEdgeBot | MaxLevelEdgeTop => [d_nedges D]
  | EdgesOnVertex | CellsOnVertex => [d_nvertices D; 3]
  | MaxLevelVertexBot | MaxLevelVertexTop => [d_nvertices D]
  end.

(** Extents of the real views: planar_hexagonal_mesh.cpp l.25-31, l.39-47, l.53-59; mpas_mesh.cpp
    l.8, l.13-15, l.19; shallow_water_state.cpp l.8-10; vorticity_aux.hpp l.136-142;
    kinetic_aux.hpp l.77-78; thickness_aux.hpp l.56-57; tracer_aux.hpp l.55-56;
    vel_hyperdiff_edge.hpp l.241-245; tracer_hyperdiff_cell.hpp l.166-167;
    shallow_water_model.cpp l.14-15; test/operator_convergence.cpp l.18-20, l.70-72, l.124-127,
    l.179-182. *)
Definition rext (D : dims) (a : rarr) : list Z :=
  match a with
  | AreaCell | LatCell | LonCell | XCell | YCell | ZCell | MeshDensity => [d_ncells D]
  | EdgeSignOnCell => [d_ncells D; 6]
  | DcEdge | DvEdge | AngleEdge | LatEdge | LonEdge | XEdge | YEdge | ZEdge => [d_nedges D]
  | WeightsOnEdge => [d_nedges D; 12]
  | MeshScalingDel2 | MeshScalingDel4 => [d_nedges D]
  | EdgeMask => [d_nedges D; d_nlayers D]
  | AreaTriangle | LatVertex | LonVertex | XVertex | YVertex | ZVertex => [d_nvertices D]
  | KiteareasOnVertex | EdgeSignOnVertex => [d_nvertices D; 3]
  | HCell _ | KeCell | VelDivCell | VelDel2DivCell => [d_ncells D; d_nlayers D]
  | VnEdge _ | NormRvortEdge | NormPvortEdge | MeanHEdge | FluxHEdge | VelDel2Edge =>
      [d_nedges D; d_nlayers D]
  | TrCell _ | NormTrCell | TracerDel2Cell => [d_ntracers D; d_ncells D; d_nlayers D]
  | RvortVertex | NormRvortVertex | NormPvortVertex | VelDel2RvortVertex =>
      [d_nvertices D; d_nlayers D]
  | FVertex => [d_nvertices D]
  | FEdge => [d_nedges D]
  | CellField _ => [d_ncells D]
  | EdgeField _ => [d_nedges D]
  | VertexField _ => [d_nvertices D]
  end.

(** A location is an element of a view. *)
Inductive loc : Set := LI (a : iarr) (ix : list Z) | LR (a : rarr) (ix : list Z).

Definition ix_eq_dec : forall i j : list Z, {i = j} + {i <> j} := list_eq_dec Z.eq_dec.

Definition loc_eq_dec : forall l l' : loc, {l = l'} + {l <> l'}.
Proof. decide equality; auto using ix_eq_dec, iarr_eq_dec, rarr_eq_dec. Defined.

(** All indices are non-negative and below the extent, and there are as many indices as dimensions. *)
Fixpoint inb (ext ix : list Z) : bool :=
  match ext, ix with
  | [], [] => true
  | e :: es, i :: is_ => (0 <=? i) && (i <? e) && inb es is_
  | _, _ => false
  end.

Definition validb (D : dims) (l : loc) : bool :=
  match l with
  | LI a ix => inb (iext D a) ix
  | LR a ix => inb (rext D a) ix
  end.

Lemma inb1 e i : inb [e] [i] = true <-> 0 <= i < e.
Proof. cbn. rewrite !andb_true_iff, Z.leb_le, Z.ltb_lt. tauto. Qed.
Lemma inb2 e f i j : inb [e; f] [i; j] = true <-> 0 <= i < e /\ 0 <= j < f.
Proof. cbn. rewrite !andb_true_iff, !Z.leb_le, !Z.ltb_lt. tauto. Qed.
Lemma inb3 e f g i j k :
  inb [e; f; g] [i; j; k] = true <-> 0 <= i < e /\ 0 <= j < f /\ 0 <= k < g.
Proof. cbn. rewrite !andb_true_iff, !Z.leb_le, !Z.ltb_lt. tauto. Qed.
