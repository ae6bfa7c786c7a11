(** Model of the mesh: /repo/src/mesh/planar_hexagonal_mesh.cpp and /repo/src/mesh/mpas_mesh.cpp. *)
From Coq Require Import ZArith List Bool.
From Verif Require Import Arith Arrays Prog Conc.
Import ListNotations.
Open Scope Z_scope.

(** Build configuration.  [no_simd] is OMEGA_NO_SIMD, [ksimd] is OMEGA_KOKKOS_SIMD, [noif] is
    OMEGA_NO_INNER_IF (/repo/CMakeLists.txt l.29-37); [lanes] is [Vec::size()]
    (/repo/src/common.hpp l.16). *)
Record config : Set := mkConfig { no_simd : bool; ksimd : bool; noif : bool; lanes : Z }.

(** [vector_length], /repo/src/common.hpp l.19-25. *)
Definition vector_length (cf : config) : Z := if no_simd cf then 1 else lanes cf.

(** Arguments of the constructor [PlanarHexagonalMesh(nx, ny, dc, nlayers)],
    planar_hexagonal_mesh.cpp l.8. *)
Record hexargs (A : Arith) : Type := mkHex { nx : Z; ny : Z; dc : F A; nlayers : Z }.
Arguments mkHex {_} _ _ _ _.
Arguments nx {_} _.
Arguments ny {_} _.
Arguments dc {_} _.
Arguments nlayers {_} _.

(** The three argument constructor uses [dc = 1. / nx], planar_hexagonal_mesh.cpp l.5-6. *)
Definition hex3 {A} (nx ny nlayers : Z) : hexargs A := mkHex nx ny (#1 / fofZ nx)%fp nlayers.

(** [std::ceil(Real(n) / v)] on integers, planar_hexagonal_mesh.cpp l.11-12.  Simplification: the
    division is exact here; that the binary64 division rounds harmlessly is theorem
    C15_binary64_ceiling of PropsCeil.v. *)
Definition zceil (n v : Z) : Z := - ((- n) / v).

(** Sizes, planar_hexagonal_mesh.cpp l.11-15 ([m_nlayers], [m_nlayers_vec], [m_ncells], [m_nedges],
    [m_nvertices]). *)
Definition dims_of {A} (cf : config) (h : hexargs A) (ntr : Z) : dims :=
  let VL := vector_length cf in
  {| d_ncells := nx h * ny h; d_nedges := 3 * (nx h * ny h); d_nvertices := 2 * (nx h * ny h);
     d_nlayers := zceil (nlayers h) VL * VL; d_nlayers_vec := zceil (nlayers h) VL;
     d_ntracers := ntr |}.

(** [m_period_x], [m_period_y], planar_hexagonal_mesh.cpp l.16-17. *)
Definition period_x {A} (h : hexargs A) : F A := (fofZ (nx h) * dc h)%fp.
Definition period_y {A} (h : hexargs A) : F A := (fofZ (ny h) * dc h * fsqrt #3 / #2)%fp.

Section MeshCode.
Context {A : Arith} (cf : config) (h : hexargs A).
Local Notation VL := (vector_length cf).
Local Notation D := (dims_of cf h 0).

(** Host arithmetic of the constructor, planar_hexagonal_mesh.cpp l.11-15, with [Int] overflow
    (and the out of range [double] to [Int] conversions of l.11-12) as undefined behaviour.
    Modelled as a launch with a single thread. *)
Definition ctor_sizes : launch A :=
  [([], _ <- chk (zceil (nlayers h) VL * VL) ;;
        _ <- chk (zceil (nlayers h) VL) ;;
        nc <- imul (nx h) (ny h) ;;
        _ <- imul 3 nc ;;
        _ <- imul 2 nc ;;
        Ret tt)].

(** planar_hexagonal_mesh.cpp l.64-67. *)
Definition cellidx (icol irow : Z) : prog A Z := t <- imul irow (nx h) ;; iadd t icol.

(** planar_hexagonal_mesh.cpp l.69-117. *)
Definition cell_on_cell (icol irow nb : Z) : prog A Z :=
  mx <- (if icol =? 0 then isub (nx h) 1 else isub icol 1) ;;
  nx1 <- isub (nx h) 1 ;;
  px <- (if icol =? nx1 then Ret 0 else iadd icol 1) ;;
  my <- (if irow =? 0 then isub (ny h) 1 else isub irow 1) ;;
  ny1 <- isub (ny h) 1 ;;
  py <- (if irow =? ny1 then Ret 0 else iadd irow 1) ;;
  if Z.rem irow 2 =? 0 then
    if nb =? 0 then cellidx mx irow
    else if nb =? 1 then cellidx mx my
    else if nb =? 2 then cellidx icol my
    else if nb =? 3 then cellidx px irow
    else if nb =? 4 then cellidx icol py
    else if nb =? 5 then cellidx mx py
    else Ret (-1)
  else
    if nb =? 0 then cellidx mx irow
    else if nb =? 1 then cellidx icol my
    else if nb =? 2 then cellidx px my
    else if nb =? 3 then cellidx px irow
    else if nb =? 4 then cellidx px py
    else if nb =? 5 then cellidx icol py
    else Ret (-1).

(** planar_hexagonal_mesh.cpp l.119-141. *)
Definition edge_on_cell (icell icol irow nb : Z) : prog A Z :=
  if nb =? 0 then imul 3 icell
  else if nb =? 1 then t <- imul 3 icell ;; iadd t 1
  else if nb =? 2 then t <- imul 3 icell ;; iadd t 2
  else if nb =? 3 then c <- cell_on_cell icol irow nb ;; imul 3 c
  else if nb =? 4 then c <- cell_on_cell icol irow nb ;; t <- imul 3 c ;; iadd t 1
  else if nb =? 5 then c <- cell_on_cell icol irow nb ;; t <- imul 3 c ;; iadd t 2
  else Ret (-1).

(** planar_hexagonal_mesh.cpp l.143-166. *)
Definition vertex_on_cell (icell icol irow nb : Z) : prog A Z :=
  if nb =? 0 then imul 2 icell
  else if nb =? 1 then t <- imul 2 icell ;; iadd t 1
  else if nb =? 2 then c <- cell_on_cell icol irow 2 ;; imul 2 c
  else if nb =? 3 then c <- cell_on_cell icol irow 3 ;; t <- imul 2 c ;; iadd t 1
  else if nb =? 4 then c <- cell_on_cell icol irow 3 ;; imul 2 c
  else if nb =? 5 then c <- cell_on_cell icol irow 4 ;; t <- imul 2 c ;; iadd t 1
  else Ret (-1).

(** The straight-line assignments of the kernel are listed as tables; row [(j, s, j')] of
    [voe_table] stands for
    [m_vertices_on_edge(m_edges_on_cell(icell, j), s) = m_vertices_on_cell(icell, j')],
    planar_hexagonal_mesh.cpp l.187-198. *)
Definition voe_table : list (Z * Z * Z) :=
  [(0,0,1); (0,1,0); (1,0,2); (1,1,1); (2,0,3); (2,1,2)].

(** Row [(j, s, j')]: [m_edges_on_edge(m_edges_on_cell(icell, j), s) = m_edges_on_cell(icell, j')],
    planar_hexagonal_mesh.cpp l.200-264. *)
Definition eoe_table : list (Z * Z * Z) :=
  [(3,0,4); (3,1,5); (3,2,0); (3,3,1); (3,4,2);
   (4,0,5); (4,1,0); (4,2,1); (4,3,2); (4,4,3);
   (5,0,0); (5,1,1); (5,2,2); (5,3,3); (5,4,4);
   (0,5,1); (0,6,2); (0,7,3); (0,8,4); (0,9,5);
   (1,5,2); (1,6,3); (1,7,4); (1,8,5); (1,9,0);
   (2,5,3); (2,6,4); (2,7,5); (2,8,0); (2,9,1)].

(** Row [(j, s, w)]: [m_weights_on_edge(m_edges_on_cell(icell, j), s) = w],
    planar_hexagonal_mesh.cpp l.266-300. *)
Definition woe_table : list (Z * Z * F A) :=
  ([(3,0, #1/#3); (3,1, #1/#6); (3,2, #0); (3,3, #1/#6); (3,4, #1/#3);
   (4,0, #1/#3); (4,1, #(-1)/#6); (4,2, #0); (4,3, #1/#6); (4,4, #(-1)/#3);
   (5,0, #(-1)/#3); (5,1, #(-1)/#6); (5,2, #0); (5,3, #(-1)/#6); (5,4, #(-1)/#3);
   (0,5, #1/#3); (0,6, #1/#6); (0,7, #0); (0,8, #1/#6); (0,9, #1/#3);
   (1,5, #1/#3); (1,6, #(-1)/#6); (1,7, #0); (1,8, #1/#6); (1,9, #(-1)/#3);
   (2,5, #(-1)/#3); (2,6, #(-1)/#6); (2,7, #0); (2,8, #(-1)/#6); (2,9, #(-1)/#3)])%fp.

(** Row [(j, s)]: [m_cells_on_vertex(m_vertices_on_cell(icell, j), s) = icell],
    planar_hexagonal_mesh.cpp l.302-307. *)
Definition cov_table : list (Z * Z) := [(1,2); (3,0); (5,1); (0,0); (2,1); (4,2)].

(** Row [(j, s, j')]: [m_edges_on_vertex(m_vertices_on_cell(icell, j), s) = m_edges_on_cell(icell, j')],
    planar_hexagonal_mesh.cpp l.309-320. *)
Definition eov_table : list (Z * Z * Z) :=
  [(0,0,0); (1,0,0); (2,2,1); (1,2,1); (2,1,2); (3,1,2)].

(** Kernel "compute_mesh_arrays", planar_hexagonal_mesh.cpp l.169-321. *)
Definition compute_mesh_arrays_body (irow icol : Z) : prog A unit :=
  icell <- cellidx icol irow ;;
  sti NedgesOnCell [icell] 6 ;;;
  for_u 6 (fun j =>
    v <- cell_on_cell icol irow j ;; sti CellsOnCell [icell; j] v ;;;
    v <- edge_on_cell icell icol irow j ;; sti EdgesOnCell [icell; j] v ;;;
    v <- vertex_on_cell icell icol irow j ;; sti VerticesOnCell [icell; j] v) ;;;
  forL [0; 1; 2] (fun j => e <- rdi EdgesOnCell [icell; j] ;; sti CellsOnEdge [e; 1] icell) ;;;
  forL [3; 4; 5] (fun j => e <- rdi EdgesOnCell [icell; j] ;; sti CellsOnEdge [e; 0] icell) ;;;
  forL voe_table (fun '(j, s, j') =>
    v <- rdi VerticesOnCell [icell; j'] ;; e <- rdi EdgesOnCell [icell; j] ;;
    sti VerticesOnEdge [e; s] v) ;;;
  forL eoe_table (fun '(j, s, j') =>
    v <- rdi EdgesOnCell [icell; j'] ;; e <- rdi EdgesOnCell [icell; j] ;;
    sti EdgesOnEdge [e; s] v) ;;;
  forL woe_table (fun '(j, s, w) =>
    e <- rdi EdgesOnCell [icell; j] ;; str WeightsOnEdge [e; s] w) ;;;
  forL cov_table (fun '(j, s) =>
    v <- rdi VerticesOnCell [icell; j] ;; sti CellsOnVertex [v; s] icell) ;;;
  forL eov_table (fun '(j, s, j') =>
    e <- rdi EdgesOnCell [icell; j'] ;; v <- rdi VerticesOnCell [icell; j] ;;
    sti EdgesOnVertex [v; s] e).
Definition compute_mesh_arrays : launch A := par2 (ny h) (nx h) compute_mesh_arrays_body.

(** Kernel "scale_weights", planar_hexagonal_mesh.cpp l.323-327. *)
Definition scale_weights : launch A :=
  par2 (d_nedges D) 12 (fun iedge j =>
    w <- rdr WeightsOnEdge [iedge; j] ;;
    str WeightsOnEdge [iedge; j] (w * (#1 / fsqrt #3))%fp).

(** Kernel "compute_cell_arrays", planar_hexagonal_mesh.cpp l.329-376. *)
Definition compute_cell_arrays_body (irow icol : Z) : prog A unit :=
  (let dc := dc h in
  icell <- cellidx icol irow ;;
  str AreaCell [icell] (dc * dc * fsqrt #3 / #2) ;;;
  str LatCell [icell] #0 ;;;
  str LonCell [icell] #0 ;;;
  (if Z.rem irow 2 =? 0 then
     str XCell [icell] (dc * fofZ icol + dc / #2) ;;;
     irow1 <- iadd irow 1 ;;
     str YCell [icell] (dc * fofZ irow1 * fsqrt #3 / #2) ;;;
     str ZCell [icell] #0
   else
     icol1 <- iadd icol 1 ;;
     str XCell [icell] (dc * fofZ icol1) ;;;
     irow1 <- iadd irow 1 ;;
     str YCell [icell] (dc * fofZ irow1 * fsqrt #3 / #2) ;;;
     str ZCell [icell] #0) ;;;
  x <- rdr XCell [icell] ;; e <- rdi EdgesOnCell [icell; 0] ;; str XEdge [e] (x - dc / #2) ;;;
  y <- rdr YCell [icell] ;; e <- rdi EdgesOnCell [icell; 0] ;; str YEdge [e] y ;;;
  e <- rdi EdgesOnCell [icell; 0] ;; str ZEdge [e] #0 ;;;
  x <- rdr XCell [icell] ;; e <- rdi EdgesOnCell [icell; 1] ;;
  str XEdge [e] (x - dc / #2 * fcos (fpi / #3)) ;;;
  y <- rdr YCell [icell] ;; e <- rdi EdgesOnCell [icell; 1] ;;
  str YEdge [e] (y - dc / #2 * fsin (fpi / #3)) ;;;
  e <- rdi EdgesOnCell [icell; 1] ;; str ZEdge [e] #0 ;;;
  x <- rdr XCell [icell] ;; e <- rdi EdgesOnCell [icell; 2] ;;
  str XEdge [e] (x + dc / #2 * fcos (fpi / #3)) ;;;
  y <- rdr YCell [icell] ;; e <- rdi EdgesOnCell [icell; 2] ;;
  str YEdge [e] (y - dc / #2 * fsin (fpi / #3)) ;;;
  e <- rdi EdgesOnCell [icell; 2] ;; str ZEdge [e] #0 ;;;
  e <- rdi EdgesOnCell [icell; 0] ;; str AngleEdge [e] #0 ;;;
  e <- rdi EdgesOnCell [icell; 1] ;; str AngleEdge [e] (fpi / #3) ;;;
  e <- rdi EdgesOnCell [icell; 2] ;; str AngleEdge [e] (#2 * fpi / #3) ;;;
  x <- rdr XCell [icell] ;; v <- rdi VerticesOnCell [icell; 0] ;; str XVertex [v] (x - dc / #2) ;;;
  y <- rdr YCell [icell] ;; v <- rdi VerticesOnCell [icell; 0] ;;
  str YVertex [v] (y + dc * fsqrt #3 / #6) ;;;
  v <- rdi VerticesOnCell [icell; 0] ;; str ZVertex [v] #0 ;;;
  x <- rdr XCell [icell] ;; v <- rdi VerticesOnCell [icell; 1] ;; str XVertex [v] (x - dc / #2) ;;;
  y <- rdr YCell [icell] ;; v <- rdi VerticesOnCell [icell; 1] ;;
  str YVertex [v] (y - dc * fsqrt #3 / #6) ;;;
  v <- rdi VerticesOnCell [icell; 1] ;; str ZVertex [v] #0)%fp.
Definition compute_cell_arrays : launch A := par2 (ny h) (nx h) compute_cell_arrays_body.

(** Kernel "compute_edge_arrays", planar_hexagonal_mesh.cpp l.378-385. *)
Definition compute_edge_arrays : launch A :=
  par1 (d_nedges D) (fun iedge =>
    sti NedgesOnEdge [iedge] 10 ;;;
    str DcEdge [iedge] (dc h) ;;;
    d <- rdr DcEdge [iedge] ;; str DvEdge [iedge] (d * fsqrt #3 / #3)%fp ;;;
    str LatEdge [iedge] (#0)%fp ;;;
    str LonEdge [iedge] (#0)%fp).

(** Kernel "compute_vertex_arrays", planar_hexagonal_mesh.cpp l.387-395. *)
Definition compute_vertex_arrays : launch A :=
  par1 (d_nvertices D) (fun ivertex =>
    str LatVertex [ivertex] (#0)%fp ;;;
    str LonVertex [ivertex] (#0)%fp ;;;
    str AreaTriangle [ivertex] (dc h * dc h * fsqrt #3 / #4)%fp ;;;
    for_u 3 (fun j => str KiteareasOnVertex [ivertex; j] (dc h * dc h * fsqrt #3 / #12)%fp)).

(** Kernel "finalize_cell", /repo/src/mesh/mpas_mesh.cpp l.21-36. *)
Definition finalize_cell : launch A :=
  par1 (d_ncells D) (fun icell =>
    n <- rdi NedgesOnCell [icell] ;;
    for_u n (fun j =>
      e <- rdi EdgesOnCell [icell; j] ;;
      c0 <- rdi CellsOnEdge [e; 0] ;;
      str EdgeSignOnCell [icell; j] (fofZ (if c0 =? icell then 1 else -1))) ;;;
    n <- rdi NedgesOnCell [icell] ;;
    for_u n (fun j =>
      jvertex <- rdi VerticesOnCell [icell; j] ;;
      for_u 3 (fun l =>
        c <- rdi CellsOnVertex [jvertex; l] ;;
        if c =? icell then sti KiteIndexOnCell [icell; j] l else Ret tt))).

(** Kernel "finalize_vertex", mpas_mesh.cpp l.38-46. *)
Definition finalize_vertex : launch A :=
  par1 (d_nvertices D) (fun ivertex =>
    for_u 3 (fun j =>
      e <- rdi EdgesOnVertex [ivertex; j] ;;
      v0 <- rdi VerticesOnEdge [e; 0] ;;
      str EdgeSignOnVertex [ivertex; j] (fofZ (if v0 =? ivertex then -1 else 1)))).
End MeshCode.

(** [Kokkos::deep_copy(view, scalar)] and [Kokkos::deep_copy(dst, src)]: element-wise, in any order. *)
Definition deep_copy_r {A} (D : dims) (a : rarr) (v : F A) : launch A :=
  par (rext D a) (fun t => str a t v).
Definition deep_copy_i {A} (D : dims) (a : iarr) (v : Z) : launch A :=
  par (iext D a) (fun t => sti a t v).
Definition deep_copy_rr {A} (D : dims) (dst src : rarr) : launch A :=
  par (rext D dst) (fun t => x <- rdr src t ;; str dst t x).

(** [finalize_mesh], mpas_mesh.cpp l.5-57. *)
Definition finalize_mesh {A} (cf : config) (h : hexargs A) : list (launch A) :=
  let D := dims_of cf h 0 in
  [finalize_cell cf h; finalize_vertex cf h;
   deep_copy_r D MeshScalingDel2 (#1)%fp; deep_copy_r D MeshScalingDel4 (#1)%fp;
   deep_copy_r D EdgeMask (#1)%fp;
   deep_copy_i D MaxLevelCell (d_nlayers D);
   deep_copy_i D MaxLevelEdgeBot (d_nlayers D); deep_copy_i D MaxLevelEdgeTop (d_nlayers D);
   deep_copy_i D MaxLevelVertexBot (d_nlayers D); deep_copy_i D MaxLevelVertexTop (d_nlayers D)].

(** The constructor, planar_hexagonal_mesh.cpp l.8-62 and l.168-398. *)
Definition mesh_ctor {A} (cf : config) (h : hexargs A) : list (launch A) :=
  [ctor_sizes cf h; compute_mesh_arrays h; scale_weights cf h; compute_cell_arrays h;
   compute_edge_arrays cf h; compute_vertex_arrays cf h] ++ finalize_mesh cf h.
