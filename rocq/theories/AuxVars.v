(** Model of the auxiliary variables: /repo/src/model/auxiliary_vars/*.hpp and
    /repo/src/model/shallow_water_auxstate.cpp.

    Conventions used in this file and in Tend.v.  The number of iterations of a loop of the form
    [for (Int j = 0; j < a(i); ++j)] is read once (the views holding loop bounds are never written
    by these kernels).  Loops marked [omp simd] are executed in index order; their iterations are
    independent.  The operands of an expression are read from left to right, the right hand side
    of an assignment before its left hand side. *)
From Coq Require Import ZArith List Bool.
From Verif Require Import Arith Arrays Prog Conc Mesh.
Import ListNotations.
Open Scope Z_scope.

(** A local array [Real x[vector_length]] or a [Vec] (common.hpp l.16): the value of each lane. *)
Definition vec (A : Arith) := Z -> F A.
Definition lset {A} (x : vec A) (i : Z) (v : F A) : vec A := fun j => if j =? i then v else x j.
(** [Real x[vector_length] = {0}] and [Vec x = 0]. *)
Definition vzero {A} : vec A := fun _ => fofZ 0.

(** Element of a LayoutRight view (common.hpp l.42) that is [i] elements behind the element
    [pre ++ [k]]: the flat offset is decoded into indices again, so a vector access that runs over
    the end of a row continues in the next row, and one that runs over the end of the view yields
    an index out of bounds. *)
Definition lane_ix (D : dims) (pre : list Z) (k i : Z) : list Z :=
  match pre with
  | [r] => [r + (k + i) / d_nlayers D; (k + i) mod d_nlayers D]
  | [l; r] =>
      let r' := r + (k + i) / d_nlayers D in
      [l + r' / d_ncells D; r' mod d_ncells D; (k + i) mod d_nlayers D]
  | _ => []
  end.

Section Aux.
Context {A : Arith} (cf : config) (D : dims).
Local Notation VL := (vector_length cf).
Local Notation LN := (lanes cf).

(** [v.copy_from(&a(pre..., k), VecTag())]: loads [Vec::size()] consecutive elements. *)
Definition vload (a : rarr) (pre : list Z) (k : Z) : prog A (vec A) :=
  for_ LN vzero (fun i v => x <- rdr a (lane_ix D pre k i) ;; Ret (lset v i x)).
(** [v.copy_to(&a(pre..., k), VecTag())]. *)
Definition vstore (a : rarr) (pre : list Z) (k : Z) (v : vec A) : prog A unit :=
  for_u LN (fun i => str a (lane_ix D pre k i) (v i)).

(** kinetic_aux.hpp l.21-42. *)
Definition compute_kinetic_cell_simd (s : sid) (icell kchunk : Z) : prog A unit :=
  (kstart <- imul kchunk VL ;;
   area <- rdr AreaCell [icell] ;;
   let inv_area_cell := #1 / area in
   n <- rdi NedgesOnCell [icell] ;;
   kd <- for_ n (vzero, vzero) (fun j kd =>
     jedge <- rdi EdgesOnCell [icell; j] ;;
     dv <- rdr DvEdge [jedge] ;;
     dc <- rdr DcEdge [jedge] ;;
     let area_edge := dv * dc in
     vn <- vload (VnEdge s) [jedge] kstart ;;
     dv' <- rdr DvEdge [jedge] ;;
     sg <- rdr EdgeSignOnCell [icell; j] ;;
     Ret (fun i => fst kd i + inv_area_cell * area_edge * vn i * vn i * fquarter,
          fun i => snd kd i + inv_area_cell * dv' * sg * vn i)) ;;
   vstore VelDivCell [icell] kstart (snd kd) ;;;
   vstore KeCell [icell] kstart (fst kd))%fp.

(** kinetic_aux.hpp l.44-73. *)
Definition compute_kinetic_cell_scalar (s : sid) (icell kchunk : Z) : prog A unit :=
  (kstart <- imul kchunk VL ;;
   area <- rdr AreaCell [icell] ;;
   let inv_area_cell := #1 / area in
   n <- rdi NedgesOnCell [icell] ;;
   kd <- for_ n (vzero, vzero) (fun j kd =>
     jedge <- rdi EdgesOnCell [icell; j] ;;
     dv <- rdr DvEdge [jedge] ;;
     dc <- rdr DcEdge [jedge] ;;
     let area_edge := dv * dc in
     for_ VL kd (fun kvec kd =>
       k <- iadd kstart kvec ;;
       vn1 <- rdr (VnEdge s) [jedge; k] ;;
       vn2 <- rdr (VnEdge s) [jedge; k] ;;
       let ke := lset (fst kd) kvec (fst kd kvec + inv_area_cell * area_edge * vn1 * vn2 * fquarter) in
       dv' <- rdr DvEdge [jedge] ;;
       sg <- rdr EdgeSignOnCell [icell; j] ;;
       vn3 <- rdr (VnEdge s) [jedge; k] ;;
       Ret (ke, lset (snd kd) kvec (snd kd kvec + inv_area_cell * dv' * sg * vn3)))) ;;
   for_u VL (fun kvec =>
     k <- iadd kstart kvec ;;
     str VelDivCell [icell; k] (snd kd kvec) ;;;
     str KeCell [icell; k] (fst kd kvec)))%fp.

(** Choice by [#ifdef OMEGA_KOKKOS_SIMD], kinetic_aux.hpp l.20, l.43, l.74. *)
Definition compute_kinetic_cell (s : sid) (icell kchunk : Z) : prog A unit :=
  if ksimd cf then compute_kinetic_cell_simd s icell kchunk else compute_kinetic_cell_scalar s icell kchunk.

(** thickness_aux.hpp l.15-31. *)
Definition compute_thickness_edge_simd (s : sid) (iedge kchunk : Z) : prog A unit :=
  (kstart <- imul kchunk VL ;;
   jcell0 <- rdi CellsOnEdge [iedge; 0] ;;
   jcell1 <- rdi CellsOnEdge [iedge; 1] ;;
   h0 <- vload (HCell s) [jcell0] kstart ;;
   h1 <- vload (HCell s) [jcell1] kstart ;;
   let mean_h_edge := fun i => fhalf * (h0 i + h1 i) in
   vstore MeanHEdge [iedge] kstart mean_h_edge ;;;
   vstore FluxHEdge [iedge] kstart mean_h_edge)%fp.

(** thickness_aux.hpp l.33-52. *)
Definition compute_thickness_edge_scalar (s : sid) (iedge kchunk : Z) : prog A unit :=
  (kstart <- imul kchunk VL ;;
   jcell0 <- rdi CellsOnEdge [iedge; 0] ;;
   jcell1 <- rdi CellsOnEdge [iedge; 1] ;;
   mean <- for_ VL vzero (fun kvec mean =>
     k <- iadd kstart kvec ;;
     h0 <- rdr (HCell s) [jcell0; k] ;;
     h1 <- rdr (HCell s) [jcell1; k] ;;
     Ret (lset mean kvec (fhalf * (h0 + h1)))) ;;
   for_u VL (fun kvec =>
     k <- iadd kstart kvec ;;
     str MeanHEdge [iedge; k] (mean kvec) ;;;
     str FluxHEdge [iedge; k] (mean kvec)))%fp.

(** thickness_aux.hpp l.14, l.32, l.53. *)
Definition compute_thickness_edge (s : sid) (iedge kchunk : Z) : prog A unit :=
  if ksimd cf then compute_thickness_edge_simd s iedge kchunk else compute_thickness_edge_scalar s iedge kchunk.

(** tracer_aux.hpp l.13-29. *)
Definition compute_norm_tracer_cell_simd (s : sid) (l icell kchunk : Z) : prog A unit :=
  (kstart <- imul VL kchunk ;;
   tr <- vload (TrCell s) [l; icell] kstart ;;
   h <- vload (HCell s) [icell] kstart ;;
   let inv_h_cell := fun i => #1 / h i in
   vstore NormTrCell [l; icell] kstart (fun i => tr i * inv_h_cell i))%fp.

(** tracer_aux.hpp l.31-51. *)
Definition compute_norm_tracer_cell_scalar (s : sid) (l icell kchunk : Z) : prog A unit :=
  (kstart <- imul VL kchunk ;;
   norm <- for_ VL vzero (fun kvec norm =>
     k <- iadd kstart kvec ;;
     h <- rdr (HCell s) [icell; k] ;;
     let inv_h_cell := #1 / h in
     tr <- rdr (TrCell s) [l; icell; k] ;;
     Ret (lset norm kvec (tr * inv_h_cell))) ;;
   for_u VL (fun kvec =>
     k <- iadd kstart kvec ;;
     str NormTrCell [l; icell; k] (norm kvec)))%fp.

(** tracer_aux.hpp l.12, l.30, l.52. *)
Definition compute_norm_tracer_cell (s : sid) (l icell kchunk : Z) : prog A unit :=
  if ksimd cf then compute_norm_tracer_cell_simd s l icell kchunk
  else compute_norm_tracer_cell_scalar s l icell kchunk.

(** vorticity_aux.hpp l.26-58. *)
Definition compute_vort_vertex_simd (s : sid) (ivertex kchunk : Z) : prog A unit :=
  (kstart <- imul kchunk VL ;;
   at_ <- rdr AreaTriangle [ivertex] ;;
   let inv_area_triangle := #1 / at_ in
   rt <- for_ 3 (vzero, vzero) (fun j rt =>
     jedge <- rdi EdgesOnVertex [ivertex; j] ;;
     jcell <- rdi CellsOnVertex [ivertex; j] ;;
     vn <- vload (VnEdge s) [jedge] kstart ;;
     h <- vload (HCell s) [jcell] kstart ;;
     dc <- rdr DcEdge [jedge] ;;
     sg <- rdr EdgeSignOnVertex [ivertex; j] ;;
     ka <- rdr KiteareasOnVertex [ivertex; j] ;;
     Ret (fun i => fst rt i + dc * inv_area_triangle * sg * vn i,
          fun i => snd rt i + ka * inv_area_triangle * h i)) ;;
   let inv_thick_vertex := fun i => #1 / snd rt i in
   vstore RvortVertex [ivertex] kstart (fst rt) ;;;
   vstore NormRvortVertex [ivertex] kstart (fun i => fst rt i * inv_thick_vertex i) ;;;
   f <- rdr FVertex [ivertex] ;;
   vstore NormPvortVertex [ivertex] kstart (fun i => inv_thick_vertex i * f))%fp.

(** vorticity_aux.hpp l.85-116. *)
Definition compute_vort_vertex_scalar (s : sid) (ivertex kchunk : Z) : prog A unit :=
  (kstart <- imul kchunk VL ;;
   at_ <- rdr AreaTriangle [ivertex] ;;
   let inv_area_triangle := #1 / at_ in
   rt <- for_ 3 (vzero, vzero) (fun j rt =>
     jedge <- rdi EdgesOnVertex [ivertex; j] ;;
     jcell <- rdi CellsOnVertex [ivertex; j] ;;
     for_ VL rt (fun kvec rt =>
       k <- iadd kstart kvec ;;
       dc <- rdr DcEdge [jedge] ;;
       sg <- rdr EdgeSignOnVertex [ivertex; j] ;;
       vn <- rdr (VnEdge s) [jedge; k] ;;
       let r := lset (fst rt) kvec (fst rt kvec + dc * inv_area_triangle * sg * vn) in
       ka <- rdr KiteareasOnVertex [ivertex; j] ;;
       h <- rdr (HCell s) [jcell; k] ;;
       Ret (r, lset (snd rt) kvec (snd rt kvec + ka * inv_area_triangle * h)))) ;;
   for_u VL (fun kvec =>
     let inv_thick_vertex := #1 / snd rt kvec in
     k <- iadd kstart kvec ;;
     str RvortVertex [ivertex; k] (fst rt kvec) ;;;
     str NormRvortVertex [ivertex; k] (inv_thick_vertex * fst rt kvec) ;;;
     f <- rdr FVertex [ivertex] ;;
     str NormPvortVertex [ivertex; k] (inv_thick_vertex * f)))%fp.

(** vorticity_aux.hpp l.25, l.84, l.133. *)
Definition compute_vort_vertex (s : sid) (ivertex kchunk : Z) : prog A unit :=
  if ksimd cf then compute_vort_vertex_simd s ivertex kchunk else compute_vort_vertex_scalar s ivertex kchunk.

(** vorticity_aux.hpp l.60-83. *)
Definition compute_vort_edge_simd (iedge kchunk : Z) : prog A unit :=
  (kstart <- imul kchunk VL ;;
   jvertex0 <- rdi VerticesOnEdge [iedge; 0] ;;
   jvertex1 <- rdi VerticesOnEdge [iedge; 1] ;;
   r0 <- vload NormRvortVertex [jvertex0] kstart ;;
   r1 <- vload NormRvortVertex [jvertex1] kstart ;;
   p0 <- vload NormPvortVertex [jvertex0] kstart ;;
   p1 <- vload NormPvortVertex [jvertex1] kstart ;;
   vstore NormRvortEdge [iedge] kstart (fun i => fhalf * (r0 i + r1 i)) ;;;
   vstore NormPvortEdge [iedge] kstart (fun i => fhalf * (p0 i + p1 i)))%fp.

(** vorticity_aux.hpp l.118-132. *)
Definition compute_vort_edge_scalar (iedge kchunk : Z) : prog A unit :=
  (kstart <- imul kchunk VL ;;
   jvertex0 <- rdi VerticesOnEdge [iedge; 0] ;;
   jvertex1 <- rdi VerticesOnEdge [iedge; 1] ;;
   for_u VL (fun kvec =>
     k <- iadd kstart kvec ;;
     r0 <- rdr NormRvortVertex [jvertex0; k] ;;
     r1 <- rdr NormRvortVertex [jvertex1; k] ;;
     str NormRvortEdge [iedge; k] (fhalf * (r0 + r1)) ;;;
     p0 <- rdr NormPvortVertex [jvertex0; k] ;;
     p1 <- rdr NormPvortVertex [jvertex1; k] ;;
     str NormPvortEdge [iedge; k] (fhalf * (p0 + p1))))%fp.

(** vorticity_aux.hpp l.25, l.84, l.133. *)
Definition compute_vort_edge (iedge kchunk : Z) : prog A unit :=
  if ksimd cf then compute_vort_edge_simd iedge kchunk else compute_vort_edge_scalar iedge kchunk.

(** Kernel "compute_vertex_auxiliarys", shallow_water_auxstate.cpp l.23-28. *)
Definition compute_vertex_auxiliarys (s : sid) : launch A :=
  par2 (d_nvertices D) (d_nlayers_vec D) (fun ivertex k => compute_vort_vertex s ivertex k).

(** Kernel "compute_cell_auxiliarys", shallow_water_auxstate.cpp l.30-39
    ([tr_cell.extent(0)] is [m_ntracers], shallow_water_state.cpp l.10). *)
Definition compute_cell_auxiliarys (s : sid) : launch A :=
  par2 (d_ncells D) (d_nlayers_vec D) (fun icell k =>
    compute_kinetic_cell s icell k ;;;
    for_u (d_ntracers D) (fun l => compute_norm_tracer_cell s l icell k)).

(** Kernel "compute_edge_auxiliarys", shallow_water_auxstate.cpp l.44-49. *)
Definition compute_edge_auxiliarys (s : sid) : launch A :=
  par2 (d_nedges D) (d_nlayers_vec D) (fun iedge k =>
    compute_thickness_edge s iedge k ;;;
    compute_vort_edge iedge k).

(** [ShallowWaterAuxiliaryState::compute], shallow_water_auxstate.cpp l.12-50. *)
Definition aux_compute (s : sid) : list (launch A) :=
  [compute_vertex_auxiliarys s; compute_cell_auxiliarys s; compute_edge_auxiliarys s].
End Aux.
