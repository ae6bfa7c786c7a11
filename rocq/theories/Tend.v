(** Model of the tendency terms: /repo/src/model/tendency_terms/*.hpp.  Conventions as in AuxVars.v;
    [t] is the state object that receives the tendency. *)
From Coq Require Import ZArith List Bool.
From Verif Require Import Arith Arrays Prog Conc Mesh AuxVars.
Import ListNotations.
Open Scope Z_scope.

Section Tend.
Context {A : Arith} (cf : config) (D : dims).
Local Notation VL := (vector_length cf).
Local Notation vload := (vload cf D).
Local Notation vstore := (vstore cf D).

(** The loops [for (kvec < vector_length) { k = kchunk * vector_length + kvec; a(..., k) = 0; }] of
    shallow_water_model.cpp l.56-59, l.75-78, l.137-140, l.190-193, l.252-255, l.290-293. *)
Definition zero_chunk (a : rarr) (pre : list Z) (kchunk : Z) : prog A unit :=
  for_u VL (fun kvec =>
    k0 <- imul kchunk VL ;; k <- iadd k0 kvec ;;
    str a (pre ++ [k]) (#0)%fp).

(** [x.copy_from(&a(pre, kstart)); x += v; x.copy_to(&a(pre, kstart))] and the same with [-=]. *)
Definition vadd_to (a : rarr) (pre : list Z) (k : Z) (v : vec A) : prog A unit :=
  (x <- vload a pre k ;; vstore a pre k (fun i => x i + v i))%fp.
Definition vsub_from (a : rarr) (pre : list Z) (k : Z) (v : vec A) : prog A unit :=
  (x <- vload a pre k ;; vstore a pre k (fun i => x i - v i))%fp.

(** [for (kvec < vector_length) { k = kstart + kvec; a(pre, k) += accum[kvec]; }] *)
Definition add_chunk (a : rarr) (pre : list Z) (kstart : Z) (accum : vec A) : prog A unit :=
  (for_u VL (fun kvec =>
     k <- iadd kstart kvec ;;
     x <- rdr a (pre ++ [k]) ;; str a (pre ++ [k]) (x + accum kvec)))%fp.

(** ** Thickness *)

(** thickness_hadv_cell.hpp l.21-46. *)
Definition thickness_hadv_cell_simd (t s : sid) (icell kchunk : Z) : prog A unit :=
  (kstart <- imul kchunk VL ;;
   area <- rdr AreaCell [icell] ;;
   let inv_area_cell := #1 / area in
   n <- rdi NedgesOnCell [icell] ;;
   accum <- for_ n vzero (fun j accum =>
     jedge <- rdi EdgesOnCell [icell; j] ;;
     vn <- vload (VnEdge s) [jedge] kstart ;;
     hf <- vload FluxHEdge [jedge] kstart ;;
     dv <- rdr DvEdge [jedge] ;;
     sg <- rdr EdgeSignOnCell [icell; j] ;;
     Ret (fun i => accum i - dv * inv_area_cell * sg * hf i * vn i)) ;;
   vadd_to (HCell t) [icell] kstart accum)%fp.

(** thickness_hadv_cell.hpp l.48-72. *)
Definition thickness_hadv_cell_scalar (t s : sid) (icell kchunk : Z) : prog A unit :=
  (kstart <- imul kchunk VL ;;
   area <- rdr AreaCell [icell] ;;
   let inv_area_cell := #1 / area in
   n <- rdi NedgesOnCell [icell] ;;
   accum <- for_ n vzero (fun j accum =>
     jedge <- rdi EdgesOnCell [icell; j] ;;
     for_ VL accum (fun kvec accum =>
       k <- iadd kstart kvec ;;
       dv <- rdr DvEdge [jedge] ;;
       sg <- rdr EdgeSignOnCell [icell; j] ;;
       hf <- rdr FluxHEdge [jedge; k] ;;
       vn <- rdr (VnEdge s) [jedge; k] ;;
       Ret (lset accum kvec (accum kvec - dv * inv_area_cell * sg * hf * vn)))) ;;
   add_chunk (HCell t) [icell] kstart accum)%fp.

(** thickness_hadv_cell.hpp l.20, l.47, l.73. *)
Definition thickness_hadv_cell (t s : sid) (icell kchunk : Z) : prog A unit :=
  if ksimd cf then thickness_hadv_cell_simd t s icell kchunk else thickness_hadv_cell_scalar t s icell kchunk.

(** ** Velocity *)

(** pv_flux_edge.hpp l.19-54. *)
Definition pv_flux_edge_simd (t s : sid) (iedge kchunk : Z) : prog A unit :=
  (kstart <- imul kchunk VL ;;
   ri <- vload NormRvortEdge [iedge] kstart ;;
   fi <- vload NormPvortEdge [iedge] kstart ;;
   n <- rdi NedgesOnEdge [iedge] ;;
   qt <- for_ n vzero (fun j qt =>
     jedge <- rdi EdgesOnEdge [iedge; j] ;;
     rj <- vload NormRvortEdge [jedge] kstart ;;
     fj <- vload NormPvortEdge [jedge] kstart ;;
     vn <- vload (VnEdge s) [jedge] kstart ;;
     hf <- vload FluxHEdge [jedge] kstart ;;
     let norm_vort := fun i => fhalf * (ri i + fi i + rj i + fj i) in
     w <- rdr WeightsOnEdge [iedge; j] ;;
     Ret (fun i => qt i + w * hf i * vn i * norm_vort i)) ;;
   vadd_to (VnEdge t) [iedge] kstart qt)%fp.

(** pv_flux_edge.hpp l.56-84. *)
Definition pv_flux_edge_scalar (t s : sid) (iedge kchunk : Z) : prog A unit :=
  (kstart <- imul kchunk VL ;;
   n <- rdi NedgesOnEdge [iedge] ;;
   qt <- for_ n vzero (fun j qt =>
     jedge <- rdi EdgesOnEdge [iedge; j] ;;
     for_ VL qt (fun kvec qt =>
       k <- iadd kstart kvec ;;
       ri <- rdr NormRvortEdge [iedge; k] ;;
       fi <- rdr NormPvortEdge [iedge; k] ;;
       rj <- rdr NormRvortEdge [jedge; k] ;;
       fj <- rdr NormPvortEdge [jedge; k] ;;
       let norm_vort := (ri + fi + rj + fj) * fhalf in
       w <- rdr WeightsOnEdge [iedge; j] ;;
       hf <- rdr FluxHEdge [jedge; k] ;;
       vn <- rdr (VnEdge s) [jedge; k] ;;
       Ret (lset qt kvec (qt kvec + w * hf * vn * norm_vort)))) ;;
   add_chunk (VnEdge t) [iedge] kstart qt)%fp.

(** pv_flux_edge.hpp l.18, l.55, l.85. *)
Definition pv_flux_edge (t s : sid) (iedge kchunk : Z) : prog A unit :=
  if ksimd cf then pv_flux_edge_simd t s iedge kchunk else pv_flux_edge_scalar t s iedge kchunk.

(** ke_grad_edge.hpp l.18-35. *)
Definition ke_grad_edge_simd (t : sid) (iedge kchunk : Z) : prog A unit :=
  (kstart <- imul kchunk VL ;;
   icell0 <- rdi CellsOnEdge [iedge; 0] ;;
   icell1 <- rdi CellsOnEdge [iedge; 1] ;;
   dc <- rdr DcEdge [iedge] ;;
   let inv_dc_edge := #1 / dc in
   ke0 <- vload KeCell [icell0] kstart ;;
   ke1 <- vload KeCell [icell1] kstart ;;
   vsub_from (VnEdge t) [iedge] kstart (fun i => (ke1 i - ke0 i) * inv_dc_edge))%fp.

(** ke_grad_edge.hpp l.37-51. *)
Definition ke_grad_edge_scalar (t : sid) (iedge kchunk : Z) : prog A unit :=
  (kstart <- imul kchunk VL ;;
   icell0 <- rdi CellsOnEdge [iedge; 0] ;;
   icell1 <- rdi CellsOnEdge [iedge; 1] ;;
   dc <- rdr DcEdge [iedge] ;;
   let inv_dc_edge := #1 / dc in
   for_u VL (fun kvec =>
     k <- iadd kstart kvec ;;
     ke1 <- rdr KeCell [icell1; k] ;;
     ke0 <- rdr KeCell [icell0; k] ;;
     x <- rdr (VnEdge t) [iedge; k] ;;
     str (VnEdge t) [iedge; k] (x - (ke1 - ke0) * inv_dc_edge)))%fp.

(** ke_grad_edge.hpp l.17, l.36, l.52. *)
Definition ke_grad_edge (t : sid) (iedge kchunk : Z) : prog A unit :=
  if ksimd cf then ke_grad_edge_simd t iedge kchunk else ke_grad_edge_scalar t iedge kchunk.

(** ssh_grad_edge.hpp l.19-35. *)
Definition ssh_grad_edge_simd (grav : F A) (t s : sid) (iedge kchunk : Z) : prog A unit :=
  (kstart <- imul kchunk VL ;;
   icell0 <- rdi CellsOnEdge [iedge; 0] ;;
   icell1 <- rdi CellsOnEdge [iedge; 1] ;;
   dc <- rdr DcEdge [iedge] ;;
   let inv_dc_edge := #1 / dc in
   h0 <- vload (HCell s) [icell0] kstart ;;
   h1 <- vload (HCell s) [icell1] kstart ;;
   vsub_from (VnEdge t) [iedge] kstart (fun i => grav * (h1 i - h0 i) * inv_dc_edge))%fp.

(** ssh_grad_edge.hpp l.37-50. *)
Definition ssh_grad_edge_scalar (grav : F A) (t s : sid) (iedge kchunk : Z) : prog A unit :=
  (kstart <- imul kchunk VL ;;
   icell0 <- rdi CellsOnEdge [iedge; 0] ;;
   icell1 <- rdi CellsOnEdge [iedge; 1] ;;
   dc <- rdr DcEdge [iedge] ;;
   let inv_dc_edge := #1 / dc in
   for_u VL (fun kvec =>
     k <- iadd kstart kvec ;;
     h1 <- rdr (HCell s) [icell1; k] ;;
     h0 <- rdr (HCell s) [icell0; k] ;;
     x <- rdr (VnEdge t) [iedge; k] ;;
     str (VnEdge t) [iedge; k] (x - grav * (h1 - h0) * inv_dc_edge)))%fp.

(** ssh_grad_edge.hpp l.18, l.36, l.51. *)
Definition ssh_grad_edge (grav : F A) (t s : sid) (iedge kchunk : Z) : prog A unit :=
  if ksimd cf then ssh_grad_edge_simd grav t s iedge kchunk else ssh_grad_edge_scalar grav t s iedge kchunk.

(** vel_diff_edge.hpp l.24-59. *)
Definition vel_diff_edge_simd (visc_del2 : F A) (t : sid) (iedge kchunk : Z) : prog A unit :=
  (kstart <- imul kchunk VL ;;
   icell0 <- rdi CellsOnEdge [iedge; 0] ;;
   icell1 <- rdi CellsOnEdge [iedge; 1] ;;
   ivertex0 <- rdi VerticesOnEdge [iedge; 0] ;;
   ivertex1 <- rdi VerticesOnEdge [iedge; 1] ;;
   dc <- rdr DcEdge [iedge] ;;
   let dc_edge_inv := #1 / dc in
   dv <- rdr DvEdge [iedge] ;;
   let dv_edge_inv := #1 / dv in
   d0 <- vload VelDivCell [icell0] kstart ;;
   d1 <- vload VelDivCell [icell1] kstart ;;
   r0 <- vload RvortVertex [ivertex0] kstart ;;
   r1 <- vload RvortVertex [ivertex1] kstart ;;
   let del2u := fun i => (d1 i - d0 i) * dc_edge_inv - (r1 i - r0 i) * dv_edge_inv in
   mask <- vload EdgeMask [iedge] kstart ;;
   sc <- rdr MeshScalingDel2 [iedge] ;;
   vadd_to (VnEdge t) [iedge] kstart (fun i => visc_del2 * sc * mask i * del2u i))%fp.

(** vel_diff_edge.hpp l.61-86. *)
Definition vel_diff_edge_scalar (visc_del2 : F A) (t : sid) (iedge kchunk : Z) : prog A unit :=
  (kstart <- imul kchunk VL ;;
   icell0 <- rdi CellsOnEdge [iedge; 0] ;;
   icell1 <- rdi CellsOnEdge [iedge; 1] ;;
   ivertex0 <- rdi VerticesOnEdge [iedge; 0] ;;
   ivertex1 <- rdi VerticesOnEdge [iedge; 1] ;;
   dc <- rdr DcEdge [iedge] ;;
   let dc_edge_inv := #1 / dc in
   dv <- rdr DvEdge [iedge] ;;
   let dv_edge_inv := #1 / dv in
   for_u VL (fun kvec =>
     k <- iadd kstart kvec ;;
     d1 <- rdr VelDivCell [icell1; k] ;;
     d0 <- rdr VelDivCell [icell0; k] ;;
     r1 <- rdr RvortVertex [ivertex1; k] ;;
     r0 <- rdr RvortVertex [ivertex0; k] ;;
     let del2u := (d1 - d0) * dc_edge_inv - (r1 - r0) * dv_edge_inv in
     mask <- rdr EdgeMask [iedge; k] ;;
     sc <- rdr MeshScalingDel2 [iedge] ;;
     x <- rdr (VnEdge t) [iedge; k] ;;
     str (VnEdge t) [iedge; k] (x + mask * visc_del2 * sc * del2u)))%fp.

(** vel_diff_edge.hpp l.23, l.60, l.87. *)
Definition vel_diff_edge (visc_del2 : F A) (t : sid) (iedge kchunk : Z) : prog A unit :=
  if ksimd cf then vel_diff_edge_simd visc_del2 t iedge kchunk else vel_diff_edge_scalar visc_del2 t iedge kchunk.

(** vel_hyperdiff_edge.hpp l.35-63. *)
Definition compute_vel_del2_simd (iedge kchunk : Z) : prog A unit :=
  (kstart <- imul kchunk VL ;;
   icell0 <- rdi CellsOnEdge [iedge; 0] ;;
   icell1 <- rdi CellsOnEdge [iedge; 1] ;;
   ivertex0 <- rdi VerticesOnEdge [iedge; 0] ;;
   ivertex1 <- rdi VerticesOnEdge [iedge; 1] ;;
   dc <- rdr DcEdge [iedge] ;;
   let dc_edge_inv := #1 / dc in
   dv <- rdr DvEdge [iedge] ;;
   dc' <- rdr DcEdge [iedge] ;;
   let dv_edge_inv := #1 / fmax dv (fquarter * dc') in
   d0 <- vload VelDivCell [icell0] kstart ;;
   d1 <- vload VelDivCell [icell1] kstart ;;
   r0 <- vload RvortVertex [ivertex0] kstart ;;
   r1 <- vload RvortVertex [ivertex1] kstart ;;
   vstore VelDel2Edge [iedge] kstart
     (fun i => (d1 i - d0 i) * dc_edge_inv - (r1 i - r0 i) * dv_edge_inv))%fp.

(** vel_hyperdiff_edge.hpp l.140-164. *)
Definition compute_vel_del2_scalar (iedge kchunk : Z) : prog A unit :=
  (kstart <- imul kchunk VL ;;
   icell0 <- rdi CellsOnEdge [iedge; 0] ;;
   icell1 <- rdi CellsOnEdge [iedge; 1] ;;
   ivertex0 <- rdi VerticesOnEdge [iedge; 0] ;;
   ivertex1 <- rdi VerticesOnEdge [iedge; 1] ;;
   dc <- rdr DcEdge [iedge] ;;
   let dc_edge_inv := #1 / dc in
   dv <- rdr DvEdge [iedge] ;;
   dc' <- rdr DcEdge [iedge] ;;
   let dv_edge_inv := #1 / fmax dv (fquarter * dc') in
   for_u VL (fun kvec =>
     k <- iadd kstart kvec ;;
     d1 <- rdr VelDivCell [icell1; k] ;;
     d0 <- rdr VelDivCell [icell0; k] ;;
     r1 <- rdr RvortVertex [ivertex1; k] ;;
     r0 <- rdr RvortVertex [ivertex0; k] ;;
     str VelDel2Edge [iedge; k] ((d1 - d0) * dc_edge_inv - (r1 - r0) * dv_edge_inv)))%fp.

(** vel_hyperdiff_edge.hpp l.34, l.139, l.238. *)
Definition compute_vel_del2 (iedge kchunk : Z) : prog A unit :=
  if ksimd cf then compute_vel_del2_simd iedge kchunk else compute_vel_del2_scalar iedge kchunk.

(** vel_hyperdiff_edge.hpp l.65-80.  The vector loaded at l.72-73 is not used: the scalar
    [m_vel_del2_edge(jedge, kstart)] enters the sum. *)
Definition compute_vel_del2_rvort_simd (ivertex kchunk : Z) : prog A unit :=
  (kstart <- imul kchunk VL ;;
   at_ <- rdr AreaTriangle [ivertex] ;;
   let inv_area_triangle := #1 / at_ in
   rvort <- for_ 3 vzero (fun j rvort =>
     jedge <- rdi EdgesOnVertex [ivertex; j] ;;
     unused <- vload VelDel2Edge [jedge] kstart ;;
     dc <- rdr DcEdge [jedge] ;;
     sg <- rdr EdgeSignOnVertex [ivertex; j] ;;
     x <- rdr VelDel2Edge [jedge; kstart] ;;
     Ret (fun i => rvort i + dc * inv_area_triangle * sg * x)) ;;
   vstore VelDel2RvortVertex [ivertex] kstart rvort)%fp.

(** vel_hyperdiff_edge.hpp l.166-187. *)
Definition compute_vel_del2_rvort_scalar (ivertex kchunk : Z) : prog A unit :=
  (kstart <- imul kchunk VL ;;
   at_ <- rdr AreaTriangle [ivertex] ;;
   let inv_area_triangle := #1 / at_ in
   rvort <- for_ 3 vzero (fun j rvort =>
     jedge <- rdi EdgesOnVertex [ivertex; j] ;;
     for_ VL rvort (fun kvec rvort =>
       k <- iadd kstart kvec ;;
       dc <- rdr DcEdge [jedge] ;;
       sg <- rdr EdgeSignOnVertex [ivertex; j] ;;
       x <- rdr VelDel2Edge [jedge; k] ;;
       Ret (lset rvort kvec (rvort kvec + dc * inv_area_triangle * sg * x)))) ;;
   for_u VL (fun kvec =>
     k <- iadd kstart kvec ;;
     str VelDel2RvortVertex [ivertex; k] (rvort kvec)))%fp.

(** vel_hyperdiff_edge.hpp l.34, l.139, l.238. *)
Definition compute_vel_del2_rvort (ivertex kchunk : Z) : prog A unit :=
  if ksimd cf then compute_vel_del2_rvort_simd ivertex kchunk else compute_vel_del2_rvort_scalar ivertex kchunk.

(** vel_hyperdiff_edge.hpp l.82-97. *)
Definition compute_vel_del2_div_simd (icell kchunk : Z) : prog A unit :=
  (kstart <- imul kchunk VL ;;
   area <- rdr AreaCell [icell] ;;
   let inv_area_cell := #1 / area in
   n <- rdi NedgesOnCell [icell] ;;
   accum <- for_ n vzero (fun j accum =>
     jedge <- rdi EdgesOnCell [icell; j] ;;
     x <- vload VelDel2Edge [jedge] kstart ;;
     dv <- rdr DvEdge [jedge] ;;
     sg <- rdr EdgeSignOnCell [icell; j] ;;
     Ret (fun i => accum i + dv * inv_area_cell * sg * x i)) ;;
   vstore VelDel2DivCell [icell] kstart accum)%fp.

(** vel_hyperdiff_edge.hpp l.189-210. *)
Definition compute_vel_del2_div_scalar (icell kchunk : Z) : prog A unit :=
  (kstart <- imul kchunk VL ;;
   area <- rdr AreaCell [icell] ;;
   let inv_area_cell := #1 / area in
   n <- rdi NedgesOnCell [icell] ;;
   accum <- for_ n vzero (fun j accum =>
     jedge <- rdi EdgesOnCell [icell; j] ;;
     for_ VL accum (fun kvec accum =>
       k <- iadd kstart kvec ;;
       dv <- rdr DvEdge [jedge] ;;
       sg <- rdr EdgeSignOnCell [icell; j] ;;
       x <- rdr VelDel2Edge [jedge; k] ;;
       Ret (lset accum kvec (accum kvec + dv * inv_area_cell * sg * x)))) ;;
   for_u VL (fun kvec =>
     k <- iadd kstart kvec ;;
     str VelDel2DivCell [icell; k] (accum kvec)))%fp.

(** vel_hyperdiff_edge.hpp l.34, l.139, l.238. *)
Definition compute_vel_del2_div (icell kchunk : Z) : prog A unit :=
  if ksimd cf then compute_vel_del2_div_simd icell kchunk else compute_vel_del2_div_scalar icell kchunk.

(** vel_hyperdiff_edge.hpp l.99-138. *)
Definition vel_hyperdiff_edge_simd (visc_del4 : F A) (t : sid) (iedge kchunk : Z) : prog A unit :=
  (kstart <- imul kchunk VL ;;
   icell0 <- rdi CellsOnEdge [iedge; 0] ;;
   icell1 <- rdi CellsOnEdge [iedge; 1] ;;
   ivertex0 <- rdi VerticesOnEdge [iedge; 0] ;;
   ivertex1 <- rdi VerticesOnEdge [iedge; 1] ;;
   dc <- rdr DcEdge [iedge] ;;
   let dc_edge_inv := #1 / dc in
   dv <- rdr DvEdge [iedge] ;;
   let dv_edge_inv := #1 / dv in
   d0 <- vload VelDel2DivCell [icell0] kstart ;;
   d1 <- vload VelDel2DivCell [icell1] kstart ;;
   r0 <- vload VelDel2RvortVertex [ivertex0] kstart ;;
   r1 <- vload VelDel2RvortVertex [ivertex1] kstart ;;
   let del2u := fun i => (d1 i - d0 i) * dc_edge_inv - (r1 i - r0 i) * dv_edge_inv in
   mask <- vload EdgeMask [iedge] kstart ;;
   sc <- rdr MeshScalingDel4 [iedge] ;;
   vsub_from (VnEdge t) [iedge] kstart (fun i => mask i * visc_del4 * sc * del2u i))%fp.

(** vel_hyperdiff_edge.hpp l.212-237. *)
Definition vel_hyperdiff_edge_scalar (visc_del4 : F A) (t : sid) (iedge kchunk : Z) : prog A unit :=
  (kstart <- imul kchunk VL ;;
   icell0 <- rdi CellsOnEdge [iedge; 0] ;;
   icell1 <- rdi CellsOnEdge [iedge; 1] ;;
   ivertex0 <- rdi VerticesOnEdge [iedge; 0] ;;
   ivertex1 <- rdi VerticesOnEdge [iedge; 1] ;;
   dc <- rdr DcEdge [iedge] ;;
   let dc_edge_inv := #1 / dc in
   dv <- rdr DvEdge [iedge] ;;
   let dv_edge_inv := #1 / dv in
   for_u VL (fun kvec =>
     k <- iadd kstart kvec ;;
     d1 <- rdr VelDel2DivCell [icell1; k] ;;
     d0 <- rdr VelDel2DivCell [icell0; k] ;;
     r1 <- rdr VelDel2RvortVertex [ivertex1; k] ;;
     r0 <- rdr VelDel2RvortVertex [ivertex0; k] ;;
     let del2u := (d1 - d0) * dc_edge_inv - (r1 - r0) * dv_edge_inv in
     mask <- rdr EdgeMask [iedge; k] ;;
     sc <- rdr MeshScalingDel4 [iedge] ;;
     x <- rdr (VnEdge t) [iedge; k] ;;
     str (VnEdge t) [iedge; k] (x - mask * visc_del4 * sc * del2u)))%fp.

(** vel_hyperdiff_edge.hpp l.34, l.139, l.238. *)
Definition vel_hyperdiff_edge (visc_del4 : F A) (t : sid) (iedge kchunk : Z) : prog A unit :=
  if ksimd cf then vel_hyperdiff_edge_simd visc_del4 t iedge kchunk
  else vel_hyperdiff_edge_scalar visc_del4 t iedge kchunk.

(** ** Tracers *)

(** tracer_hadv_cell.hpp l.22-58.  [hf] is the view passed as [h_flux_edge]. *)
Definition tracer_hadv_cell_simd (hf : rarr) (t s : sid) (l icell kchunk : Z) : prog A unit :=
  (kstart <- imul kchunk VL ;;
   area <- rdr AreaCell [icell] ;;
   let inv_area_cell := #1 / area in
   n <- rdi NedgesOnCell [icell] ;;
   accum <- for_ n vzero (fun j accum =>
     jedge <- rdi EdgesOnCell [icell; j] ;;
     jcell0 <- rdi CellsOnEdge [jedge; 0] ;;
     jcell1 <- rdi CellsOnEdge [jedge; 1] ;;
     tr0 <- vload NormTrCell [l; jcell0] kstart ;;
     tr1 <- vload NormTrCell [l; jcell1] kstart ;;
     let norm_tr_jedge := fun i => fhalf * (tr0 i + tr1 i) in
     h <- vload hf [jedge] kstart ;;
     vn <- vload (VnEdge s) [jedge] kstart ;;
     dv <- rdr DvEdge [jedge] ;;
     sg <- rdr EdgeSignOnCell [icell; j] ;;
     Ret (fun i => accum i - dv * inv_area_cell * sg * h i * norm_tr_jedge i * vn i)) ;;
   vadd_to (TrCell t) [l; icell] kstart accum)%fp.

(** tracer_hadv_cell.hpp l.60-90. *)
Definition tracer_hadv_cell_scalar (hf : rarr) (t s : sid) (l icell kchunk : Z) : prog A unit :=
  (kstart <- imul kchunk VL ;;
   area <- rdr AreaCell [icell] ;;
   let inv_area_cell := #1 / area in
   n <- rdi NedgesOnCell [icell] ;;
   accum <- for_ n vzero (fun j accum =>
     jedge <- rdi EdgesOnCell [icell; j] ;;
     jcell0 <- rdi CellsOnEdge [jedge; 0] ;;
     jcell1 <- rdi CellsOnEdge [jedge; 1] ;;
     for_ VL accum (fun kvec accum =>
       k <- iadd kstart kvec ;;
       tr0 <- rdr NormTrCell [l; jcell0; k] ;;
       tr1 <- rdr NormTrCell [l; jcell1; k] ;;
       let norm_tr_edge := (tr0 + tr1) * fhalf in
       dv <- rdr DvEdge [jedge] ;;
       sg <- rdr EdgeSignOnCell [icell; j] ;;
       h <- rdr hf [jedge; k] ;;
       vn <- rdr (VnEdge s) [jedge; k] ;;
       Ret (lset accum kvec (accum kvec - dv * inv_area_cell * sg * h * norm_tr_edge * vn)))) ;;
   add_chunk (TrCell t) [l; icell] kstart accum)%fp.

(** tracer_hadv_cell.hpp l.21, l.59, l.91. *)
Definition tracer_hadv_cell (hf : rarr) (t s : sid) (l icell kchunk : Z) : prog A unit :=
  if ksimd cf then tracer_hadv_cell_simd hf t s l icell kchunk else tracer_hadv_cell_scalar hf t s l icell kchunk.

(** tracer_diff_cell.hpp l.26-59.  [hm] is the view passed as [h_mean_edge]. *)
Definition tracer_diff_cell_simd (eddy_diff2 : F A) (hm : rarr) (t : sid) (l icell kchunk : Z) : prog A unit :=
  (kstart <- imul kchunk VL ;;
   area <- rdr AreaCell [icell] ;;
   let inv_area_cell := #1 / area in
   n <- rdi NedgesOnCell [icell] ;;
   accum <- for_ n vzero (fun j accum =>
     jedge <- rdi EdgesOnCell [icell; j] ;;
     dc <- rdr DcEdge [jedge] ;;
     let inv_dc_edge := #1 / dc in
     jcell0 <- rdi CellsOnEdge [jedge; 0] ;;
     jcell1 <- rdi CellsOnEdge [jedge; 1] ;;
     tr0 <- vload NormTrCell [l; jcell0] kstart ;;
     tr1 <- vload NormTrCell [l; jcell1] kstart ;;
     h <- vload hm [jedge] kstart ;;
     let grad_tr_jedge := fun i => (tr1 i - tr0 i) * inv_dc_edge in
     dv <- rdr DvEdge [jedge] ;;
     sg <- rdr EdgeSignOnCell [icell; j] ;;
     sc <- rdr MeshScalingDel2 [jedge] ;;
     Ret (fun i => accum i + eddy_diff2 * inv_area_cell * dv * sg * sc * h i * grad_tr_jedge i)) ;;
   vadd_to (TrCell t) [l; icell] kstart accum)%fp.

(** tracer_diff_cell.hpp l.61-92. *)
Definition tracer_diff_cell_scalar (eddy_diff2 : F A) (hm : rarr) (t : sid) (l icell kchunk : Z) : prog A unit :=
  (kstart <- imul kchunk VL ;;
   area <- rdr AreaCell [icell] ;;
   let inv_area_cell := #1 / area in
   n <- rdi NedgesOnCell [icell] ;;
   accum <- for_ n vzero (fun j accum =>
     jedge <- rdi EdgesOnCell [icell; j] ;;
     dc <- rdr DcEdge [jedge] ;;
     let inv_dc_edge := #1 / dc in
     jcell0 <- rdi CellsOnEdge [jedge; 0] ;;
     jcell1 <- rdi CellsOnEdge [jedge; 1] ;;
     for_ VL accum (fun kvec accum =>
       k <- iadd kstart kvec ;;
       tr1 <- rdr NormTrCell [l; jcell1; k] ;;
       tr0 <- rdr NormTrCell [l; jcell0; k] ;;
       let grad_tr_edge := (tr1 - tr0) * inv_dc_edge in
       dv <- rdr DvEdge [jedge] ;;
       sg <- rdr EdgeSignOnCell [icell; j] ;;
       h <- rdr hm [jedge; k] ;;
       sc <- rdr MeshScalingDel2 [jedge] ;;
       Ret (lset accum kvec
              (accum kvec + eddy_diff2 * inv_area_cell * dv * sg * h * sc * grad_tr_edge)))) ;;
   add_chunk (TrCell t) [l; icell] kstart accum)%fp.

(** tracer_diff_cell.hpp l.25, l.60, l.93. *)
Definition tracer_diff_cell (eddy_diff2 : F A) (hm : rarr) (t : sid) (l icell kchunk : Z) : prog A unit :=
  if ksimd cf then tracer_diff_cell_simd eddy_diff2 hm t l icell kchunk
  else tracer_diff_cell_scalar eddy_diff2 hm t l icell kchunk.

(** tracer_hyperdiff_cell.hpp l.27-59. *)
Definition compute_tracer_del2_simd (hm : rarr) (l icell kchunk : Z) : prog A unit :=
  (kstart <- imul kchunk VL ;;
   area <- rdr AreaCell [icell] ;;
   let inv_area_cell := #1 / area in
   n <- rdi NedgesOnCell [icell] ;;
   del2 <- for_ n vzero (fun j del2 =>
     jedge <- rdi EdgesOnCell [icell; j] ;;
     dc <- rdr DcEdge [jedge] ;;
     let inv_dc_edge := #1 / dc in
     jcell0 <- rdi CellsOnEdge [jedge; 0] ;;
     jcell1 <- rdi CellsOnEdge [jedge; 1] ;;
     tr0 <- vload NormTrCell [l; jcell0] kstart ;;
     tr1 <- vload NormTrCell [l; jcell1] kstart ;;
     let grad_tr_jedge := fun i => (tr1 i - tr0 i) * inv_dc_edge in
     h <- vload hm [jedge] kstart ;;
     dv <- rdr DvEdge [jedge] ;;
     sg <- rdr EdgeSignOnCell [icell; j] ;;
     Ret (fun i => del2 i + dv * inv_area_cell * sg * h i * grad_tr_jedge i)) ;;
   vstore TracerDel2Cell [l; icell] kstart del2)%fp.

(** tracer_hyperdiff_cell.hpp l.94-129. *)
Definition compute_tracer_del2_scalar (hm : rarr) (l icell kchunk : Z) : prog A unit :=
  (kstart <- imul kchunk VL ;;
   area <- rdr AreaCell [icell] ;;
   let inv_area_cell := #1 / area in
   n <- rdi NedgesOnCell [icell] ;;
   del2 <- for_ n vzero (fun j del2 =>
     jedge <- rdi EdgesOnCell [icell; j] ;;
     dc <- rdr DcEdge [jedge] ;;
     let inv_dc_edge := #1 / dc in
     jcell0 <- rdi CellsOnEdge [jedge; 0] ;;
     jcell1 <- rdi CellsOnEdge [jedge; 1] ;;
     for_ VL del2 (fun kvec del2 =>
       k <- iadd kstart kvec ;;
       tr1 <- rdr NormTrCell [l; jcell1; k] ;;
       tr0 <- rdr NormTrCell [l; jcell0; k] ;;
       let grad_tr_edge := (tr1 - tr0) * inv_dc_edge in
       dv <- rdr DvEdge [jedge] ;;
       sg <- rdr EdgeSignOnCell [icell; j] ;;
       h <- rdr hm [jedge; k] ;;
       Ret (lset del2 kvec (del2 kvec + dv * inv_area_cell * sg * h * grad_tr_edge)))) ;;
   for_u VL (fun kvec =>
     k <- iadd kstart kvec ;;
     str TracerDel2Cell [l; icell; k] (del2 kvec)))%fp.

(** tracer_hyperdiff_cell.hpp l.26, l.93, l.162. *)
Definition compute_tracer_del2 (hm : rarr) (l icell kchunk : Z) : prog A unit :=
  if ksimd cf then compute_tracer_del2_simd hm l icell kchunk else compute_tracer_del2_scalar hm l icell kchunk.

(** tracer_hyperdiff_cell.hpp l.61-92. *)
Definition tracer_hyperdiff_cell_simd (eddy_diff4 : F A) (t : sid) (l icell kchunk : Z) : prog A unit :=
  (kstart <- imul kchunk VL ;;
   area <- rdr AreaCell [icell] ;;
   let inv_area_cell := #1 / area in
   n <- rdi NedgesOnCell [icell] ;;
   accum <- for_ n vzero (fun j accum =>
     jedge <- rdi EdgesOnCell [icell; j] ;;
     dc <- rdr DcEdge [jedge] ;;
     let inv_dc_edge := #1 / dc in
     jcell0 <- rdi CellsOnEdge [jedge; 0] ;;
     jcell1 <- rdi CellsOnEdge [jedge; 1] ;;
     tr0 <- vload TracerDel2Cell [l; jcell0] kstart ;;
     tr1 <- vload TracerDel2Cell [l; jcell1] kstart ;;
     let grad_tr_del2_jedge := fun i => (tr1 i - tr0 i) * inv_dc_edge in
     dv <- rdr DvEdge [jedge] ;;
     sg <- rdr EdgeSignOnCell [icell; j] ;;
     sc <- rdr MeshScalingDel4 [jedge] ;;
     Ret (fun i => accum i - eddy_diff4 * inv_area_cell * dv * sg * sc * grad_tr_del2_jedge i)) ;;
   vadd_to (TrCell t) [l; icell] kstart accum)%fp.

(** tracer_hyperdiff_cell.hpp l.131-161. *)
Definition tracer_hyperdiff_cell_scalar (eddy_diff4 : F A) (t : sid) (l icell kchunk : Z) : prog A unit :=
  (kstart <- imul kchunk VL ;;
   area <- rdr AreaCell [icell] ;;
   let inv_area_cell := #1 / area in
   n <- rdi NedgesOnCell [icell] ;;
   accum <- for_ n vzero (fun j accum =>
     jedge <- rdi EdgesOnCell [icell; j] ;;
     dc <- rdr DcEdge [jedge] ;;
     let inv_dc_edge := #1 / dc in
     jcell0 <- rdi CellsOnEdge [jedge; 0] ;;
     jcell1 <- rdi CellsOnEdge [jedge; 1] ;;
     for_ VL accum (fun kvec accum =>
       k <- iadd kstart kvec ;;
       tr1 <- rdr TracerDel2Cell [l; jcell1; k] ;;
       tr0 <- rdr TracerDel2Cell [l; jcell0; k] ;;
       let grad_tr_del2_edge := (tr1 - tr0) * inv_dc_edge in
       dv <- rdr DvEdge [jedge] ;;
       sg <- rdr EdgeSignOnCell [icell; j] ;;
       sc <- rdr MeshScalingDel4 [jedge] ;;
       Ret (lset accum kvec
              (accum kvec - eddy_diff4 * inv_area_cell * dv * sg * sc * grad_tr_del2_edge)))) ;;
   add_chunk (TrCell t) [l; icell] kstart accum)%fp.

(** tracer_hyperdiff_cell.hpp l.26, l.93, l.162. *)
Definition tracer_hyperdiff_cell (eddy_diff4 : F A) (t : sid) (l icell kchunk : Z) : prog A unit :=
  if ksimd cf then tracer_hyperdiff_cell_simd eddy_diff4 t l icell kchunk
  else tracer_hyperdiff_cell_scalar eddy_diff4 t l icell kchunk.
End Tend.
