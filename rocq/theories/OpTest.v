(** Model of the program test/operator_convergence.cpp: the error functions of the four operators. *)
From Coq Require Import ZArith List Bool Permutation.
From Verif Require Import Arith Arrays Prog Conc Mesh Model.
Import ListNotations.
Open Scope Z_scope.

(** [std::abs] on [Real] (l.49, l.104, l.159, l.213).  Simplification: the result for -0 is -0, not 0 (no
    comparison can tell them apart). *)
Definition fabs {A : Arith} (x : F A) : F A := if flt x (#0)%fp then (- x)%fp else x.

(** [reduction_identity<double>::max()] of Kokkos: the smallest finite number. *)
Definition lowest {A : Arith} : F A := (- fofZ ((2 ^ 53 - 1) * 2 ^ 971))%fp.

(** [parallel_reduce] with [Kokkos::Max<Real>] (l.53-59 etc.): the iterations are split into any number of
    groups in any order, each group starts from the identity, and partial results are joined with
    [if (dest < src) dest = src] in any order.  [None] is undefined behaviour. *)
Inductive max_reduces {A} (D : dims) (m : mem A) (body : Z -> F A -> prog A (F A)) : list Z -> option (F A) -> Prop :=
| mred_leaf l r :
    fold_left (fun acc i =>
      match acc with
      | Some x => match run D (body i x) m with Some (y, _) => Some y | None => None end
      | None => None
      end) l (Some lowest) = r -> max_reduces D m body l r
| mred_join l1 l2 r1 r2 :
    max_reduces D m body l1 r1 -> max_reduces D m body l2 r2 ->
    max_reduces D m body (l1 ++ l2)
      (match r1, r2 with Some x, Some y => Some (fmax x y) | _, _ => None end)
| mred_perm l l' r : Permutation l l' -> max_reduces D m body l r -> max_reduces D m body l' r.

Section OpTest.
Context {A : Arith} (cf : config) (h : hexargs A).
Local Notation D := (dims_of cf h 0).
Local Open Scope fp_scope.

(** [Lx], [Ly], l.15-16, l.67-68, l.121-122, l.176-177. *)
Definition Lx : F A := period_x h.
Definition Ly : F A := period_y h.
(** [2 * pi * x / Lx], [2 * pi * y / Ly]. *)
Definition ax (x : F A) : F A := #2 * fpi * x / Lx.
Definition by_ (y : F A) : F A := #2 * fpi * y / Ly.
(** The scalar field, l.26, and its gradient, l.43-44. *)
Definition o_phi (x y : F A) : F A := fsin (ax x) * fsin (by_ y).
Definition o_gx (x y : F A) : F A := #2 * fpi / Lx * fcos (ax x) * fsin (by_ y).
Definition o_gy (x y : F A) : F A := #2 * fpi / Ly * fsin (ax x) * fcos (by_ y).
(** The vector field, l.81-82, l.136-137, l.195-196, its divergence, l.100-101, and curl, l.155-156. *)
Definition o_vx (x y : F A) : F A := fsin (ax x) * fcos (by_ y).
Definition o_vy (x y : F A) : F A := fcos (ax x) * fsin (by_ y).
Definition o_div (x y : F A) : F A := #2 * fpi * (#1 / Lx + #1 / Ly) * fcos (ax x) * fcos (by_ y).
Definition o_curl (x y : F A) : F A := #2 * fpi * (#(-1) / Lx + #1 / Ly) * fsin (ax x) * fsin (by_ y).

(** The views of a function: creation sets every element to zero. *)
Definition views (l : list rarr) : list (launch A) := map (fun a => deep_copy_r D a (#0)) l.
(** The statements [exact(i) -= approx(i); exact(i) = std::abs(exact(i));], l.48-49, l.103-104, l.158-159, l.212-213. *)
Definition abs_diff (exact approx : rarr) (i : Z) : prog A unit :=
  (e <- rdr exact [i] ;; a <- rdr approx [i] ;; str exact [i] (e - a) ;;;
   e <- rdr exact [i] ;; str exact [i] (fabs e)).
(** The reduction at the end of each function, l.52-59, l.107-113, l.162-168, l.216-222: the possible results. *)
Definition max_of (a : rarr) (n : Z) (m : mem A) (r : option (F A)) : Prop :=
  max_reduces D m (fun i accum => x <- rdr a [i] ;; Ret (fmax x accum)) (zseq n) r.

(** [error_gradient], l.11-61: views 0 (input_field), 1 (grad_field), 2 (exact_grad_field). *)
Definition gradient_kernels : list (launch A) :=
  views [CellField 0; EdgeField 1; EdgeField 2] ++
  [par1 (d_ncells D) (fun icell =>
     x <- rdr XCell [icell] ;; y <- rdr YCell [icell] ;; str (CellField 0) [icell] (o_phi x y));
   par1 (d_nedges D) (fun iedge =>
     icell0 <- rdi CellsOnEdge [iedge; 0] ;; icell1 <- rdi CellsOnEdge [iedge; 1] ;;
     f1 <- rdr (CellField 0) [icell1] ;; f0 <- rdr (CellField 0) [icell0] ;; dc <- rdr DcEdge [iedge] ;;
     str (EdgeField 1) [iedge] ((f1 - f0) / dc) ;;;
     a <- rdr AngleEdge [iedge] ;; x <- rdr XEdge [iedge] ;; y <- rdr YEdge [iedge] ;;
     str (EdgeField 2) [iedge] (fcos a * o_gx x y + fsin a * o_gy x y) ;;;
     abs_diff (EdgeField 2) (EdgeField 1) iedge)].
Definition error_gradient : mem A -> option (F A) -> Prop := max_of (EdgeField 2) (d_nedges D).

(** The first kernel of [error_divergence], l.74-86, and [error_curl], l.129-141. *)
Definition normal_kernel (a : rarr) : launch A :=
  par1 (d_nedges D) (fun iedge =>
    al <- rdr AngleEdge [iedge] ;; x <- rdr XEdge [iedge] ;; y <- rdr YEdge [iedge] ;;
    str a [iedge] (fcos al * o_vx x y + fsin al * o_vy x y)).

(** [error_divergence], l.63-115: views 3, 4, 5. *)
Definition divergence_kernels : list (launch A) :=
  views [EdgeField 3; CellField 4; CellField 5] ++
  [normal_kernel (EdgeField 3);
   par1 (d_ncells D) (fun icell =>
     n <- rdi NedgesOnCell [icell] ;;
     accum <- for_ n (#0) (fun j accum =>
       jedge <- rdi EdgesOnCell [icell; j] ;; dv <- rdr DvEdge [jedge] ;; sg <- rdr EdgeSignOnCell [icell; j] ;;
       v <- rdr (EdgeField 3) [jedge] ;; Ret (accum + dv * sg * v)) ;;
     ac <- rdr AreaCell [icell] ;; str (CellField 4) [icell] (accum / ac) ;;;
     x <- rdr XCell [icell] ;; y <- rdr YCell [icell] ;; str (CellField 5) [icell] (o_div x y) ;;;
     abs_diff (CellField 5) (CellField 4) icell)].
Definition error_divergence : mem A -> option (F A) -> Prop := max_of (CellField 5) (d_ncells D).

(** [error_curl], l.117-170: views 6, 7, 8. *)
Definition curl_kernels : list (launch A) :=
  views [EdgeField 6; VertexField 7; VertexField 8] ++
  [normal_kernel (EdgeField 6);
   par1 (d_nvertices D) (fun ivertex =>
     accum <- for_ 3 (#0) (fun j accum =>
       jedge <- rdi EdgesOnVertex [ivertex; j] ;; dc <- rdr DcEdge [jedge] ;; sg <- rdr EdgeSignOnVertex [ivertex; j] ;;
       v <- rdr (EdgeField 6) [jedge] ;; Ret (accum + dc * sg * v)) ;;
     at_ <- rdr AreaTriangle [ivertex] ;; str (VertexField 7) [ivertex] (accum / at_) ;;;
     x <- rdr XVertex [ivertex] ;; y <- rdr YVertex [ivertex] ;; str (VertexField 8) [ivertex] (o_curl x y) ;;;
     abs_diff (VertexField 8) (VertexField 7) ivertex)].
Definition error_curl : mem A -> option (F A) -> Prop := max_of (VertexField 8) (d_nvertices D).

(** [error_reconstruction], l.172-224: views 9, 10, 11. *)
Definition reconstruction_kernels : list (launch A) :=
  views [EdgeField 9; EdgeField 10; EdgeField 11] ++
  [par1 (d_nedges D) (fun iedge =>
     al <- rdr AngleEdge [iedge] ;; let nx := fcos al in let ny := fsin al in let tx := - ny in let ty := nx in
     x <- rdr XEdge [iedge] ;; y <- rdr YEdge [iedge] ;;
     str (EdgeField 9) [iedge] (nx * o_vx x y + ny * o_vy x y) ;;;
     str (EdgeField 11) [iedge] (tx * o_vx x y + ty * o_vy x y));
   par1 (d_nedges D) (fun iedge =>
     n <- rdi NedgesOnEdge [iedge] ;;
     accum <- for_ n (#0) (fun j accum =>
       iedge2 <- rdi EdgesOnEdge [iedge; j] ;; w <- rdr WeightsOnEdge [iedge; j] ;;
       v <- rdr (EdgeField 9) [iedge2] ;; Ret (accum + w * v)) ;;
     str (EdgeField 10) [iedge] accum ;;;
     abs_diff (EdgeField 11) (EdgeField 10) iedge)].
Definition error_reconstruction : mem A -> option (F A) -> Prop := max_of (EdgeField 11) (d_nedges D).

(** One iteration of the loop over the levels in [run], l.235-244, with the constructor of the mesh.
    Simplification: the four reductions only read; they are evaluated in the final memory, in which every
    view still has the value it had when the function it belongs to returned. *)
Definition op_level : list (launch A) :=
  mesh_ctor cf h ++ gradient_kernels ++ divergence_kernels ++ curl_kernels ++ reconstruction_kernels.
End OpTest.

(** [PlanarHexagonalMesh mesh(nx, nx)], l.236. *)
Definition op_mesh {A} (n : Z) : hexargs A := hex3 n n 1.
