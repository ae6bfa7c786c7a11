(** Model of [ShallowWaterModel] (/repo/src/model/shallow_water_model.{hpp,cpp}), of the time
    steppers (/repo/src/time_integration/*.cpp) and of the diagnostics
    (/repo/src/model/shallow_water_diagnostics.cpp). *)
From Coq Require Import ZArith List Bool Permutation.
From Verif Require Import Arith Arrays Prog Conc Mesh AuxVars Tend.
Import ListNotations.
Open Scope Z_scope.

(** [AddMode], shallow_water_model.hpp l.12. *)
Inductive add_mode : Set := Replace | Increment.
Definition is_replace (md : add_mode) : bool := match md with Replace => true | Increment => false end.

(** [ShallowWaterParams], shallow_water_params.hpp l.7-18. *)
Record params (A : Arith) : Type := mkParams {
  f0 : F A; grav : F A; drag_coeff : F A; visc_del2 : F A; visc_del4 : F A;
  eddy_diff2 : F A; eddy_diff4 : F A; ntracers : Z;
  disable_h : bool; disable_vn : bool
}.
Arguments mkParams {_} _ _ _ _ _ _ _ _ _ _.
Arguments f0 {_} _.
Arguments grav {_} _.
Arguments drag_coeff {_} _.
Arguments visc_del2 {_} _.
Arguments visc_del4 {_} _.
Arguments eddy_diff2 {_} _.
Arguments eddy_diff4 {_} _.
Arguments ntracers {_} _.
Arguments disable_h {_} _.
Arguments disable_vn {_} _.

(** The overridable [additional_tendency], shallow_water_model.hpp l.42-44.  [None] is the default
    (empty) one.  [Some] is the shape of the override in
    /repo/test/nonlinear_swe_convergence.cpp l.74-105: pointwise forcings of the thickness tendency
    and of the two velocity components, functions of position and time.  Simplification: other
    overrides are not modelled. *)
Record forcing (A : Arith) : Type := mkForcing {
  force_h : F A -> F A -> F A -> F A;
  force_vx : F A -> F A -> F A -> F A;
  force_vy : F A -> F A -> F A -> F A
}.
Arguments force_h {_} _ _ _ _.
Arguments force_vx {_} _ _ _ _.
Arguments force_vy {_} _ _ _ _.

(** A configured model: build configuration, mesh arguments, parameters and hook. *)
Record setup (A : Arith) : Type := mkSetup {
  cfg_of : config; mesh_of_setup : hexargs A; par_of : params A; hook : option (forcing A)
}.
Arguments cfg_of {_} _.
Arguments mesh_of_setup {_} _.
Arguments par_of {_} _.
Arguments hook {_} _.
Arguments mkSetup {_} _ _ _ _.

(** Sizes of all views of the program: mesh sizes and [m_ntracers]. *)
Definition sdims {A} (S : setup A) : dims := dims_of (cfg_of S) (mesh_of_setup S) (ntracers (par_of S)).

(** The optional terms: [m_enabled] of each term, shallow_water_model.cpp l.17-35. *)
Definition vel_diff_enabled {A} (P : params A) : bool := flt (fofZ 0) (visc_del2 P).
Definition vel_hyperdiff_enabled {A} (P : params A) : bool := flt (fofZ 0) (visc_del4 P).
Definition tracer_diff_enabled {A} (P : params A) : bool := flt (fofZ 0) (eddy_diff2 P).
Definition tracer_hyperdiff_enabled {A} (P : params A) : bool := flt (fofZ 0) (eddy_diff4 P).

Definition when {A} (b : bool) (p : prog A unit) : prog A unit := if b then p else Ret tt.
Definition whenL {A} (b : bool) (L : list (launch A)) : list (launch A) := if b then L else [].

Section Model.
Context {A : Arith} (S : setup A).
Let cf := cfg_of S.
Let P := par_of S.
Let D := sdims S.

(** Constructor, shallow_water_model.cpp l.5-41 (the device side effects; the enabling of the terms
    is [vel_diff_enabled] etc. above). *)
Definition model_ctor : list (launch A) :=
  [deep_copy_r D FVertex (f0 P); deep_copy_r D FEdge (f0 P)].

(** [compute_h_tendency], shallow_water_model.cpp l.43-86. *)
Definition compute_h_tendency (t s : sid) (md : add_mode) : list (launch A) :=
  if noif cf then
    whenL (is_replace md)
      [par2 (d_ncells D) (d_nlayers_vec D) (fun icell kchunk => zero_chunk cf (HCell t) [icell] kchunk)] ++
    [par2 (d_ncells D) (d_nlayers_vec D) (fun icell kchunk => thickness_hadv_cell cf D t s icell kchunk)]
  else
    [par2 (d_ncells D) (d_nlayers_vec D) (fun icell kchunk =>
       when (is_replace md) (zero_chunk cf (HCell t) [icell] kchunk) ;;;
       thickness_hadv_cell cf D t s icell kchunk)].

(** [compute_vn_tendency], shallow_water_model.cpp l.88-219. *)
Definition compute_vn_tendency (t s : sid) (md : add_mode) : list (launch A) :=
  let edges := par2 (d_nedges D) (d_nlayers_vec D) in
  whenL (vel_hyperdiff_enabled P)
    [edges (fun iedge kchunk => compute_vel_del2 cf D iedge kchunk);
     par2 (d_nvertices D) (d_nlayers_vec D) (fun ivertex kchunk => compute_vel_del2_rvort cf D ivertex kchunk);
     par2 (d_ncells D) (d_nlayers_vec D) (fun icell kchunk => compute_vel_del2_div cf D icell kchunk)] ++
  if noif cf then
    whenL (is_replace md) [edges (fun iedge kchunk => zero_chunk cf (VnEdge t) [iedge] kchunk)] ++
    [edges (fun iedge kchunk => pv_flux_edge cf D t s iedge kchunk)] ++
    [edges (fun iedge kchunk => ke_grad_edge cf D t iedge kchunk)] ++
    [edges (fun iedge kchunk => ssh_grad_edge cf D (grav P) t s iedge kchunk)] ++
    whenL (vel_diff_enabled P) [edges (fun iedge kchunk => vel_diff_edge cf D (visc_del2 P) t iedge kchunk)] ++
    whenL (vel_hyperdiff_enabled P)
      [edges (fun iedge kchunk => vel_hyperdiff_edge cf D (visc_del4 P) t iedge kchunk)]
  else
    [edges (fun iedge kchunk =>
       when (is_replace md) (zero_chunk cf (VnEdge t) [iedge] kchunk) ;;;
       pv_flux_edge cf D t s iedge kchunk ;;;
       ke_grad_edge cf D t iedge kchunk ;;;
       ssh_grad_edge cf D (grav P) t s iedge kchunk ;;;
       when (vel_diff_enabled P) (vel_diff_edge cf D (visc_del2 P) t iedge kchunk) ;;;
       when (vel_hyperdiff_enabled P) (vel_hyperdiff_edge cf D (visc_del4 P) t iedge kchunk))].

(** [compute_tr_tendency], shallow_water_model.cpp l.221-311.  As in the code, [flux_h_edge] is
    bound to [m_mean_h_edge] and [mean_h_edge] to [m_flux_h_edge] (l.225-228). *)
Definition compute_tr_tendency (t s : sid) (md : add_mode) : list (launch A) :=
  let flux_h_edge := MeanHEdge in
  let mean_h_edge := FluxHEdge in
  let cells := par3 (ntracers P) (d_ncells D) (d_nlayers_vec D) in
  whenL (tracer_hyperdiff_enabled P)
    [cells (fun l icell kchunk => compute_tracer_del2 cf D mean_h_edge l icell kchunk)] ++
  if noif cf then
    whenL (is_replace md) [cells (fun l icell kchunk => zero_chunk cf (TrCell t) [l; icell] kchunk)] ++
    [cells (fun l icell kchunk => tracer_hadv_cell cf D flux_h_edge t s l icell kchunk)] ++
    whenL (tracer_diff_enabled P)
      [cells (fun l icell kchunk => tracer_diff_cell cf D (eddy_diff2 P) mean_h_edge t l icell kchunk)] ++
    whenL (tracer_hyperdiff_enabled P)
      [cells (fun l icell kchunk => tracer_hyperdiff_cell cf D (eddy_diff4 P) t l icell kchunk)]
  else
    [cells (fun l icell kchunk =>
       when (is_replace md) (zero_chunk cf (TrCell t) [l; icell] kchunk) ;;;
       tracer_hadv_cell cf D flux_h_edge t s l icell kchunk ;;;
       when (tracer_diff_enabled P) (tracer_diff_cell cf D (eddy_diff2 P) mean_h_edge t l icell kchunk) ;;;
       when (tracer_hyperdiff_enabled P) (tracer_hyperdiff_cell cf D (eddy_diff4 P) t l icell kchunk))].

(** [additional_tendency], see [forcing]. *)
Definition additional_tendency (t : sid) (time : F A) : list (launch A) :=
  match hook S with
  | None => []
  | Some fc =>
      [par2 (d_ncells D) (d_nlayers D) (fun icell k =>
         x <- rdr XCell [icell] ;; y <- rdr YCell [icell] ;;
         h <- rdr (HCell t) [icell; k] ;;
         str (HCell t) [icell; k] (h + force_h fc x y time)%fp);
       par2 (d_nedges D) (d_nlayers D) (fun iedge k =>
         x <- rdr XEdge [iedge] ;; y <- rdr YEdge [iedge] ;;
         a <- rdr AngleEdge [iedge] ;;
         v <- rdr (VnEdge t) [iedge; k] ;;
         str (VnEdge t) [iedge; k]
           (v + (fcos a * force_vx fc x y time + fsin a * force_vy fc x y time))%fp)]
  end.

(** [compute_tendency], shallow_water_model.cpp l.313-347 (the timers are no-ops or profiling,
    common.hpp l.159-177, and are not modelled). *)
Definition compute_tendency (t s : sid) (time : F A) (md : add_mode) : list (launch A) :=
  aux_compute cf D s ++
  whenL (negb (disable_h P)) (compute_h_tendency t s md) ++
  whenL (negb (disable_vn P)) (compute_vn_tendency t s md) ++
  whenL (0 <? ntracers P) (compute_tr_tendency t s md) ++
  additional_tendency t time.

(** ** RK4 *)

(** [m_rka], [m_rkb], [m_rkc], rk4.cpp l.14-25. *)
Definition rk4_a (stage : Z) : F A := (if stage =? 2 then #1 else #1 / #2)%fp.
Definition rk4_b (stage : Z) : F A := (if (stage =? 0) || (stage =? 3) then #1 / #6 else #1 / #3)%fp.
Definition rk4_c (stage : Z) : F A := (if stage =? 2 then #1 else #1 / #2)%fp.

(** The loops of lsrk.cpp l.70-87 and rk4.cpp l.55-72: [state += dt * rkb_stage * tend]. *)
Definition accumulate (dt b : F A) : list (launch A) :=
  [par2 (d_ncells D) (d_nlayers D) (fun icell k =>
     x <- rdr (HCell Tend) [icell; k] ;; h <- rdr (HCell St) [icell; k] ;;
     str (HCell St) [icell; k] (h + dt * b * x)%fp);
   par2 (d_nedges D) (d_nlayers D) (fun iedge k =>
     x <- rdr (VnEdge Tend) [iedge; k] ;; v <- rdr (VnEdge St) [iedge; k] ;;
     str (VnEdge St) [iedge; k] (v + dt * b * x)%fp)] ++
  whenL (0 <? ntracers P)
    [par3 (ntracers P) (d_ncells D) (d_nlayers D) (fun l icell k =>
       x <- rdr (TrCell Tend) [l; icell; k] ;; r <- rdr (TrCell St) [l; icell; k] ;;
       str (TrCell St) [l; icell; k] (r + dt * b * x)%fp)].

(** rk4.cpp l.78-99: [provis = old + dt * rka_stage * tend]. *)
Definition provis (dt a : F A) : list (launch A) :=
  [par2 (d_ncells D) (d_nlayers D) (fun icell k =>
     h <- rdr (HCell Old) [icell; k] ;; x <- rdr (HCell Tend) [icell; k] ;;
     str (HCell Provis) [icell; k] (h + dt * a * x)%fp);
   par2 (d_nedges D) (d_nlayers D) (fun iedge k =>
     v <- rdr (VnEdge Old) [iedge; k] ;; x <- rdr (VnEdge Tend) [iedge; k] ;;
     str (VnEdge Provis) [iedge; k] (v + dt * a * x)%fp)] ++
  whenL (0 <? ntracers P)
    [par3 (ntracers P) (d_ncells D) (d_nlayers D) (fun l icell k =>
       r <- rdr (TrCell Old) [l; icell; k] ;; x <- rdr (TrCell Tend) [l; icell; k] ;;
       str (TrCell Provis) [l; icell; k] (r + dt * a * x)%fp)].

(** One iteration of the stage loop, rk4.cpp l.52-103. *)
Definition rk4_stage (t dt : F A) (stage : Z) : list (launch A) :=
  accumulate dt (rk4_b stage) ++
  whenL (stage <? 4 - 1)
    (provis dt (rk4_a stage) ++
     compute_tendency Tend Provis (t + rk4_c stage * dt)%fp Replace).

(** [RK4Stepper::do_step], rk4.cpp l.28-104. *)
Definition rk4_step (t dt : F A) : list (launch A) :=
  [deep_copy_rr D (HCell Old) (HCell St);
   deep_copy_rr D (VnEdge Old) (VnEdge St);
   deep_copy_rr D (TrCell Old) (TrCell St)] ++
  compute_tendency Tend St t Replace ++
  flat_map (rk4_stage t dt) (zseq 4).

(** ** Low storage Runge-Kutta *)

(** [m_rka], [m_rkb], [m_rkc], lsrk.cpp l.6-7 (vectors of [nstages] zeros) and l.16-33. *)
Definition lsrk_a (nstages stage : Z) : F A :=
  (if nstages =? 5 then
     match stage with
     | 0 => #0
     | 1 => #(-567301805773) / #1357537059087
     | 2 => #(-2404267990393) / #2016746695238
     | 3 => #(-3550918686646) / #2091501179385
     | _ => #(-1275806237668) / #842570457699
     end
   else #0)%fp.
Definition lsrk_b (nstages stage : Z) : F A :=
  (if nstages =? 5 then
     match stage with
     | 0 => #1432997174477 / #9575080441755
     | 1 => #5161836677717 / #13612068292357
     | 2 => #1720146321549 / #2090206949498
     | 3 => #3134564353537 / #4481467310338
     | _ => #2277821191437 / #14882151754819
     end
   else if nstages =? 1 then #1 else #0)%fp.
Definition lsrk_c (nstages stage : Z) : F A :=
  (if nstages =? 5 then
     match stage with
     | 0 => #0
     | 1 => #1432997174477 / #9575080441755
     | 2 => #2526269341429 / #6820363962896
     | 3 => #2006345519317 / #3224310063776
     | _ => #2802321613138 / #2924317926251
     end
   else #0)%fp.

(** lsrk.cpp l.47-63: [tend *= rka_stage]. *)
Definition scale_tend (a : F A) : list (launch A) :=
  [par2 (d_ncells D) (d_nlayers D) (fun icell k =>
     x <- rdr (HCell Tend) [icell; k] ;; str (HCell Tend) [icell; k] (x * a)%fp);
   par2 (d_nedges D) (d_nlayers D) (fun iedge k =>
     x <- rdr (VnEdge Tend) [iedge; k] ;; str (VnEdge Tend) [iedge; k] (x * a)%fp)] ++
  whenL (0 <? ntracers P)
    [par3 (ntracers P) (d_ncells D) (d_nlayers D) (fun l icell k =>
       x <- rdr (TrCell Tend) [l; icell; k] ;; str (TrCell Tend) [l; icell; k] (x * a)%fp)].

(** Constructor, lsrk.cpp l.10-14 (a negative [nstages] makes [std::vector] throw and is not
    modelled). *)
Definition lsrk_ctor : list (launch A) :=
  [deep_copy_r D (HCell Tend) (#0)%fp; deep_copy_r D (VnEdge Tend) (#0)%fp] ++
  whenL (0 <? ntracers P) [deep_copy_r D (TrCell Tend) (#0)%fp].

(** One iteration of the stage loop, lsrk.cpp l.45-88. *)
Definition lsrk_stage (nstages : Z) (t dt : F A) (stage : Z) : list (launch A) :=
  scale_tend (lsrk_a nstages stage) ++
  compute_tendency Tend St (t + lsrk_c nstages stage * dt)%fp Increment ++
  accumulate dt (lsrk_b nstages stage).

(** [LSRKStepper::do_step], lsrk.cpp l.36-89. *)
Definition lsrk_step (nstages : Z) (t dt : F A) : list (launch A) :=
  flat_map (lsrk_stage nstages t dt) (zseq nstages).

(** ** Diagnostics: what one iteration adds to the reduction variable *)

(** shallow_water_diagnostics.cpp l.22-36.  [s] is the state passed in. *)
Definition column_energy (s : sid) (icell : Z) (column_energy : F A) : prog A (F A) :=
  (n <- rdi MaxLevelCell [icell] ;;
   for_ n column_energy (fun k ce =>
     ne <- rdi NedgesOnCell [icell] ;;
     K <- for_ ne #0 (fun j K =>
       jedge <- rdi EdgesOnCell [icell; j] ;;
       dv <- rdr DvEdge [jedge] ;; dc <- rdr DcEdge [jedge] ;;
       let area_edge := dv * dc in
       v1 <- rdr (VnEdge s) [jedge; k] ;; v2 <- rdr (VnEdge s) [jedge; k] ;;
       Ret (K + area_edge * v1 * v2 / #4)) ;;
     ac <- rdr AreaCell [icell] ;;
     let K := K / ac in
     ac' <- rdr AreaCell [icell] ;;
     h1 <- rdr (HCell s) [icell; k] ;; h2 <- rdr (HCell s) [icell; k] ;;
     h3 <- rdr (HCell s) [icell; k] ;;
     Ret (ce + ac' * (grav P * h1 * h2 / #2 + h3 * K))))%fp.

(** shallow_water_diagnostics.cpp l.51-56. *)
Definition column_mass (s : sid) (icell : Z) (column_mass : F A) : prog A (F A) :=
  (n <- rdi MaxLevelCell [icell] ;;
   for_ n column_mass (fun k cm =>
     ac <- rdr AreaCell [icell] ;; h <- rdr (HCell s) [icell; k] ;;
     Ret (cm + ac * h)))%fp.

(** shallow_water_diagnostics.cpp l.75-87. *)
Definition column_circulation (s : sid) (ivertex : Z) (column_circulation : F A) : prog A (F A) :=
  (n <- rdi MaxLevelVertexBot [ivertex] ;;
   for_ n column_circulation (fun k cc =>
     cir_i <- for_ 3 #0 (fun j cir_i =>
       jedge <- rdi EdgesOnVertex [ivertex; j] ;;
       dc <- rdr DcEdge [jedge] ;; sg <- rdr EdgeSignOnVertex [ivertex; j] ;;
       v <- rdr (VnEdge s) [jedge; k] ;;
       Ret (cir_i + dc * sg * v)) ;;
     f <- rdr FVertex [ivertex] ;; at_ <- rdr AreaTriangle [ivertex] ;;
     Ret (cc + (cir_i + f * at_))))%fp.
End Model.

(** ** [parallel_reduce] with the default sum reducer (common.hpp l.113-134): the iterations are
    split into any number of groups in any order, each group is folded from zero, and the partial
    results are added in any order.  [None] is undefined behaviour. *)
Inductive reduces {A} (D : dims) (m : mem A) (body : Z -> F A -> prog A (F A)) : list Z -> option (F A) -> Prop :=
| red_leaf l r :
    fold_left (fun acc i =>
      match acc with
      | Some x => match run D (body i x) m with Some (y, _) => Some y | None => None end
      | None => None
      end) l (Some (fofZ 0)) = r -> reduces D m body l r
| red_join l1 l2 r1 r2 :
    reduces D m body l1 r1 -> reduces D m body l2 r2 ->
    reduces D m body (l1 ++ l2)
      (match r1, r2 with Some x, Some y => Some (x + y)%fp | _, _ => None end)
| red_perm l l' r : Permutation l l' -> reduces D m body l r -> reduces D m body l' r.

(** [energy_integral], [mass_integral], [circulation_integral]: the possible results,
    shallow_water_diagnostics.cpp l.5-89. *)
Definition energy_integral {A} (S : setup A) (s : sid) (m : mem A) (r : option (F A)) : Prop :=
  reduces (sdims S) m (column_energy S s) (zseq (d_ncells (sdims S))) r.
Definition mass_integral {A} (S : setup A) (s : sid) (m : mem A) (r : option (F A)) : Prop :=
  reduces (sdims S) m (column_mass s) (zseq (d_ncells (sdims S))) r.
Definition circulation_integral {A} (S : setup A) (s : sid) (m : mem A) (r : option (F A)) : Prop :=
  reduces (sdims S) m (column_circulation s) (zseq (d_nvertices (sdims S))) r.
