(** The discrete operators as functions of the contents of the views, one layer at a time and
    without any reference to chunks, vectors or threads.  [sd] selects the order of the
    multiplications used when OMEGA_KOKKOS_SIMD is defined. *)
From Coq Require Import ZArith List Bool.
From Verif Require Import Arith Arrays Prog.
Import ListNotations.
Open Scope Z_scope.

Section Formulas.
Context {A : Arith}.
Implicit Types (m : mem A) (s : sid) (sd : bool) (x : F A).

(** Auxiliary variables. *)

(** Kinetic energy and divergence of the velocity at cell [c]. *)
Definition s_ke m s (c k : Z) (j : Z) (x : F A) : F A :=
  (let e := mi m EdgesOnCell [c; j] in
    x + #1 / mr m AreaCell [c] * (mr m DvEdge [e] * mr m DcEdge [e]) *
        mr m (VnEdge s) [e; k] * mr m (VnEdge s) [e; k] * fquarter)%fp.
Definition f_ke m s (c k : Z) : F A := iterZ (mi m NedgesOnCell [c]) (s_ke m s c k) (#0)%fp.
Definition s_div m s (c k : Z) (j : Z) (x : F A) : F A :=
  (let e := mi m EdgesOnCell [c; j] in
    x + #1 / mr m AreaCell [c] * mr m DvEdge [e] * mr m EdgeSignOnCell [c; j] *
        mr m (VnEdge s) [e; k])%fp.
Definition f_div m s (c k : Z) : F A := iterZ (mi m NedgesOnCell [c]) (s_div m s c k) (#0)%fp.

(** Mean thickness at edge [e]. *)
Definition f_mean m s (e k : Z) : F A :=
  (fhalf * (mr m (HCell s) [mi m CellsOnEdge [e; 0%Z]; k] + mr m (HCell s) [mi m CellsOnEdge [e; 1%Z]; k]))%fp.

(** Tracer concentration. *)
Definition f_ntr m s (l c k : Z) : F A :=
  (mr m (TrCell s) [l; c; k] * (#1 / mr m (HCell s) [c; k]))%fp.

(** Relative vorticity and thickness at vertex [v], and the vorticities divided by thickness. *)
Definition s_rvort m s (v k : Z) (j : Z) (x : F A) : F A :=
  (let e := mi m EdgesOnVertex [v; j] in
    x + mr m DcEdge [e] * (#1 / mr m AreaTriangle [v]) * mr m EdgeSignOnVertex [v; j] *
        mr m (VnEdge s) [e; k])%fp.
Definition f_rvort m s (v k : Z) : F A := iterZ 3 (s_rvort m s v k) (#0)%fp.
Definition s_hvert m s (v k : Z) (j : Z) (x : F A) : F A :=
  (let c := mi m CellsOnVertex [v; j] in
    x + mr m KiteareasOnVertex [v; j] * (#1 / mr m AreaTriangle [v]) * mr m (HCell s) [c; k])%fp.
Definition f_hvert m s (v k : Z) : F A := iterZ 3 (s_hvert m s v k) (#0)%fp.
Definition f_nrv m sd s (v k : Z) : F A :=
  (if sd then f_rvort m s v k * (#1 / f_hvert m s v k) else #1 / f_hvert m s v k * f_rvort m s v k)%fp.
Definition f_npv m s (v k : Z) : F A := (#1 / f_hvert m s v k * mr m FVertex [v])%fp.

(** The vorticities at edge [e]. *)
Definition f_nre m (e k : Z) : F A :=
  (fhalf * (mr m NormRvortVertex [mi m VerticesOnEdge [e; 0%Z]; k] +
            mr m NormRvortVertex [mi m VerticesOnEdge [e; 1%Z]; k]))%fp.
Definition f_npe m (e k : Z) : F A :=
  (fhalf * (mr m NormPvortVertex [mi m VerticesOnEdge [e; 0%Z]; k] +
            mr m NormPvortVertex [mi m VerticesOnEdge [e; 1%Z]; k]))%fp.

(** Tendency terms: what becomes of the value [x] of the tendency. *)

(** Thickness advection. *)
Definition s_hadv m s (c k : Z) (j : Z) (a : F A) : F A :=
  (let e := mi m EdgesOnCell [c; j] in
    a - mr m DvEdge [e] * (#1 / mr m AreaCell [c]) * mr m EdgeSignOnCell [c; j] *
        mr m FluxHEdge [e; k] * mr m (VnEdge s) [e; k])%fp.
Definition t_hadv m s (c k : Z) x : F A :=
  (x + iterZ (mi m NedgesOnCell [c]) (s_hadv m s c k) (#0))%fp.

(** Potential vorticity flux. *)
Definition s_pv m sd s (e k : Z) (j : Z) (a : F A) : F A :=
  (let e' := mi m EdgesOnEdge [e; j] in
    let q := mr m NormRvortEdge [e; k] + mr m NormPvortEdge [e; k] +
             mr m NormRvortEdge [e'; k] + mr m NormPvortEdge [e'; k] in
    a + mr m WeightsOnEdge [e; j] * mr m FluxHEdge [e'; k] * mr m (VnEdge s) [e'; k] *
        (if sd then fhalf * q else q * fhalf))%fp.
Definition t_pv m sd s (e k : Z) x : F A :=
  (x + iterZ (mi m NedgesOnEdge [e]) (s_pv m sd s e k) (#0))%fp.

(** Gradients of kinetic energy and of surface height. *)
Definition t_kegrad m (e k : Z) x : F A :=
  (x - (mr m KeCell [mi m CellsOnEdge [e; 1%Z]; k] - mr m KeCell [mi m CellsOnEdge [e; 0%Z]; k]) *
       (#1 / mr m DcEdge [e]))%fp.
Definition t_sshgrad m g s (e k : Z) x : F A :=
  (x - g * (mr m (HCell s) [mi m CellsOnEdge [e; 1%Z]; k] - mr m (HCell s) [mi m CellsOnEdge [e; 0%Z]; k]) *
       (#1 / mr m DcEdge [e]))%fp.

(** Viscosity. *)
Definition t_vdiff m sd nu (e k : Z) x : F A :=
  (let del2u :=
     (mr m VelDivCell [mi m CellsOnEdge [e; 1%Z]; k] - mr m VelDivCell [mi m CellsOnEdge [e; 0%Z]; k]) *
       (#1 / mr m DcEdge [e]) -
     (mr m RvortVertex [mi m VerticesOnEdge [e; 1%Z]; k] - mr m RvortVertex [mi m VerticesOnEdge [e; 0%Z]; k]) *
       (#1 / mr m DvEdge [e]) in
   if sd then x + nu * mr m MeshScalingDel2 [e] * mr m EdgeMask [e; k] * del2u
   else x + mr m EdgeMask [e; k] * nu * mr m MeshScalingDel2 [e] * del2u)%fp.

(** Hyperviscosity: Laplacian of the velocity, its vorticity and divergence, and their Laplacian.
    [kk] is the layer the vorticity is computed from. *)
Definition f_del2 m (e k : Z) : F A :=
  ((mr m VelDivCell [mi m CellsOnEdge [e; 1%Z]; k] - mr m VelDivCell [mi m CellsOnEdge [e; 0%Z]; k]) *
     (#1 / mr m DcEdge [e]) -
   (mr m RvortVertex [mi m VerticesOnEdge [e; 1%Z]; k] - mr m RvortVertex [mi m VerticesOnEdge [e; 0%Z]; k]) *
     (#1 / fmax (mr m DvEdge [e]) (fquarter * mr m DcEdge [e])))%fp.
Definition s_del2r m (v kk : Z) (j : Z) (x : F A) : F A :=
  (let e := mi m EdgesOnVertex [v; j] in
    x + mr m DcEdge [e] * (#1 / mr m AreaTriangle [v]) * mr m EdgeSignOnVertex [v; j] *
        mr m VelDel2Edge [e; kk])%fp.
Definition f_del2r m (v kk : Z) : F A := iterZ 3 (s_del2r m v kk) (#0)%fp.
Definition s_del2d m (c k : Z) (j : Z) (x : F A) : F A :=
  (let e := mi m EdgesOnCell [c; j] in
    x + mr m DvEdge [e] * (#1 / mr m AreaCell [c]) * mr m EdgeSignOnCell [c; j] *
        mr m VelDel2Edge [e; k])%fp.
Definition f_del2d m (c k : Z) : F A := iterZ (mi m NedgesOnCell [c]) (s_del2d m c k) (#0)%fp.
Definition t_vhyp m nu (e k : Z) x : F A :=
  (x - mr m EdgeMask [e; k] * nu * mr m MeshScalingDel4 [e] *
    ((mr m VelDel2DivCell [mi m CellsOnEdge [e; 1%Z]; k] - mr m VelDel2DivCell [mi m CellsOnEdge [e; 0%Z]; k]) *
       (#1 / mr m DcEdge [e]) -
     (mr m VelDel2RvortVertex [mi m VerticesOnEdge [e; 1%Z]; k] -
      mr m VelDel2RvortVertex [mi m VerticesOnEdge [e; 0%Z]; k]) *
       (#1 / mr m DvEdge [e])))%fp.

(** Tracer advection with the thicknesses [hf] at the edges. *)
Definition s_trhadv m sd hf s (l c k : Z) (j : Z) (a : F A) : F A :=
  (let e := mi m EdgesOnCell [c; j] in
    let t := mr m NormTrCell [l; mi m CellsOnEdge [e; 0%Z]; k] + mr m NormTrCell [l; mi m CellsOnEdge [e; 1%Z]; k] in
    a - mr m DvEdge [e] * (#1 / mr m AreaCell [c]) * mr m EdgeSignOnCell [c; j] * mr m hf [e; k] *
        (if sd then fhalf * t else t * fhalf) * mr m (VnEdge s) [e; k])%fp.
Definition t_trhadv m sd hf s (l c k : Z) x : F A :=
  (x + iterZ (mi m NedgesOnCell [c]) (s_trhadv m sd hf s l c k) (#0))%fp.

(** Tracer diffusion with the thicknesses [hm] at the edges. *)
Definition s_trdiff m sd kap hm (l c k : Z) (j : Z) (a : F A) : F A :=
  (let e := mi m EdgesOnCell [c; j] in
    let g := (mr m NormTrCell [l; mi m CellsOnEdge [e; 1%Z]; k] - mr m NormTrCell [l; mi m CellsOnEdge [e; 0%Z]; k]) *
             (#1 / mr m DcEdge [e]) in
    if sd then
      a + kap * (#1 / mr m AreaCell [c]) * mr m DvEdge [e] * mr m EdgeSignOnCell [c; j] *
          mr m MeshScalingDel2 [e] * mr m hm [e; k] * g
    else
      a + kap * (#1 / mr m AreaCell [c]) * mr m DvEdge [e] * mr m EdgeSignOnCell [c; j] *
          mr m hm [e; k] * mr m MeshScalingDel2 [e] * g)%fp.
Definition t_trdiff m sd kap hm (l c k : Z) x : F A :=
  (x + iterZ (mi m NedgesOnCell [c]) (s_trdiff m sd kap hm l c k) (#0))%fp.

(** Tracer hyperdiffusion: thickness weighted Laplacian, and its Laplacian. *)
Definition s_trdel2 m hm (l c k : Z) (j : Z) (a : F A) : F A :=
  (let e := mi m EdgesOnCell [c; j] in
    let g := (mr m NormTrCell [l; mi m CellsOnEdge [e; 1%Z]; k] - mr m NormTrCell [l; mi m CellsOnEdge [e; 0%Z]; k]) *
             (#1 / mr m DcEdge [e]) in
    a + mr m DvEdge [e] * (#1 / mr m AreaCell [c]) * mr m EdgeSignOnCell [c; j] * mr m hm [e; k] * g)%fp.
Definition f_trdel2 m hm (l c k : Z) : F A := iterZ (mi m NedgesOnCell [c]) (s_trdel2 m hm l c k) (#0)%fp.
Definition s_trhyp m kap (l c k : Z) (j : Z) (a : F A) : F A :=
  (let e := mi m EdgesOnCell [c; j] in
    let g := (mr m TracerDel2Cell [l; mi m CellsOnEdge [e; 1%Z]; k] -
              mr m TracerDel2Cell [l; mi m CellsOnEdge [e; 0%Z]; k]) *
             (#1 / mr m DcEdge [e]) in
    a - kap * (#1 / mr m AreaCell [c]) * mr m DvEdge [e] * mr m EdgeSignOnCell [c; j] *
        mr m MeshScalingDel4 [e] * g)%fp.
Definition t_trhyp m kap (l c k : Z) x : F A :=
  (x + iterZ (mi m NedgesOnCell [c]) (s_trhyp m kap l c k) (#0))%fp.
End Formulas.
