(** Vocabulary of the property statements.  Everything here is read off the views a user can inspect
    after construction; nothing refers to how the code computes them. *)
From Coq Require Import ZArith Reals List Bool.
From Verif Require Import Arith Arrays Prog Conc RSum.
Import ListNotations.

(** Equality of coordinates up to whole periods [p]. *)
Definition eqmod (p x y : R) : Prop := exists a : Z, x = (y + IZR a * p)%R.

Section MeshOps.
Context (m : mem RA).
Local Notation ri a ix := (mi m a ix%Z).
Local Notation rr a ix := (mr m a ix%Z : R).

(** Circulation around vertex [v] of the edge field [g]. *)
Definition circ (g : Z -> R) (v : Z) : R :=
  rsum 3 (fun s => let e := ri EdgesOnVertex [v; s] in rr EdgeSignOnVertex [v; s] * rr DcEdge [e] * g e)%R.
(** Net outflow of the edge field [g] out of cell [c], per area. *)
Definition outflow (g : Z -> R) (c : Z) : R :=
  (rsum (ri NedgesOnCell [c]) (fun j => let e := ri EdgesOnCell [c; j] in rr EdgeSignOnCell [c; j] * rr DvEdge [e] * g e)
   / rr AreaCell [c])%R.
(** Reconstructed tangential component of the edge field [g]. *)
Definition recon (g : Z -> R) (e : Z) : R :=
  rsum (ri NedgesOnEdge [e]) (fun k => rr WeightsOnEdge [e; k] * g (ri EdgesOnEdge [e; k]))%R.
(** Normal gradient of a cell field and tangential gradient of a vertex field. *)
Definition grad (phi : Z -> R) (e : Z) : R :=
  ((phi (ri CellsOnEdge [e; 1%Z]) - phi (ri CellsOnEdge [e; 0%Z])) / rr DcEdge [e])%R.
Definition rgrad (psi : Z -> R) (e : Z) : R :=
  ((psi (ri VerticesOnEdge [e; 1%Z]) - psi (ri VerticesOnEdge [e; 0%Z])) / rr DvEdge [e])%R.
End MeshOps.

Section MeshOps2.
Context (m : mem RA).
Local Notation ri a ix := (mi m a ix%Z).
Local Notation rr a ix := (mr m a ix%Z : R).
(** Edge mean of a cell field. *)
Definition emean (q : Z -> R) (e : Z) : R := ((q (ri CellsOnEdge [e; 0%Z]) + q (ri CellsOnEdge [e; 1%Z])) / 2)%R.
(** Vorticity, vertex thickness and potential vorticity. *)
Definition vort (u : Z -> R) (v : Z) : R := (circ m u v / rr AreaTriangle [v])%R.
Definition hvert (q : Z -> R) (v : Z) : R :=
  (rsum 3 (fun j => rr KiteareasOnVertex [v; j] * q (ri CellsOnVertex [v; j])) / rr AreaTriangle [v])%R.
Definition pvort (f : R) (q u : Z -> R) (v : Z) : R := ((vort u v + f) / hvert q v)%R.
Definition pvedge (f : R) (q u : Z -> R) (e : Z) : R :=
  ((pvort f q u (ri VerticesOnEdge [e; 0%Z]) + pvort f q u (ri VerticesOnEdge [e; 1%Z])) / 2)%R.
(** Potential vorticity flux. *)
Definition pvflux (f : R) (q u : Z -> R) (e : Z) : R :=
  rsum (ri NedgesOnEdge [e]) (fun j => let e' := ri EdgesOnEdge [e; j] in
    rr WeightsOnEdge [e; j] * (emean q e' * u e' * ((pvedge f q u e + pvedge f q u e') / 2)))%R.
(** Kinetic energy. *)
Definition kin (u : Z -> R) (c : Z) : R :=
  (rsum (ri NedgesOnCell [c]) (fun j => let e := ri EdgesOnCell [c; j] in rr DvEdge [e] * rr DcEdge [e] * (u e * u e)) / rr AreaCell [c] / 4)%R.
(** Vector Laplacian. *)
Definition vlap (u : Z -> R) (e : Z) : R := (grad m (outflow m u) e - rgrad m (vort u) e)%R.
(** The same, with the vorticity taken from [u']. *)
Definition vlap' (u u' : Z -> R) (e : Z) : R := (grad m (outflow m u) e - rgrad m (vort u') e)%R.
End MeshOps2.
