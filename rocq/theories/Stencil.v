(** Finite difference operators on functions of the plane.  On the regular hexagonal lattice with spacing [d] the
    mesh operators applied to the values of functions at the mesh points give the values of these operators
    ([Sample.v]); how far they are from the differential operators is the subject of [Taylor.v]. *)
From Coq Require Import ZArith Reals Bool Lra.
Open Scope R_scope.

(** Unit vectors along which the edge normals point. *)
Definition cq (q : Z) : R := if (q =? 0)%Z then 1 else if (q =? 1)%Z then 1 / 2 else - (1 / 2).
Definition sq (q : Z) : R := if (q =? 0)%Z then 0 else sqrt 3 / 2.
(** Unit vectors from a cell to its six neighbours. *)
Definition dirx (j : Z) : R :=
  if (j =? 0)%Z then -1 else if (j =? 1)%Z then - (1/2) else if (j =? 2)%Z then 1/2 else if (j =? 3)%Z then 1
  else if (j =? 4)%Z then 1/2 else - (1/2).
Definition diry (j : Z) : R :=
  if ((j =? 0) || (j =? 3))%Z then 0 else if ((j =? 1) || (j =? 2))%Z then - (sqrt 3 / 2) else sqrt 3 / 2.
Definition fn2 := R -> R -> R.

Section Ops.
Context (d : R).
Definition Gr (F : fn2) (q : Z) (x y : R) : R :=
  (F (x + d / 2 * cq q) (y + d / 2 * sq q) - F (x - d / 2 * cq q) (y - d / 2 * sq q)) / d.
Definition Me (F : fn2) (q : Z) (x y : R) : R :=
  (F (x - d / 2 * cq q) (y - d / 2 * sq q) + F (x + d / 2 * cq q) (y + d / 2 * sq q)) / 2.
Definition Df (F : fn2) (q : Z) (x y : R) : R :=
  F (x + d / 2 * cq q) (y + d / 2 * sq q) - F (x - d / 2 * cq q) (y - d / 2 * sq q).
Definition Sm (F : fn2) (q : Z) (x y : R) : R :=
  F (x + d / 2 * cq q) (y + d / 2 * sq q) + F (x - d / 2 * cq q) (y - d / 2 * sq q).
Definition Ou (G : Z -> fn2) (x y : R) : R :=
  2 / (3 * d) * (Df (G 0%Z) 0 x y + Df (G 1%Z) 1 x y + Df (G 2%Z) 2 x y).
Definition Ki (G : Z -> fn2) (x y : R) : R :=
  1 / 6 * (Sm (fun x y => G 0%Z x y * G 0%Z x y) 0 x y + Sm (fun x y => G 1%Z x y * G 1%Z x y) 1 x y
           + Sm (fun x y => G 2%Z x y * G 2%Z x y) 2 x y).
(** Orientation of a triangle: the even vertices are the centres of the upward ones. *)
Definition sg (p : Z) : R := if (p =? 0)%Z then 1 else -1.
Definition Vo (G : Z -> fn2) (p : Z) (x y : R) : R :=
  4 / (sqrt 3 * d) * (sg p * (G 0%Z x (y - sg p * (d * sqrt 3 / 6))
    + G 2%Z (x + sg p * (d / 4)) (y + sg p * (d * sqrt 3 / 12)) - G 1%Z (x - sg p * (d / 4)) (y + sg p * (d * sqrt 3 / 12)))).
Definition Hv (F : fn2) (p : Z) (x y : R) : R :=
  (F (x + sg p * (d / 2)) (y - sg p * (d * sqrt 3 / 6)) + F x (y + sg p * (d * sqrt 3 / 3))
   + F (x - sg p * (d / 2)) (y - sg p * (d * sqrt 3 / 6))) / 3.
(** Kind of the vertex at end 1 of an edge with direction [q]; the one at end 0 is of the other kind. *)
Definition pv1 (q : Z) : Z := if (q =? 1)%Z then 1%Z else 0%Z.
Definition pv0 (q : Z) : Z := if (q =? 1)%Z then 0%Z else 1%Z.
Definition Mv (W : Z -> fn2) (q : Z) (x y : R) : R :=
  (W (pv0 q) (x + d * sqrt 3 / 6 * sq q) (y - d * sqrt 3 / 6 * cq q)
   + W (pv1 q) (x - d * sqrt 3 / 6 * sq q) (y + d * sqrt 3 / 6 * cq q)) / 2.
Definition Rg (W : Z -> fn2) (q : Z) (x y : R) : R :=
  (W (pv1 q) (x - d * sqrt 3 / 6 * sq q) (y + d * sqrt 3 / 6 * cq q)
   - W (pv0 q) (x + d * sqrt 3 / 6 * sq q) (y - d * sqrt 3 / 6 * cq q)) / (d * sqrt 3 / 3).
(** Weights of the tangential reconstruction. *)
Definition tw (q i : Z) : R :=
  (if (q =? 0)%Z then if (i =? 0)%Z then 1/3 else if (i =? 1)%Z then 1/6 else if (i =? 2)%Z then 0 else if (i =? 3)%Z then 1/6 else 1/3
   else if (q =? 1)%Z then if (i =? 0)%Z then 1/3 else if (i =? 1)%Z then -1/6 else if (i =? 2)%Z then 0 else if (i =? 3)%Z then 1/6 else -1/3
   else if (i =? 0)%Z then -1/3 else if (i =? 1)%Z then -1/6 else if (i =? 2)%Z then 0 else if (i =? 3)%Z then -1/6 else -1/3).
(** Contribution of the two edges at opposite places relative to the edge. *)
Definition Rp (G : Z -> fn2) (q i : Z) (x y : R) : R :=
  let j := ((q + 1 + i) mod 6)%Z in
  tw q i * (G (j mod 3)%Z (x + d / 2 * (cq q + dirx j)) (y + d / 2 * (sq q + diry j))
            + G (j mod 3)%Z (x - d / 2 * (cq q + dirx j)) (y - d / 2 * (sq q + diry j))).
Definition Re (G : Z -> fn2) (q : Z) (x y : R) : R :=
  sqrt 3 / 3 * (Rp G q 0 x y + Rp G q 1 x y + Rp G q 2 x y + Rp G q 3 x y + Rp G q 4 x y).
(** Potential vorticity, its edge mean and its flux. *)
Definition Pv (f : R) (F : fn2) (G : Z -> fn2) (p : Z) (x y : R) : R := (Vo G p x y + f) / Hv F p x y.
Definition Pf (f : R) (F : fn2) (G : Z -> fn2) (q : Z) (x y : R) : R :=
  let Q := Mv (Pv f F G) in
  Re (fun q' x' y' => Me F q' x' y' * G q' x' y' * ((Q q x y + Q q' x' y') / 2)) q x y.
(** Vector Laplacian. *)
Definition Vl (G : Z -> fn2) (q : Z) (x y : R) : R := Gr (Ou G) q x y - Rg (Vo G) q x y.
End Ops.
