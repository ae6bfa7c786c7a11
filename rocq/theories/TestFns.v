(** The functions of position and time the programs in /repo/test evaluate, in exact real arithmetic
    (decimal literals are taken exactly, [pi] is the real number). *)
From Coq Require Import ZArith Reals List.
From Verif Require Import Arith Arrays Prog Conc Mesh Tend Model Driver.
Import ListNotations.
Open Scope R_scope.

(** ** [struct DoubleVortex], test/double_vortex.cpp l.8-77
    (benchmark.cpp l.12-81 has the same struct with [m_ly = 5000000 * std::sqrt(3) / 2]). *)
Module DV.
(** Members, l.9-22. *)
Definition g : R := 980616 / 100000.
Definition lx : R := 5000000.
Definition ly : R := 5000000.
Definition coriolis : R := 6147 / 100000000.
Definition h0 : R := 750.
Definition ox : R := 1 / 10.
Definition oy : R := 1 / 10.
Definition sigmax : R := 3 / 40 * lx.
Definition sigmay : R := 3 / 40 * ly.
Definition dh : R := 75.
Definition xc1 : R := (1 / 2 - ox) * lx.
Definition yc1 : R := (1 / 2 - oy) * ly.
Definition xc2 : R := (1 / 2 + ox) * lx.
Definition yc2 : R := (1 / 2 + oy) * ly.
(** The locals [xprime1], [xprime2] ([xc] is the centre), [yprime1], [yprime2], l.28-31, and
    [xprimeprime1], ..., l.46-49 and l.66-69. *)
Definition xprime (xc x : R) : R := lx / (PI * sigmax) * sin (PI / lx * (x - xc)).
Definition yprime (yc y : R) : R := ly / (PI * sigmay) * sin (PI / ly * (y - yc)).
Definition xprimeprime (xc x : R) : R := lx / (2 * PI * sigmax) * sin (2 * PI / lx * (x - xc)).
Definition yprimeprime (yc y : R) : R := ly / (2 * PI * sigmay) * sin (2 * PI / ly * (y - yc)).
(** [exp(-0.5 * (xprime * xprime + yprime * yprime))]. *)
Definition bump (xc yc x y : R) : R :=
  exp (- (1 / 2) * (xprime xc x * xprime xc x + yprime yc y * yprime yc y)).
(** [h], l.24-36. *)
Definition h (x y : R) : R :=
  h0 - dh * (bump xc1 yc1 x y + bump xc2 yc2 x y - 4 * PI * sigmax * sigmay / lx / ly).
(** [vx], l.38-56. *)
Definition vx (x y : R) : R :=
  - g * dh / coriolis / sigmay *
  (yprimeprime yc1 y * bump xc1 yc1 x y + yprimeprime yc2 y * bump xc2 yc2 x y).
(** [vy], l.58-76. *)
Definition vy (x y : R) : R :=
  g * dh / coriolis / sigmax *
  (xprimeprime xc1 x * bump xc1 yc1 x y + xprimeprime xc2 x * bump xc2 yc2 x y).
(** [run], l.82-90: the mesh and the parameters, for an [ny]; [ny] is [std::ceil] of [rows]. *)
Definition dc (nx : Z) : R := lx / IZR nx.
Definition rows (nx : Z) : R := ly / (dc nx * sqrt 3 / 2).
Definition setup (cf : config) (nx ny : Z) : setup RA :=
  mkSetup cf (mkHex (A:=RA) nx ny (dc nx) 1) (mkParams (A:=RA) coriolis g 0 0 0 0 0 0 false false) None.
Definition init : initial RA := mkInitial (A:=RA) h vx vy (fun _ _ _ => 0).
End DV.

(** ** [struct ManufacturedSolution], test/nonlinear_swe_convergence.cpp l.12-63. *)
Module MS.
(** Members, l.13-23. *)
Definition grav : R := 980616 / 100000.
Definition f0 : R := 1 / 10000.
Definition lx : R := 10000 * 1000.
Definition ly : R := sqrt 3 / 2 * lx.
Definition eta0 : R := 1.
Definition h0 : R := 1000.
Definition mx : Z := 2.
Definition my : Z := 2.
Definition kx : R := IZR mx * (2 * PI / lx).
Definition ky : R := IZR my * (2 * PI / ly).
Definition omega : R := sqrt (grav * h0 * (kx * kx + ky * ky)).
(** The phase ([phi], l.42). *)
Definition phi (x y t : R) : R := kx * x + ky * y - omega * t.
(** [h], [vx], [vy], l.25-35. *)
Definition h (x y t : R) : R := h0 + eta0 * sin (phi x y t).
Definition vx (x y t : R) : R := eta0 * cos (phi x y t).
Definition vy (x y t : R) : R := eta0 * cos (phi x y t).
(** [h_tend], [vx_tend], [vy_tend], l.37-62. *)
Definition h_tend (x y t : R) : R :=
  eta0 * (- h0 * (kx + ky) * sin (phi x y t) - omega * cos (phi x y t) + eta0 * (kx + ky) * cos (2 * phi x y t)).
Definition vx_tend (x y t : R) : R :=
  eta0 * ((- f0 + grav * kx) * cos (phi x y t) + omega * sin (phi x y t) - eta0 * (kx + ky) * sin (2 * phi x y t) / 2).
Definition vy_tend (x y t : R) : R :=
  eta0 * ((f0 + grav * ky) * cos (phi x y t) + omega * sin (phi x y t) - eta0 * (kx + ky) * sin (2 * phi x y t) / 2).
(** [ManufacturedShallowWaterModel], l.65-112, on the mesh of [run], l.118-122. *)
Definition setup (cf : config) (n : Z) : setup RA :=
  mkSetup cf (mkHex (A:=RA) n n (lx / IZR n) 1) (mkParams (A:=RA) f0 grav 0 0 0 0 0 0 false false)
    (Some (mkForcing RA h_tend vx_tend vy_tend)).
End MS.

(** ** [struct TracerAdvectionTest], test/tracer_advection_convergence.cpp l.12-28. *)
Module TA.
Definition lx : R := 1.
Definition ly : R := sqrt 3 / 2 * lx.
Definition h (x y t : R) : R := exp (cos (2 * PI * x / lx)).
Definition tr (x y t : R) : R := sin (2 * PI * (x - t) / lx) * sin (2 * PI * (y - t) / ly).
Definition vx (x y t : R) : R := 1.
Definition vy (x y t : R) : R := 1.
End TA.

(** ** [struct TracerDiffusionTest], test/tracer_diffusion_convergence.cpp l.12-28. *)
Module TD.
Definition diff2 : R := 1.
Definition lx : R := 10.
Definition ly : R := sqrt 3 / 2 * lx.
Definition h (x y t : R) : R := 1.
Definition c : R := 4 * PI * PI * (1 / (lx * lx) + 1 / (ly * ly)).
Definition tr (x y t : R) : R := sin (2 * PI * x / lx) * sin (2 * PI * y / ly) * exp (- diff2 * c * t).
End TD.

(** ** [struct TracerHyperDiffusionTest], test/tracer_hyperdiffusion_convergence.cpp l.12-28. *)
Module TH.
Definition diff4 : R := 1.
Definition lx : R := 10.
Definition ly : R := sqrt 3 / 2 * lx.
Definition h (x y t : R) : R := 1.
Definition c : R := 4 * PI * PI * (1 / (lx * lx) + 1 / (ly * ly)).
Definition tr (x y t : R) : R := sin (2 * PI * x / lx) * sin (2 * PI * y / ly) * exp (- diff4 * c * c * t).
End TH.

(** ** The fields of test/operator_convergence.cpp: the scalar of l.26 and its exact gradient, l.43-44;
    the vector of l.82-83 (also l.137-138, l.195-196), its exact divergence, l.100-101, and curl, l.155-156. *)
Module OC.
Section OC.
Context (Lx Ly : R).
Definition phi (x y : R) : R := sin (2 * PI * x / Lx) * sin (2 * PI * y / Ly).
Definition grad_x (x y : R) : R := 2 * PI / Lx * cos (2 * PI * x / Lx) * sin (2 * PI * y / Ly).
Definition grad_y (x y : R) : R := 2 * PI / Ly * sin (2 * PI * x / Lx) * cos (2 * PI * y / Ly).
Definition v_x (x y : R) : R := sin (2 * PI * x / Lx) * cos (2 * PI * y / Ly).
Definition v_y (x y : R) : R := cos (2 * PI * x / Lx) * sin (2 * PI * y / Ly).
Definition exact_div (x y : R) : R := 2 * PI * (1 / Lx + 1 / Ly) * cos (2 * PI * x / Lx) * cos (2 * PI * y / Ly).
Definition exact_curl (x y : R) : R := 2 * PI * (- 1 / Lx + 1 / Ly) * sin (2 * PI * x / Lx) * sin (2 * PI * y / Ly).
End OC.
End OC.
