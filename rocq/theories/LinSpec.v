(** Vocabulary for small disturbances of the fluid at rest: the linear shallow water equations on the mesh. *)
From Coq Require Import ZArith Reals List Bool Lia Lra.
From Verif Require Import Arith Arrays Prog Conc Mesh AuxVars Tend Model Hex RSum Spec Ready LinStep.
Import ListNotations.
Open Scope Z_scope.

(** Where the prognostic values live: thickness at cells, normal velocity at edges, one value per layer. *)
Inductive place := AtCell (c k : Z) | AtEdge (e k : Z).
Definition valid_place (S : setup RA) (p : place) : Prop :=
  match p with
  | AtCell c k => 0 <= c < d_ncells (sdims S) /\ 0 <= k < d_nlayers (sdims S)
  | AtEdge e k => 0 <= e < d_nedges (sdims S) /\ 0 <= k < d_nlayers (sdims S)
  end.
(** The value a state holds there. *)
Definition value_at (s : sid) (m : mem RA) (p : place) : R :=
  match p with AtCell c k => mr m (HCell s) [c; k] | AtEdge e k => mr m (VnEdge s) [e; k] end.
(** The fluid at rest, with thickness H k in layer k. *)
Definition at_rest (H : Z -> R) (p : place) : R := match p with AtCell _ k => H k | AtEdge _ _ => 0%R end.
(** The linear shallow water equations around it: eta' = - H div u, u' = f u_perp - g grad eta + viscosity.  The
    biharmonic viscosity takes the vorticity from the layer itself, or, with vector kernels, from the first layer of
    its vector (the defect recorded for C05). *)
Definition linear_swe (S : setup RA) (m : mem RA) (H : Z -> R) (w : place -> R) (p : place) : R :=
  let P := par_of S in
  match p with
  | AtCell c k => (- (H k * outflow m (fun e => w (AtEdge e k)) c))%R
  | AtEdge e k => let u := fun e => w (AtEdge e k) in let u' := fun e => w (AtEdge e (if ksimd (cfg_of S) then k / vector_length (cfg_of S) * vector_length (cfg_of S) else k)) in
      (f0 P * recon m u e - grav P * grad m (fun c => w (AtCell c k)) e
       + Rmax 0 (visc_del2 P) * vlap m u e
       - Rmax 0 (visc_del4 P) * vlap' m (vlap m u) (vlap m u') e)%R
  end.
Lemma visc2 (P : params RA) x : (Rmax 0 (visc_del2 P) * x)%R = if vel_diff_enabled P then (visc_del2 P * x)%R else 0%R.
Proof. unfold vel_diff_enabled, Rmax. cbn [flt RA fofZ F]. destruct (Rlt_dec 0 (visc_del2 P)), (Rle_dec 0 (visc_del2 P)); try lra. assert (E : visc_del2 P = 0%R) by (cbn [F RA] in *; lra). cbn [F RA] in *. rewrite E. ring. Qed.
Lemma visc4 (P : params RA) x : (Rmax 0 (visc_del4 P) * x)%R = if vel_hyperdiff_enabled P then (visc_del4 P * x)%R else 0%R.
Proof. unfold vel_hyperdiff_enabled, Rmax. cbn [flt RA fofZ F]. destruct (Rlt_dec 0 (visc_del4 P)), (Rle_dec 0 (visc_del4 P)); try lra. assert (E : visc_del4 P = 0%R) by (cbn [F RA] in *; lra). cbn [F RA] in *. rewrite E. ring. Qed.
(** The energy of a disturbance: g eta^2 / 2 over the cells plus H u^2 / 2 over the edges, each edge with the area dc dv
    (which is that of both its triangles, since u is only the normal component). *)
Definition disturbance_energy (S : setup RA) (m : mem RA) (H : Z -> R) (w : place -> R) : R :=
  rsum (d_nlayers (sdims S)) (fun k =>
    grav (par_of S) * rsum (d_ncells (sdims S)) (fun c => mr m AreaCell [c] * (w (AtCell c k) * w (AtCell c k))) / 2
    + H k * rsum (d_nedges (sdims S)) (fun e => mr m DcEdge [e] * mr m DvEdge [e] * (w (AtEdge e k) * w (AtEdge e k))) / 2)%R.
(** The potential vorticity of a disturbance at vertex v of layer k: zeta - (f / H) eta, eta averaged to the vertex. *)
Definition linear_pv (S : setup RA) (m : mem RA) (H : Z -> R) (w : place -> R) (v k : Z) : R :=
  (vort m (fun e => w (AtEdge e k)) v - f0 (par_of S) / H k * hvert m (fun c => w (AtCell c k)) v)%R.
(** A family of memories with a parameter x: all of them mesh and parameters of S, the fluid at rest at x = 0, and w the
    derivative of the state with respect to x there. *)
Definition disturbed (S : setup RA) (H : Z -> R) (m : R -> mem RA) (w : place -> R) : Prop :=
  (forall x, ready S (m x)) /\ (forall x l, const_loc l = true -> mget (m x) l = mget (m 0%R) l) /\
  (forall p, valid_place S p -> value_at St (m 0%R) p = at_rest H p /\ derivable_pt_lim (fun x => value_at St (m x) p) 0 (w p)).
(** What the steps make of a disturbance when their stability polynomial has the coefficients g. *)
Definition linear_run (S : setup RA) (m : mem RA) (H : Z -> R) (g : list R) (steps : list (R * R)) (w : place -> R) : place -> R :=
  fold_left (fun f (s : R * R) => opolyx (linear_swe S m H) g (snd s) f) steps w.
