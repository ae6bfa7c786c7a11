(** Energy of small disturbances: the inviscid linear equations conserve it, and what a step does with it. *)
From Coq Require Import ZArith Reals List Bool Lia Lra.
From Verif Require Import Arith Arrays Prog Conc Launch Mesh AuxVars Tend Model Hex HexComb RSum Spec MeshProof MeshMem MeshFacts MeshR MeshCalc Ready RealTend SumParts Driver Cplx AdvThms LinStep LinSpec LinRun LinNorm.
Import ListNotations.
Open Scope R_scope.

Lemma abs_inv x e : Rabs x <= e -> - e <= x <= e.
Proof. intros Q. pose proof (Rle_abs x). pose proof (Rle_abs (- x)). rewrite Rabs_Ropp in *. lra. Qed.
(** ** Steps of a skew operator *)
Section Skew.
Context {X : Type} (V : X -> Prop) (L : (X -> R) -> X -> R).
Context (Lext : forall f g x, (forall x, V x -> f x = g x) -> V x -> L f x = L g x).
Context (dot : (X -> R) -> (X -> R) -> R).
Context (dext : forall f f' g, (forall x, V x -> f x = f' x) -> dot f g = dot f' g).
Context (dsym : forall f g, dot f g = dot g f).
Context (dlin : forall a b f f' g, dot (fun x => a * f x + b * f' x) g = a * dot f g + b * dot f' g).
Context (skew : forall f g, dot (L f) g = - dot f (L g)).
Context (K : R) (bound : forall f, dot (L f) (L f) <= K * dot f f).
Context (dpos : forall f, 0 <= dot f f).

Lemma dself a b f g : dot (fun x => a * f x + b * g x) (fun x => a * f x + b * g x) = a * a * dot f f + 2 * a * b * dot f g + b * b * dot g g.
Proof. rewrite dlin, (dsym f), (dsym g), !dlin, (dsym g f). ring. Qed.
Lemma d01 f : dot f (L f) = 0.
Proof. pose proof (skew f f). rewrite (dsym (L f) f) in H. lra. Qed.

Section Powers.
Context (w : X -> R).
Local Notation N i := (dot (xpow L i w) (xpow L i w)).
Local Notation C i j := (dot (xpow L i w) (xpow L j w)).
Lemma cs i j : C (S i) j = - C i (S j).
Proof. cbn [xpow]. apply skew. Qed.
Lemma dot6 a0 a1 a2 a3 a4 a5 (y z : X -> R) :
  (forall x, V x -> z x = a0 * xpow L 0 w x + a1 * xpow L 1 w x + a2 * xpow L 2 w x + a3 * xpow L 3 w x + a4 * xpow L 4 w x + a5 * xpow L 5 w x) ->
  dot z y = a0 * dot (xpow L 0 w) y + a1 * dot (xpow L 1 w) y + a2 * dot (xpow L 2 w) y + a3 * dot (xpow L 3 w) y + a4 * dot (xpow L 4 w) y + a5 * dot (xpow L 5 w) y.
Proof.
  intros E.
  rewrite (dext z (fun x => 1 * (fun x => 1 * (fun x => 1 * (fun x => 1 * (fun x => a0 * xpow L 0 w x + a1 * xpow L 1 w x) x + a2 * xpow L 2 w x) x + a3 * xpow L 3 w x) x + a4 * xpow L 4 w x) x + a5 * xpow L 5 w x)) by (intros x Hx; rewrite E by exact Hx; ring).
  rewrite !dlin. ring.
Qed.
Lemma energy6 a0 a1 a2 a3 a4 a5 (z : X -> R) :
  (forall x, V x -> z x = a0 * xpow L 0 w x + a1 * xpow L 1 w x + a2 * xpow L 2 w x + a3 * xpow L 3 w x + a4 * xpow L 4 w x + a5 * xpow L 5 w x) ->
  dot z z = a0 * a0 * N 0%nat + (a1 * a1 - 2 * a0 * a2) * N 1%nat + (a2 * a2 - 2 * a1 * a3 + 2 * a0 * a4) * N 2%nat
    + (a3 * a3 - 2 * a2 * a4 + 2 * a1 * a5) * N 3%nat + (a4 * a4 - 2 * a3 * a5) * N 4%nat + a5 * a5 * N 5%nat.
Proof.
  intros E. rewrite (dot6 a0 a1 a2 a3 a4 a5 z z E). rewrite !(dsym _ z). rewrite !(dot6 a0 a1 a2 a3 a4 a5 _ z E).
  assert (Z1 : forall i, C i (S i) = 0) by (intros; cbn [xpow]; apply d01).
  assert (Z1' : forall i, C (S i) i = 0) by (intros; rewrite dsym; apply Z1).
  assert (Z2 : forall i, C i (S (S i)) = - N (S i)) by (intros; pose proof (cs i (S i)); lra).
  assert (Z2' : forall i, C (S (S i)) i = - N (S i)) by (intros; rewrite dsym; apply Z2).
  assert (Z3 : forall i, C i (S (S (S i))) = 0) by (intros; pose proof (cs i (S (S i))); rewrite Z1 in *; lra).
  assert (Z3' : forall i, C (S (S (S i))) i = 0) by (intros; rewrite dsym; apply Z3).
  assert (Z4 : forall i, C i (S (S (S (S i)))) = N (S (S i))) by (intros; pose proof (cs i (S (S (S i)))); rewrite Z2 in *; lra).
  assert (Z4' : forall i, C (S (S (S (S i)))) i = N (S (S i))) by (intros; rewrite dsym; apply Z4).
  assert (Z5 : forall i, C i (S (S (S (S (S i))))) = 0) by (intros; pose proof (cs i (S (S (S (S i))))); rewrite Z3 in *; lra).
  assert (Z5' : forall i, C (S (S (S (S (S i))))) i = 0) by (intros; rewrite dsym; apply Z5).
  rewrite ?Z1, ?Z1', ?Z2, ?Z2', ?Z3, ?Z3', ?Z4, ?Z4', ?Z5, ?Z5'. ring.
Qed.
Lemma nbound i : N (S i) <= K * N i.
Proof. cbn [xpow]. apply bound. Qed.
Lemma npos i : 0 <= N i. Proof. apply dpos. Qed.

Lemma rk4_energy dt : let z := opolyx L [1; 1; 1 / 2; 1 / 6; 1 / 24] dt w in
  dot z z = N 0%nat - dt ^ 6 / 72 * N 3%nat + dt ^ 8 / 576 * N 4%nat.
Proof.
  intros z. rewrite (energy6 1 dt (dt ^ 2 / 2) (dt ^ 3 / 6) (dt ^ 4 / 24) 0 z); [field|].
  intros x _. unfold z. cbn [opolyx xpow]. field.
Qed.
Lemma rk4_stable dt : dt ^ 2 * K <= 8 -> let z := opolyx L [1; 1; 1 / 2; 1 / 6; 1 / 24] dt w in dot z z <= dot w w.
Proof.
  intros HK z. unfold z. rewrite rk4_energy. pose proof (npos 3) as P3. pose proof (nbound 3) as B.
  assert (D6 : 0 <= dt ^ 6) by (replace (dt ^ 6) with ((dt ^ 3) * (dt ^ 3)) by ring; apply Rle_0_sqr).
  assert (D8 : 0 <= dt ^ 8) by (replace (dt ^ 8) with ((dt ^ 4) * (dt ^ 4)) by ring; apply Rle_0_sqr).
  apply Rmult_le_compat_l with (r := dt ^ 8) in B; [|exact D8].
  assert (Q : dt ^ 8 * (K * N 3%nat) <= dt ^ 6 * 8 * N 3%nat).
  { replace (dt ^ 8 * (K * N 3%nat)) with (dt ^ 6 * N 3%nat * (dt ^ 2 * K)) by ring. replace (dt ^ 6 * 8 * N 3%nat) with (dt ^ 6 * N 3%nat * 8) by ring.
    apply Rmult_le_compat_l; [|exact HK]. now apply Rmult_le_pos. }
  cbn [xpow] in *. lra.
Qed.
Lemma euler_energy dt : let z := opolyx L [1; 1] dt w in dot z z = dot w w + dt ^ 2 * dot (L w) (L w).
Proof.
  intros z. rewrite (energy6 1 dt 0 0 0 0 z); [cbn [xpow]; ring|]. intros x _. unfold z. cbn [opolyx xpow]. ring.
Qed.
Lemma lsrk5_stable g1 g2 g3 g4 g5 dt : Rabs (g1 - 1) <= 1 / 10 ^ 25 -> Rabs (g2 - 1 / 2) <= 1 / 10 ^ 25 -> Rabs (g3 - 1 / 6) <= 1 / 10 ^ 25 ->
  Rabs (g4 - 1 / 24) <= 1 / 10 ^ 25 -> 49 / 10000 < g5 < 51 / 10000 -> dt ^ 2 * K <= 8 ->
  let z := opolyx L [1; g1; g2; g3; g4; g5] dt w in dot z z <= (1 + 1 / 10 ^ 22) * dot w w.
Proof.
  intros H1 H2 H3 H4 H5 HK z.
  assert (EE : dot z z = N 0%nat + (g1 * g1 - 2 * g2) * (dt ^ 2 * N 1%nat) + (g2 * g2 - 2 * g1 * g3 + 2 * g4) * (dt ^ 4 * N 2%nat)
    + (g3 * g3 - 2 * g2 * g4 + 2 * g1 * g5) * (dt ^ 6 * N 3%nat) + (g4 * g4 - 2 * g3 * g5) * (dt ^ 8 * N 4%nat) + g5 * g5 * (dt ^ 10 * N 5%nat)).
  { rewrite (energy6 1 (g1 * dt) (g2 * dt ^ 2) (g3 * dt ^ 3) (g4 * dt ^ 4) (g5 * dt ^ 5) z); [ring|].
    intros x _. unfold z. rewrite (opolyx6 L). cbn [xpow]. ring. }
  assert (St : forall i, 0 <= dt ^ (2 * i) * N i /\ dt ^ (2 * S i) * N (S i) <= 8 * (dt ^ (2 * i) * N i)).
  { intros i. assert (P : 0 <= dt ^ (2 * i) * N i) by (apply Rmult_le_pos; [rewrite pow_mult; apply pow_le, pow2_ge_0|apply npos]).
    split; [exact P|]. replace (2 * S i)%nat with (2 + 2 * i)%nat by lia. rewrite pow_add.
    pose proof (nbound i) as B. apply Rmult_le_compat_l with (r := dt ^ 2 * dt ^ (2 * i)) in B; [|apply Rmult_le_pos; [apply pow2_ge_0|rewrite pow_mult; apply pow_le, pow2_ge_0]].
    eapply Rle_trans; [exact B|]. replace (dt ^ 2 * dt ^ (2 * i) * (K * N i)) with ((dt ^ 2 * K) * (dt ^ (2 * i) * N i)) by ring. now apply Rmult_le_compat_r. }
  set (n0 := N 0%nat) in *. set (n1 := dt ^ 2 * N 1%nat) in *. set (n2 := dt ^ 4 * N 2%nat) in *. set (n3 := dt ^ 6 * N 3%nat) in *. set (n4 := dt ^ 8 * N 4%nat) in *. set (n5 := dt ^ 10 * N 5%nat) in *.
  change (dot w w) with n0. rewrite EE.
  assert (E0 : dt ^ (2 * 0) * N 0%nat = n0) by (unfold n0; change (dt ^ (2 * 0)) with 1; ring).
  assert (I0 : 0 <= n0) by (rewrite <- E0; apply St).
  assert (I1 : 0 <= n1 <= 8 * n0) by (split; [apply (St 1%nat)|rewrite <- E0; apply (St 0%nat)]).
  assert (I2 : 0 <= n2 <= 8 * n1) by (split; [apply (St 2%nat)|apply (St 1%nat)]).
  assert (I3 : 0 <= n3) by (apply (St 3%nat)).
  assert (I4 : 0 <= n4 <= 8 * n3) by (split; [apply (St 4%nat)|apply (St 3%nat)]).
  assert (I5 : 0 <= n5 <= 8 * n4) by (split; [apply (St 5%nat)|apply (St 4%nat)]).
  clearbody n0 n1 n2 n3 n4 n5. clear - H1 H2 H3 H4 H5 I0 I1 I2 I3 I4 I5.
  set (e := 1 / 10 ^ 25) in *. assert (He : e = / 10 ^ 25) by (unfold e; lra).
  assert (He0 : 0 < e < / 10 ^ 20) by (rewrite He; split; [apply Rinv_0_lt_compat; lra|lra]).
  assert (Ab : forall a b, Rabs (a - b) <= e -> exists d, a = b + d /\ - e <= d <= e).
  { intros a b Q. exists (a - b). split; [ring|]. apply abs_inv. exact Q. }
  destruct (Ab _ _ H1) as (d1 & -> & D1). destruct (Ab _ _ H2) as (d2 & -> & D2). destruct (Ab _ _ H3) as (d3 & -> & D3). destruct (Ab _ _ H4) as (d4 & -> & D4).
  assert (Pr : forall x y, - e <= x <= e -> - e <= y <= e -> - e <= x * y <= e).
  { intros x y Hx Hy. apply abs_inv. rewrite Rabs_mult. replace e with (e * 1) by ring.
    apply Rmult_le_compat; try apply Rabs_pos; [now apply Rabs_le|]. apply Rabs_le. lra. }
  assert (C1 : (1 + d1) * (1 + d1) - 2 * (1 / 2 + d2) <= 5 * e).
  { pose proof (Pr d1 d1 D1 D1). replace ((1 + d1) * (1 + d1) - 2 * (1 / 2 + d2)) with (2 * d1 + d1 * d1 - 2 * d2) by field. lra. }
  assert (C2 : (1 / 2 + d2) * (1 / 2 + d2) - 2 * (1 + d1) * (1 / 6 + d3) + 2 * (1 / 24 + d4) <= 9 * e).
  { pose proof (Pr d2 d2 D2 D2). pose proof (Pr d1 d3 D1 D3).
    replace ((1 / 2 + d2) * (1 / 2 + d2) - 2 * (1 + d1) * (1 / 6 + d3) + 2 * (1 / 24 + d4)) with (d2 + d2 * d2 - d1 / 3 - 2 * d3 - 2 * (d1 * d3) + 2 * d4) by field. lra. }
  assert (C3 : (1 / 6 + d3) * (1 / 6 + d3) - 2 * (1 / 2 + d2) * (1 / 24 + d4) + 2 * (1 + d1) * g5 <= - 36 / 10000).
  { pose proof (Pr d3 d3 D3 D3). pose proof (Pr d2 d4 D2 D4). assert (d1 * g5 <= e) by (assert (d1 * g5 <= e * g5) by (apply Rmult_le_compat_r; lra); assert (e * g5 <= e * 1) by (apply Rmult_le_compat_l; lra); lra).
    replace ((1 / 6 + d3) * (1 / 6 + d3) - 2 * (1 / 2 + d2) * (1 / 24 + d4) + 2 * (1 + d1) * g5) with (1 / 36 - 1 / 24 + 2 * g5 + d3 / 3 + d3 * d3 - d4 - d2 / 12 - 2 * (d2 * d4) + 2 * (d1 * g5)) by field. lra. }
  assert (C4 : (1 / 24 + d4) * (1 / 24 + d4) - 2 * (1 / 6 + d3) * g5 <= 11 / 100000).
  { pose proof (Pr d4 d4 D4 D4). assert (- d3 * g5 <= e) by (assert (- d3 * g5 <= e * g5) by (apply Rmult_le_compat_r; lra); assert (e * g5 <= e * 1) by (apply Rmult_le_compat_l; lra); lra).
    replace ((1 / 24 + d4) * (1 / 24 + d4) - 2 * (1 / 6 + d3) * g5) with (1 / 576 + d4 / 12 + d4 * d4 - g5 / 3 + 2 * (- d3 * g5)) by field. lra. }
  assert (C5 : g5 * g5 <= 27 / 1000000).
  { assert (g5 * g5 <= 51 / 10000 * (51 / 10000)) by (apply Rmult_le_compat; lra). lra. }
  apply Rmult_le_compat_r with (r := n1) in C1; [|lra]. apply Rmult_le_compat_r with (r := n2) in C2; [|lra]. apply Rmult_le_compat_r with (r := n3) in C3; [|lra].
  apply Rmult_le_compat_r with (r := n4) in C4; [|lra]. apply Rmult_le_compat_r with (r := n5) in C5; [|lra].
  assert (U1 : 5 * e * n1 <= 40 * (e * n0)) by (replace (40 * (e * n0)) with (5 * e * (8 * n0)) by ring; apply Rmult_le_compat_l; lra).
  assert (U2 : 9 * e * n2 <= 576 * (e * n0)) by (replace (576 * (e * n0)) with (9 * e * (64 * n0)) by ring; apply Rmult_le_compat_l; lra).
  assert (U3 : 616 * (e * n0) <= 1 / 10 ^ 22 * n0) by (replace (616 * (e * n0)) with (616 * e * n0) by ring; apply Rmult_le_compat_r; [lra|rewrite He; lra]).
  set (X1 := ((1 + d1) * (1 + d1) - 2 * (1 / 2 + d2)) * n1) in *. set (X2 := (_ - 2 * (1 + d1) * (1 / 6 + d3) + _) * n2) in *. set (X3 := (_ - _ + 2 * (1 + d1) * g5) * n3) in *.
  set (X4 := (_ - _) * n4) in *. set (X5 := g5 * g5 * n5) in *. clearbody X1 X2 X3 X4 X5. lra.
Qed.
End Powers.
End Skew.

(** ** The linear shallow water equations *)
Section OnMesh.
Context (S : setup RA) (Hok : setup_ok S) (Hdc : (0 < (dc (mesh_of_setup S) : R))%R) (m : mem RA) (Hr : ready S m).
Local Notation P := (par_of S).
Local Notation h := (mesh_of_setup S).
Local Notation D := (sdims S).
Local Notation NC := (nx h * ny h)%Z.
Local Notation NL := (d_nlayers D).
Local Notation rr a i := (mr m a i).
Context (H : Z -> R) (Hpos : forall k, (0 <= k < NL)%Z -> 0 < H k) (Gpos : 0 < grav P).
Context (V2 : vel_diff_enabled P = false) (V4 : vel_hyperdiff_enabled P = false) (N1 : (2 <= nx h)%Z) (N2 : (2 <= ny h)%Z) (Ev : Z.even (ny h) = true).
Local Notation L := (linear_swe S m H).
Local Notation V := (valid_place S).
Let Hm : hexmem h NL m := ready_hex S Hok m Hr.
Let HM : mesh_ok (cfg_of S) h := proj1 Hok.

Definition edot (w w' : place -> R) : R :=
  rsum NL (fun k => grav P * rsum NC (fun c => rr AreaCell [c] * (w (AtCell c k) * w' (AtCell c k)))
    + H k * rsum (3 * NC) (fun e => rr DcEdge [e] * rr DvEdge [e] * (w (AtEdge e k) * w' (AtEdge e k)))).
Lemma energy_dot w : disturbance_energy S m H w = edot w w / 2.
Proof.
  unfold disturbance_energy, edot. unfold Rdiv at 3. rewrite Rmult_comm, <- rsum_scal. apply rsum_ext. intros k _.
  change (d_ncells D) with NC. change (d_nedges D) with (3 * NC)%Z. field.
Qed.
Lemma edot_ext w w1 w' : (forall p, V p -> w p = w1 p) -> edot w w' = edot w1 w'.
Proof.
  intros E. unfold edot. apply rsum_ext. intros k Hk. f_equal; f_equal; apply rsum_ext; intros i Hi; rewrite E; try reflexivity; cbn [valid_place]; (split; [exact Hi|exact Hk]).
Qed.
Lemma edot_sym w w' : edot w w' = edot w' w.
Proof. unfold edot. apply rsum_ext. intros k Hk. f_equal; f_equal; apply rsum_ext; intros i Hi; ring. Qed.
Lemma edot_lin a b f f' g : edot (fun x => a * f x + b * f' x) g = a * edot f g + b * edot f' g.
Proof.
  unfold edot. rewrite <- rsum_lin. apply rsum_ext. intros k Hk.
  rewrite (rsum_ext NC _ (fun c => a * (rr AreaCell [c] * (f (AtCell c k) * g (AtCell c k))) + b * (rr AreaCell [c] * (f' (AtCell c k) * g (AtCell c k))))) by (intros; ring).
  rewrite (rsum_ext (3 * NC) _ (fun e => a * (rr DcEdge [e] * rr DvEdge [e] * (f (AtEdge e k) * g (AtEdge e k))) + b * (rr DcEdge [e] * rr DvEdge [e] * (f' (AtEdge e k) * g (AtEdge e k))))) by (intros; ring).
  rewrite !rsum_lin. ring.
Qed.
Lemma area_nn c : (0 <= c < NC)%Z -> 0 < rr AreaCell [c].
Proof. intros Hc. rewrite (hm_area _ _ _ Hm) by exact Hc. now apply area_pos. Qed.
Lemma dcdv_nn e : (0 <= e < 3 * NC)%Z -> 0 < rr DcEdge [e] * rr DvEdge [e].
Proof. intros He. rewrite (hm_dce _ _ _ Hm), (hm_dve _ _ _ Hm) by exact He. apply Rmult_lt_0_compat; [exact Hdc|now apply dve_pos]. Qed.
Lemma cells_nn (f : Z -> R) : 0 <= rsum NC (fun c => rr AreaCell [c] * (f c * f c)).
Proof. apply rsum_nonneg. intros c Hc. apply Rmult_le_pos; [left; now apply area_nn|apply Rle_0_sqr]. Qed.
Lemma edges_nn (f : Z -> R) : 0 <= rsum (3 * NC) (fun e => rr DcEdge [e] * rr DvEdge [e] * (f e * f e)).
Proof. apply rsum_nonneg. intros c Hc. apply Rmult_le_pos; [left; now apply dcdv_nn|apply Rle_0_sqr]. Qed.
Lemma edot_pos w : 0 <= edot w w.
Proof.
  unfold edot. apply rsum_nonneg. intros k Hk. pose proof (Hpos k Hk). apply Rplus_le_le_0_compat; apply Rmult_le_pos; try lra.
  - apply (cells_nn (fun c => w (AtCell c k))).
  - apply (edges_nn (fun e => w (AtEdge e k))).
Qed.
Lemma edot_skew f g : edot (L f) g = - edot f (L g).
Proof.
  unfold edot. rewrite <- rsum_opp. apply rsum_ext. intros k Hk.
  set (uf := fun e => f (AtEdge e k)). set (ug := fun e => g (AtEdge e k)). set (hf := fun c => f (AtCell c k)). set (hg := fun c => g (AtCell c k)).
  assert (Z : rsum (3 * NC) (fun e => rr DcEdge [e] * rr DvEdge [e] * (recon m uf e * ug e + recon m ug e * uf e)) = 0).
  { pose proof (no_work _ _ _ HM m Hm (fun e e' => uf e' * ug e + ug e' * uf e)) as W. cbv beta in W. rewrite <- W by (intros; ring). apply rsum_ext. intros e He. f_equal.
    unfold recon. rewrite !(Rmult_comm (rsum _ _)), <- !rsum_scal, <- rsum_plus. apply rsum_ext. intros j _. ring. }
  pose proof (gauss _ _ _ HM Hdc m Hm hg uf N1 N2) as G1. pose proof (gauss _ _ _ HM Hdc m Hm hf ug N1 N2) as G2.
  rewrite (rsum_ext NC (fun c => rr AreaCell [c] * (L f (AtCell c k) * g (AtCell c k))) (fun c => - H k * (rr AreaCell [c] * hg c * outflow m uf c))).
  2:{ intros c Hc. cbn [linear_swe]. fold uf. unfold hg. ring. }
  rewrite (rsum_ext NC (fun c => rr AreaCell [c] * (f (AtCell c k) * L g (AtCell c k))) (fun c => - H k * (rr AreaCell [c] * hf c * outflow m ug c))).
  2:{ intros c Hc. cbn [linear_swe]. fold ug. unfold hf. ring. }
  rewrite !rsum_scal, G1, G2.
  rewrite (rsum_ext (3 * NC) (fun e => rr DcEdge [e] * rr DvEdge [e] * (L f (AtEdge e k) * g (AtEdge e k))) (fun e => f0 P * (rr DcEdge [e] * rr DvEdge [e] * (recon m uf e * ug e)) + - grav P * (rr DcEdge [e] * rr DvEdge [e] * ug e * grad m hf e))).
  2:{ intros e He. cbn [linear_swe]. rewrite visc2, visc4, V2, V4. fold uf hf. unfold ug. ring. }
  rewrite (rsum_ext (3 * NC) (fun e => rr DcEdge [e] * rr DvEdge [e] * (f (AtEdge e k) * L g (AtEdge e k))) (fun e => f0 P * (rr DcEdge [e] * rr DvEdge [e] * (recon m ug e * uf e)) + - grav P * (rr DcEdge [e] * rr DvEdge [e] * uf e * grad m hg e))).
  2:{ intros e He. cbn [linear_swe]. rewrite visc2, visc4, V2, V4. fold ug hg. unfold uf. ring. }
  rewrite !rsum_lin.
  assert (Z2 : rsum (3 * NC) (fun e => rr DcEdge [e] * rr DvEdge [e] * (recon m uf e * ug e)) = - rsum (3 * NC) (fun e => rr DcEdge [e] * rr DvEdge [e] * (recon m ug e * uf e))).
  { apply Rplus_opp_r_uniq. rewrite <- Z, <- rsum_plus. apply rsum_ext. intros; ring. }
  rewrite Z2. ring.
Qed.

(** ** The speed of the fastest mode *)
Definition grav_part (w : place -> R) (p : place) : R :=
  match p with AtCell c k => - (H k * outflow m (fun e => w (AtEdge e k)) c) | AtEdge e k => - (grav P * grad m (fun c => w (AtCell c k)) e) end.
Definition cor_part (w : place -> R) (p : place) : R := match p with AtCell c k => 0 | AtEdge e k => recon m (fun e => w (AtEdge e k)) e end.
Lemma L_parts w p : L w p = 1 * grav_part w p + f0 P * cor_part w p.
Proof. destruct p; cbn [linear_swe grav_part cor_part]; [ring|]. rewrite visc2, visc4, V2, V4. ring. Qed.
Context (Hm1 : R) (HHm : forall k, (0 <= k < NL)%Z -> H k <= Hm1) (Hm0 : 0 < Hm1).
Lemma grav_bound w : edot (grav_part w) (grav_part w) <= 6 * grav P * Hm1 / (dc h * dc h) * edot w w.
Proof.
  unfold edot. rewrite <- rsum_scal. apply rsum_le. intros k Hk. pose proof (Hpos k Hk) as H1. pose proof (HHm k Hk) as H2.
  set (u := fun e => w (AtEdge e k)). set (eta := fun c => w (AtCell c k)).
  pose proof (grad_bound _ _ _ HM Hdc m Hm Ev eta) as GB. pose proof (div_bound _ _ _ HM Hdc m Hm N1 Ev u) as DB.
  rewrite (rsum_ext NC (fun c => rr AreaCell [c] * (grav_part w (AtCell c k) * grav_part w (AtCell c k))) (fun c => (H k * H k) * (rr AreaCell [c] * (outflow m u c * outflow m u c)))) by (intros c Hc; cbn [grav_part]; unfold u; ring).
  rewrite (rsum_ext (3 * NC) (fun e => rr DcEdge [e] * rr DvEdge [e] * (grav_part w (AtEdge e k) * grav_part w (AtEdge e k))) (fun e => (grav P * grav P) * (rr DcEdge [e] * rr DvEdge [e] * (grad m eta e * grad m eta e)))) by (intros c Hc; cbn [grav_part]; unfold eta; ring).
  rewrite !rsum_scal. pose proof (cells_nn eta) as CN. pose proof (edges_nn u) as EN. unfold eta in CN at 1 2. unfold u in EN at 1 2.
  change (rsum NC (fun c => rr AreaCell [c] * (w (AtCell c k) * w (AtCell c k)))) with (rsum NC (fun c => rr AreaCell [c] * (eta c * eta c))) in *.
  change (rsum (3 * NC) (fun e => rr DcEdge [e] * rr DvEdge [e] * (w (AtEdge e k) * w (AtEdge e k)))) with (rsum (3 * NC) (fun e => rr DcEdge [e] * rr DvEdge [e] * (u e * u e))) in *.
  set (CE := rsum NC (fun c => rr AreaCell [c] * (eta c * eta c))) in *. set (EU := rsum (3 * NC) (fun e => rr DcEdge [e] * rr DvEdge [e] * (u e * u e))) in *.
  set (DU := rsum NC (fun c => rr AreaCell [c] * (outflow m u c * outflow m u c))) in *. set (GE := rsum (3 * NC) (fun e => rr DcEdge [e] * rr DvEdge [e] * (grad m eta e * grad m eta e))) in *.
  assert (D2 : 0 < dc h * dc h) by (apply Rmult_lt_0_compat; exact Hdc). set (q := 6 / (dc h * dc h)) in *. assert (Q : 0 < q) by (unfold q; apply Rdiv_lt_0_compat; lra).
  replace (6 * grav P * Hm1 / (dc h * dc h)) with (q * grav P * Hm1) by (unfold q; field; lra).
  clearbody q CE EU DU GE. clear - GB DB CN EN Q Gpos H1 H2.
  set (g := grav P) in *. set (Hk := H k) in *. clearbody g Hk.
  assert (A1 : g * (Hk * Hk * DU) <= g * Hk * Hk * (q * EU)) by (replace (g * (Hk * Hk * DU)) with (g * Hk * Hk * DU) by ring; apply Rmult_le_compat_l; [|exact DB]; repeat apply Rmult_le_pos; lra).
  assert (A2 : Hk * (g * g * GE) <= Hk * g * g * (q * CE)) by (replace (Hk * (g * g * GE)) with (Hk * g * g * GE) by ring; apply Rmult_le_compat_l; [|exact GB]; repeat apply Rmult_le_pos; lra).
  assert (A3 : q * g * Hk * (g * CE + Hk * EU) <= q * g * Hm1 * (g * CE + Hk * EU)).
  { apply Rmult_le_compat_r; [apply Rplus_le_le_0_compat; apply Rmult_le_pos; lra|]. apply Rmult_le_compat_l; [apply Rmult_le_pos; lra|exact H2]. }
  eapply Rle_trans; [|exact A3]. replace (q * g * Hk * (g * CE + Hk * EU)) with (g * Hk * Hk * (q * EU) + Hk * g * g * (q * CE)) by ring. lra.
Qed.
Lemma cor_bound w : edot (cor_part w) (cor_part w) <= edot w w.
Proof.
  unfold edot. apply rsum_le. intros k Hk. pose proof (Hpos k Hk) as H1.
  set (u := fun e => w (AtEdge e k)). set (eta := fun c => w (AtCell c k)).
  pose proof (recon_contracts _ _ _ HM m Hm Ev u) as RC. pose proof (cells_nn eta) as CN. unfold eta in CN.
  rewrite (rsum_zero NC (fun c => rr AreaCell [c] * (cor_part w (AtCell c k) * cor_part w (AtCell c k)))) by (intros c Hc; cbn [cor_part]; ring).
  rewrite (rsum_ext (3 * NC) (fun e => rr DcEdge [e] * rr DvEdge [e] * (cor_part w (AtEdge e k) * cor_part w (AtEdge e k))) (fun e => (dc h * hdve h) * (recon m u e * recon m u e))).
  2:{ intros e He. rewrite (hm_dce _ _ _ Hm), (hm_dve _ _ _ Hm) by exact He. reflexivity. }
  rewrite (rsum_ext (3 * NC) (fun e => rr DcEdge [e] * rr DvEdge [e] * (w (AtEdge e k) * w (AtEdge e k))) (fun e => (dc h * hdve h) * (u e * u e))).
  2:{ intros e He. rewrite (hm_dce _ _ _ Hm), (hm_dve _ _ _ Hm) by exact He. reflexivity. }
  rewrite !rsum_scal. pose proof (dve_pos h Hdc) as DV.
  assert (D2 : 0 < dc h * hdve h) by (apply Rmult_lt_0_compat; [exact Hdc|exact DV]).
  assert (0 <= grav P * rsum NC (fun c => rr AreaCell [c] * (w (AtCell c k) * w (AtCell c k)))) by (apply Rmult_le_pos; lra).
  assert (H k * (dc h * hdve h * rsum (3 * NC) (fun e => recon m u e * recon m u e)) <= H k * (dc h * hdve h * rsum (3 * NC) (fun e => u e * u e))).
  { apply Rmult_le_compat_l; [lra|]. apply Rmult_le_compat_l; [lra|exact RC]. }
  lra.
Qed.
Lemma edot_pm a b f g : edot (fun x => a * f x + b * g x) (fun x => a * f x + b * g x) = a * a * edot f f + 2 * a * b * edot f g + b * b * edot g g.
Proof. rewrite edot_lin, (edot_sym f), (edot_sym g), !edot_lin, (edot_sym g f). ring. Qed.
Lemma L_bound w : edot (L w) (L w) <= (sqrt (6 * grav P * Hm1) / dc h + Rabs (f0 P)) ^ 2 * edot w w.
Proof.
  rewrite (edot_ext (L w) (fun p => 1 * grav_part w p + f0 P * cor_part w p) (L w)) by (intros; apply L_parts).
  rewrite edot_sym, (edot_ext (L w) (fun p => 1 * grav_part w p + f0 P * cor_part w p)) by (intros; apply L_parts).
  rewrite edot_pm. pose proof (grav_bound w) as GB. pose proof (cor_bound w) as CB. pose proof (edot_pos w) as EP.
  set (a := sqrt (6 * grav P * Hm1) / dc h). assert (G6 : 0 < 6 * grav P * Hm1) by (apply Rmult_lt_0_compat; lra).
  assert (A : 0 < a) by (unfold a; apply Rdiv_lt_0_compat; [apply sqrt_lt_R0; exact G6|exact Hdc]).
  assert (AA : 6 * grav P * Hm1 / (dc h * dc h) = a * a).
  { unfold a. replace (sqrt (6 * grav P * Hm1) / dc h * (sqrt (6 * grav P * Hm1) / dc h)) with (sqrt (6 * grav P * Hm1) * sqrt (6 * grav P * Hm1) / (dc h * dc h)) by (field; apply Rgt_not_eq; exact Hdc). rewrite sqrt_sqrt; [reflexivity|lra]. }
  rewrite AA in GB. clearbody a. set (f := f0 P). change (F RA) with R in f. set (b := Rabs f).
  assert (B0 : 0 <= b) by apply Rabs_pos. assert (BB : f * f = b * b) by (unfold b; rewrite <- Rabs_mult; symmetry; apply Rabs_pos_eq, Rle_0_sqr).
  set (X := edot (grav_part w) (grav_part w)) in *. set (Y := edot (cor_part w) (cor_part w)) in *. set (E := edot w w) in *. set (Z := edot (grav_part w) (cor_part w)).
  assert (C : 2 * f * Z <= 2 * a * b * E).
  { destruct (Req_dec f 0) as [F0|F0].
    - rewrite F0. replace (2 * 0 * Z) with 0 by ring. repeat apply Rmult_le_pos; lra.
    - assert (B1 : 0 < b) by (apply Rabs_pos_lt; exact F0).
      pose proof (edot_pos (fun p => b * grav_part w p + - (a * f) * cor_part w p)) as Q. rewrite edot_pm in Q. fold X Y Z in Q.
      replace (- (a * f) * - (a * f)) with (a * a * (f * f)) in Q by ring. rewrite BB in Q.
      assert (b * b * X <= b * b * (a * a * E)) by (apply Rmult_le_compat_l; [apply Rle_0_sqr|exact GB]).
      assert (a * a * (b * b) * Y <= a * a * (b * b) * E) by (apply Rmult_le_compat_l; [apply Rmult_le_pos; apply Rle_0_sqr|exact CB]).
      apply Rmult_le_reg_l with (a * b); [apply Rmult_lt_0_compat; lra|]. 
      replace (a * b * (2 * f * Z)) with (- (2 * b * - (a * f) * Z)) by ring. replace (a * b * (2 * a * b * E)) with (b * b * (a * a * E) + a * a * (b * b) * E) by ring. lra. }
  assert (f * f * Y <= b * b * E) by (rewrite BB; apply Rmult_le_compat_l; [apply Rle_0_sqr|exact CB]).
  replace ((a + b) ^ 2 * E) with (a * a * E + 2 * a * b * E + b * b * E) by ring. lra.
Qed.

(** ** Runs *)
Local Notation Kb := ((sqrt (6 * grav P * Hm1) / dc h + Rabs (f0 P)) ^ 2).
Lemma cfl dt : Rabs dt * (sqrt (6 * grav P * Hm1) / dc h + Rabs (f0 P)) <= sqrt 8 -> dt ^ 2 * Kb <= 8.
Proof.
  intros C. assert (N : 0 <= Rabs dt * (sqrt (6 * grav P * Hm1) / dc h + Rabs (f0 P))).
  { apply Rmult_le_pos; [apply Rabs_pos|]. apply Rplus_le_le_0_compat; [|apply Rabs_pos]. unfold Rdiv. apply Rmult_le_pos; [apply sqrt_pos|]. left. apply Rinv_0_lt_compat. exact Hdc. }
  set (k := sqrt (6 * grav P * Hm1) / dc h + Rabs (f0 P)) in *. 
  assert (Q : Rabs dt * k * (Rabs dt * k) <= sqrt 8 * sqrt 8) by (apply Rmult_le_compat; assumption).
  rewrite sqrt_sqrt in Q by lra. replace (Rabs dt * k * (Rabs dt * k)) with (Rabs dt * Rabs dt * (k * k)) in Q by ring.
  rewrite <- Rabs_mult, (Rabs_pos_eq (dt * dt)) in Q by apply Rle_0_sqr. replace (dt ^ 2 * k ^ 2) with (dt * dt * (k * k)) by ring. exact Q.
Qed.
End OnMesh.
