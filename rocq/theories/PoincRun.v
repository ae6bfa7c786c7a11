(** Inertia-gravity waves: small disturbances of a rotating fluid at rest made of one plane wave. *)
From Coq Require Import ZArith Reals List Bool Lia Lra FunctionalExtensionality.
From Verif Require Import Arith Arrays Prog Conc Launch Mesh AuxVars Tend Model Hex HexComb RSum Spec MeshProof MeshMem MeshFacts MeshR MeshCalc Ready SumParts RealTend Stencil Sample Waves Modes Cplx WaveThms LinStep LinSpec LinRun LinModes LinWave Poinc.
Import ListNotations.
Open Scope Z_scope.

Section Plane.
Context (S : setup RA) (Hok : setup_ok S) (Hdc : (0 < (dc (mesh_of_setup S) : R))%R) (m : mem RA) (Hr : ready S m).
Context (N1 : 2 <= nx (mesh_of_setup S)) (Ev : Z.even (ny (mesh_of_setup S)) = true).
Local Notation P := (par_of S).
Local Notation h := (mesh_of_setup S).
Local Notation NC := (nx h * ny h).
Local Notation d := (dc h : R).
Let Hm : hexmem h (d_nlayers (sdims S)) m := ready_hex S Hok m Hr.
Let HM : mesh_ok (cfg_of S) h := proj1 Hok.
Let N2 : 2 <= ny h := HY S Hok Ev.
Local Notation per := (periodic (period_x h) (period_y h)).
Context (F : fn2) (HP : per F) (phi : Z -> R) (HS : smpC h F phi).
Definition chi (v : Z) : R := Xv d F (v mod 2) (hxv h v) (hyv h v).
Lemma per_Xv p : per (Xv d F p).
Proof using HP. unfold Xv. per; now apply per_Hv. Qed.
Lemma rec_grad e : 0 <= e < 3 * NC -> recon m (grad m phi) e = rgrad m chi e.
Proof.
  intros He.
  pose proof (smp_grad (cfg_of S) h (ntracers P) HM m Hm Ev F phi HP HS) as G.
  rewrite (smp_recon (cfg_of S) h (ntracers P) HM m Hm Ev (Gr d F) (grad m phi) (fun q => per_Gr _ _ d F q HP) G e He).
  rewrite (smp_rgrad (cfg_of S) h (ntracers P) HM m Hm Ev (Xv d F) chi per_Xv (fun v _ => eq_refl) e He).
  apply ReGr; [lra|]. apply Z.mod_pos_bound. lia.
Qed.
Lemma out_rec c : 0 <= c < NC -> outflow m (recon m (grad m phi)) c = 0%R.
Proof.
  intros Hc. rewrite (outflow_ext S Hok m Hr _ (rgrad m chi)) by (auto using rec_grad). apply (m_div_rot_grad _ _ _ HM m Hm chi c N1 N2 Ev Hc).
Qed.
Lemma vmean_chi c : 0 <= c < NC -> vmean m chi c = Vc d (Xv d F) (hxc h c) (hyc h c).
Proof.
  intros Hc. unfold vmean, Vc. f_equal. rewrite rsum_small6, !(hm_voc _ _ _ Hm) by lia.
  assert (HV : forall j p x y, 0 <= j < 6 -> hV (nx h) (ny h) c j mod 2 = p -> (x = hxc h c + d * vxj j)%R -> (y = hyc h c + d * sqrt 3 * vyj j)%R -> chi (hV (nx h) (ny h) c j) = Xv d F p x y).
  { intros j p x y Hj Hp -> ->. destruct (pos_corner (cfg_of S) h HM c j Ev Hc Hj) as [A B]. apply (vertex_at h Ev (Xv d F) chi); auto using per_Xv; [intros v _; reflexivity|]. apply hV_range; [apply (Hx _ _ HM)|apply (Hy _ _ HM)|exact Hc]. }
  rewrite (HV 0%Z 0%Z (hxc h c - d / 2) (hyc h c + d * sqrt 3 / 6))%R, (HV 1%Z 1%Z (hxc h c - d / 2) (hyc h c - d * sqrt 3 / 6))%R, (HV 2%Z 0%Z (hxc h c) (hyc h c - d * sqrt 3 / 3))%R,
    (HV 3%Z 1%Z (hxc h c + d / 2) (hyc h c - d * sqrt 3 / 6))%R, (HV 4%Z 0%Z (hxc h c + d / 2) (hyc h c + d * sqrt 3 / 6))%R, (HV 5%Z 1%Z (hxc h c) (hyc h c + d * sqrt 3 / 3))%R; [reflexivity|..].
  all: try lia. all: try (unfold hV; cbn [Z.eqb Pos.eqb]; rewrite ?mod2', ?mod2 by lia; reflexivity).
  all: unfold vxj, vyj; cbn [Z.eqb Pos.eqb]; lra.
Qed.
End Plane.
Lemma rec_rec (S : setup RA) (Hok : setup_ok S) (Hdc : (0 < (dc (mesh_of_setup S) : R))%R) (m : mem RA) (Hr : ready S m)
  (N1 : 2 <= nx (mesh_of_setup S)) (Ev : Z.even (ny (mesh_of_setup S)) = true) A k l p phi :
  periodic (period_x (mesh_of_setup S)) (period_y (mesh_of_setup S)) (wave A k l p) -> smpC (mesh_of_setup S) (wave A k l p) phi ->
  forall e, 0 <= e < 3 * (nx (mesh_of_setup S) * ny (mesh_of_setup S)) -> recon m (recon m (grad m phi)) e = (- (mu (dc (mesh_of_setup S)) k l * grad m phi e))%R.
Proof.
  intros HP HS e He. rewrite (recon_ext2 S Hok m Hr _ (rgrad m (chi S (wave A k l p)))) by (try exact He; intros; now apply rec_grad).
  rewrite (recon_rgrad S Hok Hdc m Hr N1 Ev) by exact He. f_equal.
  rewrite (grad_ext S Hok m Hr _ (fun c => mu (dc (mesh_of_setup S)) k l * phi c)%R); [|intros c Hc; rewrite (vmean_chi S Hok m Hr Ev _ HP c Hc), VcXv_wave by lra; now rewrite (HS c Hc)|exact He].
  unfold grad. unfold Rdiv. ring.
Qed.
Lemma plane_per (S : setup RA) (Hok : setup_ok S) (Hdc : (0 < (dc (mesh_of_setup S) : R))%R) (N1 : 2 <= nx (mesh_of_setup S)) (Ev : Z.even (ny (mesh_of_setup S)) = true) A p q theta :
  periodic (period_x (mesh_of_setup S)) (period_y (mesh_of_setup S)) (wave A (2 * PI * IZR p / period_x (mesh_of_setup S)) (2 * PI * IZR q / period_y (mesh_of_setup S)) theta).
Proof.
  pose proof (HY S Hok Ev) as HY2. apply wave_periodic.
  - unfold period_x. cbn [Arith.F RA fofZ fmul] in *. assert (0 < IZR (nx (mesh_of_setup S)))%R by (apply IZR_lt; lia). apply Rgt_not_eq. apply Rmult_lt_0_compat; assumption.
  - unfold period_y. cbn [Arith.F RA fofZ fmul fdiv fsqrt] in *. assert (0 < IZR (ny (mesh_of_setup S)))%R by (apply IZR_lt; lia).
    assert (0 < sqrt 3)%R by (apply sqrt_lt_R0; lra). apply Rgt_not_eq. unfold Rdiv. repeat apply Rmult_lt_0_compat; try assumption; lra.
Qed.

Section IG.
Context (S : setup RA) (Hok : setup_ok S) (m : mem RA) (Hr : ready S m).
Local Notation P := (par_of S).
Local Notation h := (mesh_of_setup S).
Local Notation NC := (nx h * ny h).
Context (H : R) (V2 : vel_diff_enabled P = false) (V4 : vel_hyperdiff_enabled P = false).
Local Notation L := (linear_swe S m (fun _ => H)).
Local Notation V := (valid_place S).
Local Notation f := (f0 P : R).
Local Notation g := (grav P : R).
Context (phi : Z -> R) (Lam Mu om : R) (Hl : forall c, 0 <= c < NC -> outflow m (grad m phi) c = (Lam * phi c)%R)
  (Ho : forall c, 0 <= c < NC -> outflow m (recon m (grad m phi)) c = 0%R)
  (Hm : forall e, 0 <= e < 3 * NC -> recon m (recon m (grad m phi)) e = (- (Mu * grad m phi e))%R)
  (Hom : (om * om = f * f * Mu - g * H * Lam)%R).
(** Thickness [eta phi], velocity [a grad phi + b recon (grad phi)]. *)
Definition ig (eta a b : R) (p : place) : R := match p with AtCell c k => (eta * phi c)%R | AtEdge e k => (a * grad m phi e + b * recon m (grad m phi) e)%R end.
(** The complex amplitude of the oscillation, and the potential vorticity. *)
Definition igamp (z : R * R) (q eta a b : R) : Prop := (f * Mu * b + g * eta = fst z /\ om * a = snd z /\ f * eta + H * Lam * b = q)%R.
Lemma ig_L eta a b p : V p -> L (ig eta a b) p = ig (- (H * Lam * a)) (- (f * Mu * b) - g * eta) (f * a) p.
Proof.
  destruct p as [c k|e k]; intros [Hc Hk]; cbn [linear_swe ig].
  - rewrite (outflow_lin2 m a b (grad m phi) (recon m (grad m phi))), (Hl c Hc), (Ho c Hc). ring.
  - rewrite visc2, visc4, V2, V4. cbn [ig].
    rewrite (recon_lin2 m a b (grad m phi) (recon m (grad m phi))), (Hm e Hc). unfold grad. unfold Rdiv. ring.
Qed.
Lemma igamp_L z q eta a b : igamp z q eta a b -> igamp (cmul (0, - om)%R z) 0 (- (H * Lam * a)) (- (f * Mu * b) - g * eta) (f * a).
Proof.
  intros (A & B & C). unfold igamp, cmul. cbn [fst snd]. split; [|split].
  - transitivity (om * om * a)%R; [rewrite Hom; ring|]. rewrite <- B. ring.
  - rewrite <- A. ring.
  - ring.
Qed.
Lemma ig_pol c dt : forall z q eta a b, igamp z q eta a b -> exists eta' a' b', igamp (cmul (cpoly c (cscal dt (0, - om)%R)) z) (match c with [] => 0 | x :: _ => x * q end)%R eta' a' b' /\
  forall p, V p -> opolyx L c dt (ig eta a b) p = ig eta' a' b' p.
Proof.
  induction c as [|x c IH]; intros z q eta a b A.
  - exists 0%R, 0%R, 0%R. split; [unfold igamp, cpoly, cmul, cre; cbn [fst snd]; repeat split; ring|]. intros [i k|e k] _; cbn [opolyx ig]; ring.
  - destruct (IH _ _ _ _ _ (igamp_L z q eta a b A)) as (eta' & a' & b' & (A1 & A2 & A3) & E). destruct A as (B1 & B2 & B3).
    exists (x * eta + dt * eta')%R, (x * a + dt * a')%R, (x * b + dt * b')%R. split.
    + assert (Z : (f * eta' + H * Lam * b' = 0)%R) by (rewrite A3; destruct c; ring).
      unfold igamp. cbn [cpoly]. set (w := cpoly c _) in *. unfold cmul, cadd, cscal, cre in *. cbn [fst snd] in *. split; [|split].
      * replace (f * Mu * (x * b + dt * b') + g * (x * eta + dt * eta'))%R with (x * (f * Mu * b + g * eta) + dt * (f * Mu * b' + g * eta'))%R by ring. rewrite A1, B1. ring.
      * replace (om * (x * a + dt * a'))%R with (x * (om * a) + dt * (om * a'))%R by ring. rewrite A2, B2. ring.
      * replace (f * (x * eta + dt * eta') + H * Lam * (x * b + dt * b'))%R with (x * (f * eta + H * Lam * b) + dt * (f * eta' + H * Lam * b'))%R by ring. rewrite Z, B3. ring.
    + intros p Hp. cbn [opolyx]. rewrite (opolyx_ext V L (L_ext S Hok m Hr (fun _ => H)) c dt (L (ig eta a b)) (ig (- (H * Lam * a)) (- (f * Mu * b) - g * eta) (f * a)) p) by (try exact Hp; intros; now apply ig_L).
      rewrite (E p Hp). destruct p; cbn [ig]; ring.
Qed.
Lemma ig_run c steps : forall z q eta a b, igamp z q eta a b -> exists eta' a' b',
  igamp (fold_left (fun z (s : R * R) => cmul (cpoly (1%R :: c) (cscal (snd s) (0, - om)%R)) z) steps z) q eta' a' b' /\
  forall p, V p -> linear_run S m (fun _ => H) (1%R :: c) steps (ig eta a b) p = ig eta' a' b' p.
Proof.
  unfold linear_run. induction steps as [|s l IH]; intros z q eta a b A; [exists eta, a, b; split; [exact A|reflexivity]|].
  cbn [fold_left]. destruct (ig_pol (1%R :: c) (snd s) z q eta a b A) as (e1 & a1 & b1 & A1 & E1). rewrite Rmult_1_l in A1. destruct (IH _ _ _ _ _ A1) as (e2 & a2 & b2 & A2 & E2).
  exists e2, a2, b2. split; [exact A2|]. intros p Hp.
  rewrite (opolyx_run V L (L_ext S Hok m Hr (fun _ => H)) (1%R :: c) l _ (ig e1 a1 b1)); [now apply E2|exact E1|exact Hp].
Qed.
End IG.
