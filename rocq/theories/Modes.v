(** Plane waves are eigenvectors of the discrete Laplacian; tracers at rest that are eigenvectors are multiplied by a
    number in every step. *)
From Coq Require Import ZArith Reals List Bool Lia Lra.
From Verif Require Import Arith Arrays Prog Conc Launch Mesh AuxVars Tend Model Hex HexComb RSum Spec MeshProof MeshMem MeshFacts MeshR MeshCalc Over Formulas KernBase Terms KernAux KernTend TendFn StepFn Ready Rel RelRun Relate TendVal StepVal StepRun Tableau StepThms RealTend SumParts Diag FieldInv ConsBase ConsThms SteadyThms SuperThms Diffuse DiffuseThms Deriv Stencil Taylor Sample Waves.
Import ListNotations.
Open Scope Z_scope.

(** The eigenvalue of the discrete Laplacian of spacing [d] on waves with wave vector [(k, l)]. *)
Definition lam (d k l : R) : R :=
  (4 / (3 * (d * d)) * (cos (d * k) + cos (d / 2 * k + d * (sqrt 3 / 2) * l) + cos (- (d / 2) * k + d * (sqrt 3 / 2) * l) - 3))%R.

Lemma cos_second u v : (cos (u + v) + cos (u - v) = 2 * cos u * cos v)%R.
Proof. rewrite cos_plus, cos_minus. ring. Qed.
Lemma OuGr_wave d A k l p x y : d <> 0%R -> Ou d (Gr d (wave A k l p)) x y = (lam d k l * wave A k l p x y)%R.
Proof.
  intros Hd. unfold Ou, Df, Gr, wave, lam, cq, sq. cbn [Z.eqb Pos.eqb]. set (u := (k * x + l * y + p)%R).
  assert (G : forall a b x1 y1 x2 y2 x3 y3 x4 y4,
    (x1 = x + d / 2 * a + d / 2 * a -> y1 = y + d / 2 * b + d / 2 * b -> x2 = x + d / 2 * a - d / 2 * a -> y2 = y + d / 2 * b - d / 2 * b ->
     x3 = x - d / 2 * a + d / 2 * a -> y3 = y - d / 2 * b + d / 2 * b -> x4 = x - d / 2 * a - d / 2 * a -> y4 = y - d / 2 * b - d / 2 * b ->
     (A * cos (k * x1 + l * y1 + p) - A * cos (k * x2 + l * y2 + p)) / d - (A * cos (k * x3 + l * y3 + p) - A * cos (k * x4 + l * y4 + p)) / d =
     2 * A * cos u * (cos (d * a * k + d * b * l) - 1) / d)%R).
  { intros a b x1 y1 x2 y2 x3 y3 x4 y4 -> -> -> -> -> -> -> ->.
    replace (k * (x + d / 2 * a + d / 2 * a) + l * (y + d / 2 * b + d / 2 * b) + p)%R with (u + (d * a * k + d * b * l))%R by (unfold u; field).
    replace (k * (x - d / 2 * a - d / 2 * a) + l * (y - d / 2 * b - d / 2 * b) + p)%R with (u - (d * a * k + d * b * l))%R by (unfold u; field).
    replace (k * (x + d / 2 * a - d / 2 * a) + l * (y + d / 2 * b - d / 2 * b) + p)%R with u by (unfold u; ring).
    replace (k * (x - d / 2 * a + d / 2 * a) + l * (y - d / 2 * b + d / 2 * b) + p)%R with u by (unfold u; ring).
    pose proof (cos_second u (d * a * k + d * b * l)) as C.
    replace ((A * cos (u + (d * a * k + d * b * l)) - A * cos u) / d - (A * cos u - A * cos (u - (d * a * k + d * b * l))) / d)%R
      with (A * ((cos (u + (d * a * k + d * b * l)) + cos (u - (d * a * k + d * b * l))) - 2 * cos u) / d)%R by (field; exact Hd).
    rewrite C. field. exact Hd. }
  rewrite (G 1 0)%R by reflexivity. rewrite (G (1 / 2) (sqrt 3 / 2))%R by reflexivity. rewrite (G (- (1 / 2)) (sqrt 3 / 2))%R by reflexivity.
  replace (d * 1 * k + d * 0 * l)%R with (d * k)%R by ring. replace (d * (1 / 2) * k + d * (sqrt 3 / 2) * l)%R with (d / 2 * k + d * (sqrt 3 / 2) * l)%R by field.
  replace (d * - (1 / 2) * k + d * (sqrt 3 / 2) * l)%R with (- (d / 2) * k + d * (sqrt 3 / 2) * l)%R by field. field. exact Hd.
Qed.

Section Modes.
Context (S : setup RA) (Hok : setup_ok S) (Hdc : (0 < (dc (mesh_of_setup S) : R))%R) (m : mem RA) (Hr : ready S m).
Context (HX : 2 <= nx (mesh_of_setup S)) (Hev : Z.even (ny (mesh_of_setup S)) = true).
Local Notation P := (par_of S).
Local Notation h := (mesh_of_setup S).
Local Notation X := (nx (mesh_of_setup S)).
Local Notation Y := (ny (mesh_of_setup S)).
Local Notation NC := (nx (mesh_of_setup S) * ny (mesh_of_setup S)).
Local Notation NL := (d_nlayers (sdims S)).
Local Notation d := (dc (mesh_of_setup S) : R).
Lemma HY : 2 <= Y.
Proof. apply (HY2 (cfg_of S) h (proj1 Hok) Hev). Qed.

Definition eig (L : R) (phi : Z -> R) : Prop := forall c, 0 <= c < NC -> lap m phi c = (L * phi c)%R.
Lemma eig_wave A k l p phi : periodic (period_x h) (period_y h) (wave A k l p) -> smpC h (wave A k l p) phi -> eig (lam d k l) phi.
Proof.
  intros HP HS c Hc. pose proof (ready_hex S Hok m Hr) as Hm. unfold lap.
  rewrite (smp_outflow (cfg_of S) h (ntracers P) (proj1 Hok) Hdc m Hm Hev HX (Gr d (wave A k l p)) (grad m phi)); [|intros q; now apply per_Gr| |exact Hc].
  - rewrite OuGr_wave by lra. now rewrite (HS c Hc).
  - apply (smp_grad (cfg_of S) h (ntracers P) (proj1 Hok) m Hm Hev); assumption.
Qed.
Lemma eig_lin L a b f g phi : eig L f -> eig L g -> (forall c, 0 <= c < NC -> phi c = (a * f c + b * g c)%R) -> eig L phi.
Proof.
  intros Ef Eg E c Hc. rewrite (lap_ext S Hok Hdc m Hr HX HY _ _ c E Hc). rewrite (lap_lin S Hok Hdc m Hr HX HY) by exact Hc. rewrite Ef, Eg, E by exact Hc. ring.
Qed.
Lemma eig_scal L a f phi : eig L f -> (forall c, 0 <= c < NC -> phi c = (a * f c)%R) -> eig L phi.
Proof. intros Ef E. apply (eig_lin L a 0 f f); auto. intros c Hc. rewrite E by exact Hc. ring. Qed.
(** The rate of change of an eigenvector. *)
Definition rate (L : R) : R := ((if tracer_diff_enabled P then eddy_diff2 P * L else 0) - (if tracer_hyperdiff_enabled P then eddy_diff4 P * (L * L) else 0))%R.
Lemma lop_eig L phi c : eig L phi -> 0 <= c < NC -> lop S m phi c = (rate L * phi c)%R.
Proof.
  intros E Hc. unfold lop, rate. rewrite E by exact Hc.
  assert (E2 : lap m (lap m phi) c = (L * L * phi c)%R).
  { rewrite (lap_ext S Hok Hdc m Hr HX HY (lap m phi) (fun c => L * phi c + 0 * phi c)%R); [|intros; rewrite E by assumption; ring|exact Hc].
    rewrite (lap_lin S Hok Hdc m Hr HX HY) by exact Hc. rewrite E by exact Hc. ring. }
  rewrite E2. destruct (tracer_diff_enabled P), (tracer_hyperdiff_enabled P); cbn [F RA]; ring.
Qed.
Lemma lpow_eig L phi n : eig L phi -> forall c, 0 <= c < NC -> lpow S m n phi c = (rate L ^ n * phi c)%R.
Proof.
  intros E. induction n as [|n IH]; intros c Hc; [cbn; ring|]. cbn [lpow].
  rewrite (lop_eig L); [rewrite IH by exact Hc; cbn [pow]; ring| |exact Hc].
  apply (eig_scal L (rate L ^ n) phi); [exact E|]. exact IH.
Qed.
(** The amplification factor of a step. *)
Definition ampl (g : Z -> R) (z : R) : R := (g 0%Z + g 1%Z * z + g 2%Z * z ^ 2 + g 3%Z * z ^ 3 + g 4%Z * z ^ 4 + g 5%Z * z ^ 5)%R.
Lemma pol_eig L g dt phi c : eig L phi -> 0 <= c < NC -> pol S m g dt phi c = (ampl g (dt * rate L) * phi c)%R.
Proof. intros E Hc. unfold pol. rewrite !(lpow_eig L) by assumption. unfold ampl. ring. Qed.
Definition gain (g : Z -> R) (L : R) (steps : list (R * R)) : R := fold_right (fun p r => (ampl g (snd p * rate L) * r)%R) 1%R steps.
Lemma prun_eig L g steps : forall phi, eig L phi -> forall c, 0 <= c < NC -> prun S m g steps phi c = (gain g L steps * phi c)%R.
Proof.
  induction steps as [|p l IH]; intros phi E c Hc; [cbn; ring|]. cbn [prun fold_left gain fold_right].
  change (fold_left (fun f p => pol S m g (snd p) f) l (pol S m g (snd p) phi) c) with (prun S m g l (pol S m g (snd p) phi) c).
  rewrite IH; [|apply (eig_scal L (ampl g (snd p * rate L)) phi); [exact E|intros; now apply pol_eig]|exact Hc].
  rewrite (pol_eig L) by assumption. unfold gain. ring.
Qed.
(** Eigenvectors with a nonzero eigenvalue have mean zero. *)
Lemma eig_sum L phi : eig L phi -> L <> 0%R -> rsum NC phi = 0%R.
Proof.
  intros E HL. pose proof (out_sum0 S Hok Hdc m Hr (grad m phi) HX HY) as Q. pose proof (ready_hex S Hok m Hr) as Hm.
  rewrite (rsum_ext _ _ (fun c => (hareac h * L) * phi c)%R) in Q.
  - rewrite rsum_scal in Q. assert (A : (0 < hareac h)%R) by (now apply area_pos).
    apply Rmult_integral in Q. destruct Q as [Q|Q]; [|exact Q]. exfalso. apply Rmult_integral in Q. destruct Q; lra.
  - intros c Hc. rewrite (hm_area _ _ _ Hm) by exact Hc. rewrite Rmult_assoc. f_equal. now apply E.
Qed.
End Modes.
