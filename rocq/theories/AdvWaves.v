(** Plane waves of a tracer in a uniform flow. *)
From Coq Require Import ZArith Reals List Bool Lia Lra.
From Verif Require Import Arith Arrays Prog Conc Launch Mesh AuxVars Tend Model Hex HexComb RSum Spec MeshProof MeshMem MeshFacts MeshR MeshCalc Over Formulas KernBase Terms KernAux KernTend TendFn StepFn Ready Rel RelRun Relate TendVal StepVal StepRun Tableau StepThms RealTend SumParts Diag FieldInv ConsBase ConsThms SteadyThms SuperThms Diffuse DiffuseThms Deriv Stencil Taylor Sample Waves Modes DecayNum Driver DriverFn DriverThms WaveRun WaveThms Frozen Transport Cplx.
Import ListNotations.
Open Scope Z_scope.

(** The amplification factor of a complex mode. *)
Definition campl (g : Z -> R) (z : R * R) : R * R := cpoly [g 0; g 1; g 2; g 3; g 4; g 5] z.
Lemma cpow_scal t z n : cpow (cscal t z) n = cscal (t ^ n) (cpow z n).
Proof. induction n as [|n IH]; [cbn [cpow pow]; cpx|]. cbn [cpow pow]. rewrite IH. generalize (cpow z n). intros p. cpx. Qed.
Lemma campl_pow g z : campl g z = cadd (cre (g 0)) (cadd (cscal (g 1) (cpow z 1)) (cadd (cscal (g 2) (cpow z 2)) (cadd (cscal (g 3) (cpow z 3)) (cadd (cscal (g 4) (cpow z 4)) (cscal (g 5) (cpow z 5)))))).
Proof.
  assert (Q : forall n a l, cmul (cpow z n) (cpoly (a :: l) z) = cadd (cscal a (cpow z n)) (cmul (cpow z (S n)) (cpoly l z))).
  { intros n a l. cbn [cpoly cpow]. generalize (cpow z n) (cpoly l z). intros p q. cpx. }
  unfold campl. rewrite <- (cmul_1 (cpoly _ z)). change (cre 1) with (cpow z 0). rewrite !Q. cbn [cpoly].
  generalize (cpow z 1) (cpow z 2) (cpow z 3) (cpow z 4) (cpow z 5) (cpow z 6). intros p1 p2 p3 p4 p5 p6. cbn [cpow]. cpx.
Qed.
Definition cgain (g : Z -> R) (z : R * R) (steps : list (R * R)) (v : R * R) : R * R :=
  fold_right (fun s x => cmul (campl g (cscal (snd s) z)) x) v steps.
Lemma cgain_cons g z s steps v : cgain g z (s :: steps) v = cgain g z steps (cmul (campl g (cscal (snd s) z)) v).
Proof.
  cbn [cgain fold_right]. fold (cgain g z steps v). fold (cgain g z steps (cmul (campl g (cscal (snd s) z)) v)). set (p := campl g _). clearbody p.
  unfold cgain. induction steps as [|s' l IH]; [reflexivity|]. cbn [fold_right]. rewrite <- IH, !cmul_assoc. f_equal. apply cmul_comm.
Qed.

Section Pair.
Context (NC : Z) (L : (Z -> R) -> Z -> R).
Context (L_ext : forall f g c, (forall c, 0 <= c < NC -> f c = g c) -> 0 <= c < NC -> L f c = L g c).
Context (L_lin : forall a b f g c, 0 <= c < NC -> L (fun c => a * f c + b * g c)%R c = (a * L f c + b * L g c)%R).
(** [L] multiplies [f + i g] by [z]. *)
Definition cmode (z : R * R) (f g : Z -> R) : Prop := forall c, 0 <= c < NC -> (L f c, L g c) = cmul z (f c, g c).
Lemma cmode_mul z w f g f' g' : cmode z f g -> (forall c, 0 <= c < NC -> (f' c, g' c) = cmul w (f c, g c)) -> cmode z f' g'.
Proof.
  intros H E c Hc. rewrite (E c Hc). pose proof (H c Hc) as Q. unfold cmul in *. cbn [fst snd] in *. injection Q as Q1 Q2.
  rewrite (L_ext f' (fun c => fst w * f c + - snd w * g c)%R), (L_ext g' (fun c => fst w * g c + snd w * f c)%R).
  - rewrite !L_lin, Q1, Q2 by exact Hc. cbn [fst snd]. f_equal; ring.
  - intros c' Hc'. specialize (E c' Hc'). injection E as _ ->. ring.
  - exact Hc.
  - intros c' Hc'. specialize (E c' Hc'). injection E as -> _. ring.
  - exact Hc.
Qed.
Lemma cmode_pow z f g n : cmode z f g -> forall c, 0 <= c < NC -> (zpow L n f c, zpow L n g c) = cmul (cpow z n) (f c, g c).
Proof.
  intros H. induction n as [|n IH]; intros c Hc; [cbn [zpow cpow]; now rewrite cmul_1|].
  cbn [zpow cpow]. pose proof (cmode_mul z (cpow z n) f g _ _ H IH c Hc) as Q. rewrite Q, (IH c Hc). apply cmul_assoc.
Qed.
Lemma cmode_pol z f g G dt : cmode z f g -> forall c, 0 <= c < NC -> (zpol L G dt f c, zpol L G dt g c) = cmul (campl G (cscal dt z)) (f c, g c).
Proof.
  intros H c Hc. unfold zpol.
  rewrite campl_pow. rewrite !cpow_scal.
  pose proof (cmode_pow z f g 1 H c Hc) as Q1. pose proof (cmode_pow z f g 2 H c Hc) as Q2. pose proof (cmode_pow z f g 3 H c Hc) as Q3.
  pose proof (cmode_pow z f g 4 H c Hc) as Q4. pose proof (cmode_pow z f g 5 H c Hc) as Q5.
  remember (zpow L) as Zp. remember (cpow z) as cp. clear Heqcp. unfold cmul, cre in *. cbn [fst snd] in *.
  injection Q1 as -> ->. injection Q2 as -> ->. injection Q3 as -> ->. injection Q4 as -> ->. injection Q5 as -> ->.
  unfold cscal, cadd. cbn [fst snd]. f_equal; ring.
Qed.
Lemma cmode_run z G steps : forall f g, cmode z f g -> forall c, 0 <= c < NC -> (zprun L G steps f c, zprun L G steps g c) = cgain G z steps (f c, g c).
Proof.
  induction steps as [|s l IH]; intros f g H c Hc; [reflexivity|]. cbn [zprun fold_left].
  pose proof (cmode_pol z f g G (snd s) H) as E.
  fold (zprun L G l (zpol L G (snd s) f)). fold (zprun L G l (zpol L G (snd s) g)).
  rewrite IH; [|eapply cmode_mul; [exact H|exact E]|exact Hc]. rewrite (E c Hc). symmetry. apply cgain_cons.
Qed.
(** Linearity of runs. *)
Lemma zpow_plus n f g : forall c, 0 <= c < NC -> zpow L n (fun c => f c + g c)%R c = (zpow L n f c + zpow L n g c)%R.
Proof.
  induction n as [|n IH]; intros c Hc; [reflexivity|]. cbn [zpow]. rewrite (L_ext _ (fun c => 1 * zpow L n f c + 1 * zpow L n g c)%R); [|intros c' Hc'; rewrite IH by exact Hc'; ring|exact Hc].
  rewrite L_lin by exact Hc. ring.
Qed.
Lemma zpol_ext' G dt f g c : (forall c, 0 <= c < NC -> f c = g c) -> 0 <= c < NC -> zpol L G dt f c = zpol L G dt g c.
Proof.
  intros E Hc. assert (Q : forall n c, 0 <= c < NC -> zpow L n f c = zpow L n g c) by (induction n as [|n IH]; [exact E|intros; cbn [zpow]; now apply L_ext]).
  unfold zpol. rewrite !Q, E by exact Hc. reflexivity.
Qed.
Lemma zprun_ext' G steps : forall f g, (forall c, 0 <= c < NC -> f c = g c) -> forall c, 0 <= c < NC -> zprun L G steps f c = zprun L G steps g c.
Proof.
  induction steps as [|s l IH]; intros f g E c Hc; [now apply E|]. cbn [zprun fold_left]. apply IH; [|exact Hc]. intros. now apply zpol_ext'.
Qed.
Lemma zprun_plus G steps : forall f g c, 0 <= c < NC -> zprun L G steps (fun c => f c + g c)%R c = (zprun L G steps f c + zprun L G steps g c)%R.
Proof.
  induction steps as [|s l IH]; intros f g c Hc; [reflexivity|]. cbn [zprun fold_left].
  fold (zprun L G l (zpol L G (snd s) (fun c => f c + g c)%R)). fold (zprun L G l (zpol L G (snd s) f)). fold (zprun L G l (zpol L G (snd s) g)).
  rewrite <- IH by exact Hc. apply zprun_ext'; [|exact Hc]. intros c' Hc'. unfold zpol. rewrite !zpow_plus by exact Hc'. ring.
Qed.
Lemma zprun_zero G steps : forall f c, (forall c, 0 <= c < NC -> f c = 0%R) -> 0 <= c < NC -> zprun L G steps f c = 0%R.
Proof.
  intros f c E Hc. pose proof (zprun_plus G steps f f c Hc) as Q. rewrite (zprun_ext' G steps _ f) in Q; [|intros; rewrite !E by assumption; ring|exact Hc]. lra.
Qed.
(** Sums of modes. *)
Lemma cmode_sum {T} G steps (z : T -> R * R) (f g : T -> Z -> R) (ws : list T) : (forall w, cmode (z w) (f w) (g w)) -> forall c, 0 <= c < NC ->
  zprun L G steps (fun c => fold_right Rplus 0 (map (fun w => f w c) ws))%R c = fold_right Rplus 0%R (map (fun w => fst (cgain G (z w) steps (f w c, g w c))) ws).
Proof.
  intros H c Hc. induction ws as [|w ws IH]; [now apply zprun_zero|]. cbn [map fold_right]. rewrite zprun_plus by exact Hc. rewrite IH. f_equal.
  rewrite <- (cmode_run (z w) G steps (f w) (g w) (H w) c Hc). reflexivity.
Qed.
End Pair.

(** The frequency of the discrete advection operator in a uniform flow [(U, V)], for spacing [d] and wave vector [(k, l)]. *)
Definition omeg (d U V k l : R) : R :=
  (2 / (3 * d) * (U * sin (d * k) + (U / 2 + V * (sqrt 3 / 2)) * sin (d / 2 * k + d * (sqrt 3 / 2) * l)
                  + (- (U / 2) + V * (sqrt 3 / 2)) * sin (- (d / 2) * k + d * (sqrt 3 / 2) * l)))%R.
Lemma cos_second' u v : (cos (u + v) - cos (u - v) = - 2 * sin u * sin v)%R.
Proof. rewrite cos_plus, cos_minus. ring. Qed.
Lemma OuMe_wave d U V A k l p x y : d <> 0%R ->
  Ou d (fun q x y => uq U V q * Me d (wave A k l p) q x y)%R x y = (- omeg d U V k l * (A * sin (k * x + l * y + p)))%R.
Proof.
  intros Hd. unfold Ou, Df, Me, wave, omeg, cq, sq. destruct (uq_val U V) as (-> & -> & ->). cbn [Z.eqb Pos.eqb]. set (u := (k * x + l * y + p)%R).
  assert (G : forall w a b x1 y1 x2 y2 x3 y3 x4 y4,
    (x1 = x + d / 2 * a - d / 2 * a -> y1 = y + d / 2 * b - d / 2 * b -> x2 = x + d / 2 * a + d / 2 * a -> y2 = y + d / 2 * b + d / 2 * b ->
     x3 = x - d / 2 * a - d / 2 * a -> y3 = y - d / 2 * b - d / 2 * b -> x4 = x - d / 2 * a + d / 2 * a -> y4 = y - d / 2 * b + d / 2 * b ->
     w * ((A * cos (k * x1 + l * y1 + p) + A * cos (k * x2 + l * y2 + p)) / 2) - w * ((A * cos (k * x3 + l * y3 + p) + A * cos (k * x4 + l * y4 + p)) / 2) =
     - (w * A * sin u * sin (d * a * k + d * b * l)))%R).
  { intros w a b x1 y1 x2 y2 x3 y3 x4 y4 -> -> -> -> -> -> -> ->.
    replace (k * (x + d / 2 * a + d / 2 * a) + l * (y + d / 2 * b + d / 2 * b) + p)%R with (u + (d * a * k + d * b * l))%R by (unfold u; field).
    replace (k * (x - d / 2 * a - d / 2 * a) + l * (y - d / 2 * b - d / 2 * b) + p)%R with (u - (d * a * k + d * b * l))%R by (unfold u; field).
    replace (k * (x + d / 2 * a - d / 2 * a) + l * (y + d / 2 * b - d / 2 * b) + p)%R with u by (unfold u; ring).
    replace (k * (x - d / 2 * a + d / 2 * a) + l * (y - d / 2 * b + d / 2 * b) + p)%R with u by (unfold u; ring).
    pose proof (cos_second' u (d * a * k + d * b * l)) as C. 
    replace (w * ((A * cos u + A * cos (u + (d * a * k + d * b * l))) / 2) - w * ((A * cos (u - (d * a * k + d * b * l)) + A * cos u) / 2))%R
      with (w * A / 2 * (cos (u + (d * a * k + d * b * l)) - cos (u - (d * a * k + d * b * l))))%R by field. rewrite C. field. }
  rewrite (G _ 1 0)%R by reflexivity. rewrite (G _ (1 / 2) (sqrt 3 / 2))%R by reflexivity. rewrite (G _ (- (1 / 2)) (sqrt 3 / 2))%R by reflexivity.
  replace (d * 1 * k + d * 0 * l)%R with (d * k)%R by ring. replace (d * (1 / 2) * k + d * (sqrt 3 / 2) * l)%R with (d / 2 * k + d * (sqrt 3 / 2) * l)%R by field.
  replace (d * - (1 / 2) * k + d * (sqrt 3 / 2) * l)%R with (- (d / 2) * k + d * (sqrt 3 / 2) * l)%R by field. field. exact Hd.
Qed.

Section Uni.
Context (S : setup RA) (Hok : setup_ok S) (Hdc : (0 < (dc (mesh_of_setup S) : R))%R) (m : mem RA) (Hr : ready S m).
Context (HX : 2 <= nx (mesh_of_setup S)) (Hev : Z.even (ny (mesh_of_setup S)) = true).
Local Notation P := (par_of S).
Local Notation h := (mesh_of_setup S).
Local Notation NC := (nx (mesh_of_setup S) * ny (mesh_of_setup S)).
Local Notation NL := (d_nlayers (sdims S)).
Local Notation d := (dc (mesh_of_setup S) : R).

Lemma topl_uni H U V phi c : H <> 0%R -> 0 <= c < NC ->
  topl S m (fun _ => H) (uni m U V) phi c = (- outflow m (fun e => uni m U V e * emean m phi e) c + lop S m phi c)%R.
Proof.
  intros H0 Hc. unfold topl, lop. cbv zeta.
  assert (E1 : outflow m (fun e => emean m (fun _ => H) e * uni m U V e * emean m (fun c => phi c / H) e)%R c = outflow m (fun e => uni m U V e * emean m phi e)%R c).
  { apply (outflow_ext S Hok m Hr); [|exact Hc]. intros e He. unfold emean. field. exact H0. }
  assert (E2 : forall c, 0 <= c < NC -> outflow m (fun e => emean m (fun _ => H) e * grad m (fun c => phi c / H) e)%R c = lap m phi c).
  { intros c' Hc'. unfold lap. apply (outflow_ext S Hok m Hr); [|exact Hc']. intros e He. unfold emean, grad.
    generalize (mr m DcEdge [e] : R). intros b. unfold Rdiv. replace ((H + H) * / 2)%R with H by field. rewrite <- Rmult_minus_distr_r.
    set (a := (_ - _)%R). transitivity (a * / b * (H * / H))%R; [ring|]. rewrite Rinv_r by exact H0. ring. }
  rewrite E1, E2 by exact Hc.
  assert (E3 : outflow m (grad m (outflow m (fun e => emean m (fun _ => H) e * grad m (fun c => phi c / H) e)%R)) c = lap m (lap m phi) c).
  { unfold lap at 1. apply (outflow_ext S Hok m Hr); [|exact Hc]. intros e He. apply (grad_ext S Hok m Hr); [exact E2|exact He]. }
  rewrite E3. destruct (tracer_diff_enabled P), (tracer_hyperdiff_enabled P); cbn [F RA]; ring.
Qed.
Lemma adv_wave U V A k l p phi : periodic (period_x h) (period_y h) (wave A k l p) -> smpC h (wave A k l p) phi ->
  forall c, 0 <= c < NC -> outflow m (fun e => uni m U V e * emean m phi e)%R c = (- omeg d U V k l * (A * sin (k * hxc h c + l * hyc h c + p)))%R.
Proof.
  intros HP HS c Hc. pose proof (ready_hex S Hok m Hr) as Hm.
  rewrite (smp_outflow (cfg_of S) h (ntracers P) (proj1 Hok) Hdc m Hm Hev HX (fun q x y => uq U V q * Me d (wave A k l p) q x y)%R (fun e => uni m U V e * emean m phi e)%R); [| | |exact Hc].
  - apply OuMe_wave. lra.
  - intros q. apply per_2; [apply per_c|now apply per_Me].
  - intros e He. rewrite (uni_q S Hok m Hr U V e _ He eq_refl). f_equal. now apply (smp_emean (cfg_of S) h (ntracers P) (proj1 Hok) m Hm Hev).
Qed.
Lemma wave_sin A k l p x y : wave A k l (p - PI / 2) x y = (A * sin (k * x + l * y + p))%R.
Proof. unfold wave. f_equal. rewrite <- cos_shift. rewrite <- cos_neg. f_equal. ring. Qed.

(** A plane wave and the wave a quarter of a period behind are a complex mode of the tracer operator. *)
Lemma uni_mode H U V i j A p : H <> 0%R ->
  let k := (2 * PI * IZR i / period_x h)%R in let l := (2 * PI * IZR j / period_y h)%R in
  cmode NC (topl S m (fun _ => H) (uni m U V)) (rate S (lam d k l), (- omeg d U V k l)%R)
    (fun c => A * cos (k * hxc h c + l * hyc h c + p))%R (fun c => A * sin (k * hxc h c + l * hyc h c + p))%R.
Proof.
  intros H0 k l c Hc. pose proof (HY S Hok Hev) as HY2. rewrite !topl_uni by assumption.
  assert (HP : forall p, periodic (period_x h) (period_y h) (wave A k l p)).
  { intros p'. apply wave_periodic.
    - unfold period_x. cbn [F RA fofZ fmul] in *. assert (0 < IZR (nx (mesh_of_setup S)))%R by (apply IZR_lt; lia). apply Rgt_not_eq. apply Rmult_lt_0_compat; assumption.
    - unfold period_y. cbn [F RA fofZ fmul fdiv fsqrt] in *. assert (0 < IZR (ny (mesh_of_setup S)))%R by (apply IZR_lt; lia).
      assert (0 < sqrt 3)%R by (apply sqrt_lt_R0; lra). apply Rgt_not_eq. unfold Rdiv. repeat apply Rmult_lt_0_compat; try assumption; lra. }
  set (f := fun c => (A * cos (k * hxc h c + l * hyc h c + p))%R). set (g := fun c => (A * sin (k * hxc h c + l * hyc h c + p))%R).
  assert (Sf : smpC h (wave A k l p) f) by (intros c' Hc'; reflexivity).
  assert (Sg : smpC h (wave A k l (p - PI / 2)) g) by (intros c' Hc'; unfold g; now rewrite wave_sin).
  rewrite (lop_eig S Hok Hdc m Hr HX Hev (lam d k l) f), (lop_eig S Hok Hdc m Hr HX Hev (lam d k l) g); try exact Hc.
  - rewrite (adv_wave U V A k l p f (HP p) Sf c Hc), (adv_wave U V A k l (p - PI / 2) g (HP _) Sg c Hc).
    replace (sin (k * hxc h c + l * hyc h c + (p - PI / 2))) with (- cos (k * hxc h c + l * hyc h c + p))%R.
    + unfold cmul, f, g. cbn [fst snd]. set (ww := omeg _ _ _ _ _). set (rr := rate _ _). clearbody ww rr. f_equal; ring.
    + replace (k * hxc h c + l * hyc h c + (p - PI / 2))%R with (- (PI / 2 - (k * hxc h c + l * hyc h c + p)))%R by ring. now rewrite sin_neg, sin_shift.
  - apply (eig_wave S Hok Hdc m Hr HX Hev A k l (p - PI / 2)); [apply HP|exact Sg].
  - apply (eig_wave S Hok Hdc m Hr HX Hev A k l p); [apply HP|exact Sf].
Qed.
End Uni.
