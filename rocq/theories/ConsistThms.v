(** Proofs of the properties of [PropsConsist.v]. *)
From Coq Require Import ZArith Reals List Bool Lia Lra.
From Verif Require Import Arith Arrays Prog Conc Launch Mesh AuxVars Tend Model Hex RSum Spec MeshProof MeshMem MeshFacts MeshR MeshCalc Ready StepVal EqThms Deriv Stencil Taylor Accur Accur2 Accur3 Accur4 Sample Waves.
Import ListNotations.
Open Scope Z_scope.

Lemma always_imp {A} D Ls (m : mem A) (P Q : mem A -> Prop) : always D Ls m P -> (forall m', P m' -> Q m') -> always D Ls m Q.
Proof. intros [H1 H2] H. split; [|exact H2]. intros o Ho. destruct (H1 o Ho) as (m' & E & HP). exists m'. auto. Qed.
(** A bound for all directions, spacings and points. *)
Lemma all_q (E : Z -> fn3) (f : Z -> fn2) : (forall q, 0 <= q < 3 -> appr (E q) (f q)) ->
  exists C, (0 <= C)%R /\ forall d q x y, d <> 0%R -> 0 <= q < 3 -> (Rabs (E q x y d - f q x y) <= C * d ^ 2)%R.
Proof.
  intros H. destruct (three_C (fun q C => forall x y d, d <> 0%R -> (Rabs (E q x y d - f q x y) <= C * Rabs d ^ 2)%R)) as (C & HC & B).
  - intros q a b Ha L x y d Hd. eapply Rle_trans; [now apply Ha|]. apply Rmult_le_compat_r; [apply pow_le, Rabs_pos|exact L].
  - exact H.
  - exists C. split; [exact HC|]. intros d q x y Hd Hq. rewrite <- pow2_abs. now apply B.
Qed.
Lemma one_q (E : fn3) (f : fn2) : appr E f ->
  exists C, (0 <= C)%R /\ forall d x y, d <> 0%R -> (Rabs (E x y d - f x y) <= C * d ^ 2)%R.
Proof. intros (C & HC & B). exists C. split; [exact HC|]. intros. rewrite <- pow2_abs. now apply B. Qed.
Lemma bigger a C C' t s : (Rabs (t - s) <= C * a ^ 2 -> C <= C' -> Rabs (t - s) <= C' * a ^ 2)%R.
Proof. intros H L. eapply Rle_trans; [exact H|]. apply Rmult_le_compat_r; [apply pow2_ge_0|exact L]. Qed.
Lemma per_nvec px py U V : periodic px py U -> periodic px py V -> forall q, periodic px py (nvec U V q).
Proof. intros HU HV q x y. unfold nvec. destruct (HU x y) as [-> ->], (HV x y) as [-> ->]. split; reflexivity. Qed.
Lemma edge0_angle cf (h : hexargs RA) : mesh_ok cf h ->
  always (dims_of cf h 0) (mesh_ctor cf h) (mzero RA) (fun m => mr m AngleEdge [0] = 0%R).
Proof.
  intros Hok. apply ctor_always; [exact Hok|]. intros m Hm. destruct Hok as (Hx & Hy & _). rewrite (hm_ang _ _ _ Hm) by nia. reflexivity.
Qed.
Lemma q3 e : 0 <= e mod 3 < 3. Proof. apply Z.mod_pos_bound. lia. Qed.

Lemma C60_gradient_and_mean_second_order_proof :
  forall F Fx Fy : fn2, smooth 4 F -> is_dx F Fx -> is_dy F Fy ->
  exists C : R,
  (forall d q x y, d <> 0%R -> 0 <= q < 3 ->
     (Rabs (Gr d F q x y - (cq q * Fx x y + sq q * Fy x y)) <= C * d ^ 2)%R /\ (Rabs (Me d F q x y - F x y) <= C * d ^ 2)%R) /\
  (forall (cf : config) (h : hexargs RA), mesh_ok cf h -> 2 <= nx h -> Z.even (ny h) = true -> (0 < (dc h : R))%R ->
   periodic (period_x h) (period_y h) F ->
   always (dims_of cf h 0) (mesh_ctor cf h) (mzero RA) (fun m =>
     let phi := fun c => F (mr m XCell [c]) (mr m YCell [c]) in
     forall e, 0 <= e < 3 * (nx h * ny h) ->
       let x := (mr m XEdge [e] : R) in let y := (mr m YEdge [e] : R) in let a := (mr m AngleEdge [e] : R) in
       grad m phi e = Gr (dc h) F (e mod 3) x y /\ emean m phi e = Me (dc h) F (e mod 3) x y /\
       (Rabs (grad m phi e - (cos a * Fx x y + sin a * Fy x y)) <= C * dc h ^ 2)%R /\
       (Rabs (emean m phi e - F x y) <= C * dc h ^ 2)%R)).
Proof.
  intros F Fx Fy SF HFx HFy.
  destruct (all_q (fun q x y d => Gr d F q x y) (fun q x y => cq q * Fx x y + sq q * Fy x y)%R) as (C1 & P1 & B1); [intros; now apply Gr_appr|].
  destruct (all_q (fun q x y d => Me d F q x y) (fun q => F)) as (C2 & P2 & B2); [intros; now apply Me_appr|].
  assert (B : forall d q x y, d <> 0%R -> 0 <= q < 3 ->
     (Rabs (Gr d F q x y - (cq q * Fx x y + sq q * Fy x y)) <= (C1 + C2) * d ^ 2)%R /\ (Rabs (Me d F q x y - F x y) <= (C1 + C2) * d ^ 2)%R).
  { intros d q x y Hd Hq. split; [apply (bigger _ C1); [now apply B1|lra]|apply (bigger _ C2); [now apply B2|lra]]. }
  exists (C1 + C2)%R. split; [exact B|].
  intros cf h Hok HX Hev Hdc Hp. apply ctor_always; [exact Hok|]. intros m Hm. cbv zeta. intros e He.
  pose proof (smp_cells cf h 0 m Hm Hev F _ (fun c _ => eq_refl)) as S.
  pose proof (smp_grad cf h 0 Hok m Hm Hev F _ Hp S e He) as E1. pose proof (smp_emean cf h 0 Hok m Hm Hev F _ Hp S e He) as E2.
  rewrite (cos_edge cf h 0 m Hm Hev), (sin_edge cf h 0 m Hm Hev), (hm_xe _ _ _ Hm), (hm_ye _ _ _ Hm) by lia.
  destruct (B (dc h) (e mod 3) (hxe h e) (hye h e)) as [G1 G2]; [lra|apply q3|].
  split; [exact E1|]. split; [exact E2|]. rewrite E1, E2. split; assumption.
Qed.

Lemma C60_divergence_second_order_proof :
  forall U V Ux Vy : fn2, smooth 4 U -> smooth 4 V -> is_dx U Ux -> is_dy V Vy ->
  exists C : R,
  (forall d x y, d <> 0%R -> (Rabs (Ou d (nvec U V) x y - (Ux x y + Vy x y)) <= C * d ^ 2)%R) /\
  (forall (cf : config) (h : hexargs RA), mesh_ok cf h -> 2 <= nx h -> Z.even (ny h) = true -> (0 < (dc h : R))%R ->
   periodic (period_x h) (period_y h) U -> periodic (period_x h) (period_y h) V ->
   always (dims_of cf h 0) (mesh_ctor cf h) (mzero RA) (fun m =>
     let u := fun e => (cos (mr m AngleEdge [e]) * U (mr m XEdge [e]) (mr m YEdge [e]) + sin (mr m AngleEdge [e]) * V (mr m XEdge [e]) (mr m YEdge [e]))%R in
     forall c, 0 <= c < nx h * ny h ->
       let x := (mr m XCell [c] : R) in let y := (mr m YCell [c] : R) in
       outflow m u c = Ou (dc h) (nvec U V) x y /\
       (Rabs (outflow m u c - (Ux x y + Vy x y)) <= C * dc h ^ 2)%R)).
Proof.
  intros U V Ux Vy SU SV HUx HVy. destruct SU as (BU & Ux' & Uy & HUx' & HUy & RU). destruct SV as (BV & Vx & Vy' & HVx & HVy' & RV).
  assert (SU : smooth 4 U) by (split; [exact BU|exists Ux', Uy; auto]). assert (SV : smooth 4 V) by (split; [exact BV|exists Vx, Vy'; auto]).
  destruct (one_q _ _ (Ou_appr U V Ux Uy Vx Vy SU SV HUx HUy HVx HVy)) as (C & HC & B).
  exists C. split; [exact B|].
  intros cf h Hok HX Hev Hdc HpU HpV. apply ctor_always; [exact Hok|]. intros m Hm. cbv zeta. intros c Hc.
  pose proof (smp_edges cf h 0 m Hm Hev U V _ (fun e _ => eq_refl)) as S.
  pose proof (smp_outflow cf h 0 Hok Hdc m Hm Hev HX (nvec U V) _ (per_nvec _ _ _ _ HpU HpV) S c Hc) as E.
  rewrite (hm_xc _ _ _ Hm), (hm_yc _ _ _ Hm) by lia. split; [exact E|]. rewrite E. apply B. lra.
Qed.

Lemma C60_reconstruction_second_order_proof :
  forall U V : fn2, smooth 5 U -> smooth 5 V ->
  exists C : R,
  (forall d q x y, d <> 0%R -> 0 <= q < 3 -> (Rabs (Re d (nvec U V) q x y - (- sq q * U x y + cq q * V x y)) <= C * d ^ 2)%R) /\
  (forall (cf : config) (h : hexargs RA), mesh_ok cf h -> 2 <= nx h -> Z.even (ny h) = true -> (0 < (dc h : R))%R ->
   periodic (period_x h) (period_y h) U -> periodic (period_x h) (period_y h) V ->
   always (dims_of cf h 0) (mesh_ctor cf h) (mzero RA) (fun m =>
     let u := fun e => (cos (mr m AngleEdge [e]) * U (mr m XEdge [e]) (mr m YEdge [e]) + sin (mr m AngleEdge [e]) * V (mr m XEdge [e]) (mr m YEdge [e]))%R in
     forall e, 0 <= e < 3 * (nx h * ny h) ->
       let x := (mr m XEdge [e] : R) in let y := (mr m YEdge [e] : R) in let a := (mr m AngleEdge [e] : R) in
       recon m u e = Re (dc h) (nvec U V) (e mod 3) x y /\
       (Rabs (recon m u e - (- sin a * U x y + cos a * V x y)) <= C * dc h ^ 2)%R)).
Proof.
  intros U V SU SV.
  destruct (all_q (fun q x y d => Re d (nvec U V) q x y) (tvec U V)) as (C & HC & B); [intros; now apply Re_appr|].
  exists C. split; [exact B|].
  intros cf h Hok HX Hev Hdc HpU HpV. apply ctor_always; [exact Hok|]. intros m Hm. cbv zeta. intros e He.
  pose proof (smp_edges cf h 0 m Hm Hev U V _ (fun e _ => eq_refl)) as S.
  pose proof (smp_recon cf h 0 Hok m Hm Hev (nvec U V) _ (per_nvec _ _ _ _ HpU HpV) S e He) as E.
  rewrite (cos_edge cf h 0 m Hm Hev), (sin_edge cf h 0 m Hm Hev), (hm_xe _ _ _ Hm), (hm_ye _ _ _ Hm) by lia.
  split; [exact E|]. rewrite E. apply B; [lra|apply q3].
Qed.

Lemma C60_curl_first_order_proof :
  forall U V Ux Uy Vx Uxx Uyy Vxy : fn2, smooth 4 U -> smooth 4 V ->
  is_dx U Ux -> is_dy U Uy -> is_dx V Vx -> is_dx Ux Uxx -> is_dy Uy Uyy -> is_dy Vx Vxy ->
  exists C : R,
  (forall d p x y, d <> 0%R ->
    (Rabs (Vo d (nvec U V) p x y - (Vx x y - Uy x y) - sg p * d / (8 * sqrt 3) * (Uyy x y - Uxx x y + 2 * Vxy x y)) <= C * d ^ 2)%R) /\
  (forall (cf : config) (h : hexargs RA), mesh_ok cf h -> 2 <= nx h -> Z.even (ny h) = true -> (0 < (dc h : R))%R ->
   periodic (period_x h) (period_y h) U -> periodic (period_x h) (period_y h) V ->
   always (dims_of cf h 0) (mesh_ctor cf h) (mzero RA) (fun m =>
     let u := fun e => (cos (mr m AngleEdge [e]) * U (mr m XEdge [e]) (mr m YEdge [e]) + sin (mr m AngleEdge [e]) * V (mr m XEdge [e]) (mr m YEdge [e]))%R in
     forall v, 0 <= v < 2 * (nx h * ny h) ->
       let x := (mr m XVertex [v] : R) in let y := (mr m YVertex [v] : R) in
       vort m u v = Vo (dc h) (nvec U V) (v mod 2) x y /\
       (Rabs (vort m u v - (Vx x y - Uy x y)
              - (if Z.even v then 1 else -1) * dc h / (8 * sqrt 3) * (Uyy x y - Uxx x y + 2 * Vxy x y)) <= C * dc h ^ 2)%R)).
Proof.
  intros U V Ux Uy Vx Uxx Uyy Vxy SU SV HUx HUy HVx HUxx HUyy HVxy.
  destruct (smooth_dx 3 U Ux SU HUx) as (_ & a1 & Uxy & _ & HUxy & _).
  destruct (smooth_dy 3 U Uy SU HUy) as (_ & Uyx & a2 & HUyx & _ & _).
  assert (SV' : smooth 4 V) by exact SV. destruct SV' as (_ & a3 & Vy & _ & HVy & _ & _).
  destruct (smooth_dx 3 V Vx SV HVx) as (_ & Vxx & a4 & HVxx & _ & _).
  destruct (smooth_dy 3 V Vy SV HVy) as (_ & Vyx & Vyy & HVyx & HVyy & _).
  destruct (Vo_exp U V Ux Uy Vx Vy Uxx Uxy Uyx Uyy Vxx Vxy Vyx Vyy HUx HUy HVx HVy HUxx HUxy HUyx HUyy HVxx HVxy HVyx HVyy SU SV) as (C & HC & B).
  assert (B' : forall d p x y, d <> 0%R ->
    (Rabs (Vo d (nvec U V) p x y - (Vx x y - Uy x y) - sg p * d / (8 * sqrt 3) * (Uyy x y - Uxx x y + 2 * Vxy x y)) <= C * d ^ 2)%R).
  { intros. rewrite <- pow2_abs. now apply B. }
  exists C. split; [exact B'|].
  intros cf h Hok HX Hev Hdc HpU HpV. apply ctor_always; [exact Hok|]. intros m Hm. cbv zeta. intros v Hv.
  pose proof (smp_edges cf h 0 m Hm Hev U V _ (fun e _ => eq_refl)) as S.
  pose proof (smp_vort cf h 0 Hok Hdc m Hm Hev (nvec U V) _ (per_nvec _ _ _ _ HpU HpV) S v Hv) as E.
  rewrite (hm_xv _ _ _ Hm), (hm_yv _ _ _ Hm) by lia. split; [exact E|]. rewrite E.
  assert (Es : (if Z.even v then 1 else -1)%R = sg (v mod 2)).
  { unfold sg. rewrite Zmod_even. destruct (Z.even v); reflexivity. }
  rewrite Es. apply B'. lra.
Qed.

Lemma C61_tendency_consistent_proof :
  forall (h U V hx hy Ux Uy Vx Vy hUx hVy : fn2) (hmin f g : R),
  smooth 5 h -> smooth 5 U -> smooth 5 V ->
  is_dx h hx -> is_dy h hy -> is_dx U Ux -> is_dy U Uy -> is_dx V Vx -> is_dy V Vy ->
  is_dx (fun x y => h x y * U x y)%R hUx -> is_dy (fun x y => h x y * V x y)%R hVy ->
  (0 < hmin)%R -> (forall x y, hmin <= h x y)%R ->
  let au := fun x y => (- (U x y * Ux x y + V x y * Uy x y) + f * V x y - g * hx x y)%R in
  let av := fun x y => (- (U x y * Vx x y + V x y * Vy x y) - f * U x y - g * hy x y)%R in
  exists C : R,
  (forall d x y, d <> 0%R -> (Rabs (Ou d (fun q x y => Me d h q x y * nvec U V q x y) x y - (hUx x y + hVy x y)) <= C * d ^ 2)%R) /\
  (forall d q x y, d <> 0%R -> 0 <= q < 3 ->
     (Rabs (Pf d f h (nvec U V) q x y - Gr d (fun x y => Ki d (nvec U V) x y + g * h x y) q x y - (cq q * au x y + sq q * av x y)) <= C * d ^ 2)%R) /\
  (forall S : setup RA, setup_ok S ->
   let h0 := mesh_of_setup S in
   2 <= nx h0 -> Z.even (ny h0) = true -> (0 < (dc h0 : R))%R ->
   periodic (period_x h0) (period_y h0) h -> periodic (period_x h0) (period_y h0) U -> periodic (period_x h0) (period_y h0) V ->
   f0 (par_of S) = f -> grav (par_of S) = g -> disable_h (par_of S) = false -> disable_vn (par_of S) = false ->
   (visc_del2 (par_of S) <= 0)%R -> (visc_del4 (par_of S) <= 0)%R ->
   forall (t s : sid) (time : R) (m : mem RA) (k : Z), s <> t -> ready S m -> 0 <= k < d_nlayers (sdims S) ->
   (forall c, 0 <= c < d_ncells (sdims S) -> mr m (HCell s) [c; k] = h (mr m XCell [c]) (mr m YCell [c])) ->
   (forall e, 0 <= e < d_nedges (sdims S) -> mr m (VnEdge s) [e; k] =
      (cos (mr m AngleEdge [e]) * U (mr m XEdge [e]) (mr m YEdge [e]) + sin (mr m AngleEdge [e]) * V (mr m XEdge [e]) (mr m YEdge [e]))%R) ->
   let fh := fun x y => match hook S with None => 0%R | Some w => force_h w x y time end in
   let fx := fun x y => match hook S with None => 0%R | Some w => force_vx w x y time end in
   let fy := fun x y => match hook S with None => 0%R | Some w => force_vy w x y time end in
   always (sdims S) (compute_tendency S t s time Replace) m (fun m' =>
     (forall c, 0 <= c < d_ncells (sdims S) ->
        let x := (mr m XCell [c] : R) in let y := (mr m YCell [c] : R) in
        (mr m' (HCell t) [c; k] = - Ou (dc h0) (fun q x y => Me (dc h0) h q x y * nvec U V q x y) x y + fh x y)%R /\
        (Rabs (mr m' (HCell t) [c; k] - (- (hUx x y + hVy x y) + fh x y)) <= C * dc h0 ^ 2)%R) /\
     (forall e, 0 <= e < d_nedges (sdims S) ->
        let x := (mr m XEdge [e] : R) in let y := (mr m YEdge [e] : R) in let a := (mr m AngleEdge [e] : R) in
        (mr m' (VnEdge t) [e; k] = Pf (dc h0) f h (nvec U V) (e mod 3) x y - Gr (dc h0) (fun x y => Ki (dc h0) (nvec U V) x y + g * h x y) (e mod 3) x y
           + (cos a * fx x y + sin a * fy x y))%R /\
        (Rabs (mr m' (VnEdge t) [e; k] - (cos a * (au x y + fx x y) + sin a * (av x y + fy x y))) <= C * dc h0 ^ 2)%R))).
Proof.
  intros h U V hx hy Ux Uy Vx Vy hUx hVy hmin f g Sh SU SV Hhx Hhy HUx HUy HVx HVy HhU HhV Hmin Hlow au av.
  destruct (one_q _ _ (mflux_appr h U V hx hy Ux Uy Vx Vy Hhx Hhy HUx HUy HVx HVy Sh SU SV)) as (C1 & P1 & B1).
  destruct (all_q _ _ (Pf_appr h U V hx hy Ux Uy Vx Vy Hhx Hhy HUx HUy HVx HVy Sh SU SV hmin f Hmin Hlow)) as (C2 & P2 & B2).
  destruct (all_q _ _ (Ke_appr U V Ux Uy Vx Vy HUx HUy HVx HVy SU SV)) as (C3 & P3 & B3).
  destruct (all_q (fun q x y d => Gr d h q x y) (fun q x y => cq q * hx x y + sq q * hy x y)%R) as (C4 & P4 & B4);
    [intros; apply Gr_appr; auto; apply (smooth_le 5); [lia|auto]|].
  pose proof (Rabs_pos g) as Pg. assert (P5 : (0 <= Rabs g * C4)%R) by now apply Rmult_le_pos.
  set (C := (C1 + (C2 + C3 + Rabs g * C4))%R).
  assert (E1 : forall x y, hUx x y = (hx x y * U x y + h x y * Ux x y)%R).
  { apply (is_dx_unique _ _ _ HhU). intros x y. apply (D_mult (fun s => h s y) (fun s => U s y)); auto. }
  assert (E2 : forall x y, hVy x y = (hy x y * V x y + h x y * Vy x y)%R).
  { apply (is_dy_unique _ _ _ HhV). intros x y. apply (D_mult (fun s => h x s) (fun s => V x s)); auto. }
  assert (R1 : forall d x y, d <> 0%R -> (Rabs (Ou d (fun q x y => Me d h q x y * nvec U V q x y) x y - (hUx x y + hVy x y)) <= C * d ^ 2)%R).
  { intros d x y Hd. apply (bigger _ C1); [|unfold C; lra]. rewrite E1, E2. apply (B1 d x y Hd). }
  assert (R2 : forall d q x y, d <> 0%R -> 0 <= q < 3 ->
     (Rabs (Pf d f h (nvec U V) q x y - Gr d (fun x y => Ki d (nvec U V) x y + g * h x y) q x y - (cq q * au x y + sq q * av x y)) <= C * d ^ 2)%R).
  { intros d q x y Hd Hq. apply (bigger _ (C2 + C3 + Rabs g * C4)); [|unfold C; lra].
    specialize (B2 d q x y Hd Hq). specialize (B3 d q x y Hd Hq). specialize (B4 d q x y Hd Hq). cbv beta in B2, B3, B4.
    assert (EG : Gr d (fun x y => Ki d (nvec U V) x y + g * h x y)%R q x y = (Gr d (Ki d (nvec U V)) q x y + g * Gr d h q x y)%R) by (unfold Gr; field; exact Hd).
    rewrite EG.
    set (p := Pf d f h (nvec U V) q x y) in *. set (k := Gr d (Ki d (nvec U V)) q x y) in *. set (w := Gr d h q x y) in *.
    match type of B2 with (Rabs (p - ?a) <= _)%R => set (p' := a) in * end.
    match type of B3 with (Rabs (k - ?a) <= _)%R => set (k' := a) in * end.
    match type of B4 with (Rabs (w - ?a) <= _)%R => set (w' := a) in * end.
    replace (p - (k + g * w) - (cq q * au x y + sq q * av x y))%R with ((p - p') - (k - k') - g * (w - w'))%R.
    2:{ unfold p', k', w', au, av, tvec. ring. }
    unfold Rminus at 1. eapply Rle_trans; [apply Rabs_triang|]. rewrite Rabs_Ropp, Rabs_mult.
    eapply Rle_trans; [apply Rplus_le_compat_r; unfold Rminus at 1; apply Rabs_triang|]. rewrite Rabs_Ropp.
    assert (Rabs g * Rabs (w - w') <= Rabs g * (C4 * d ^ 2))%R by (apply Rmult_le_compat_l; lra).
    replace ((C2 + C3 + Rabs g * C4) * d ^ 2)%R with (C2 * d ^ 2 + C3 * d ^ 2 + Rabs g * (C4 * d ^ 2))%R by ring. lra. }
  exists C. split; [exact R1|]. split; [exact R2|].
  intros S Hok h0 HX Hev Hdc Hph HpU HpV Ef Eg Edh Edv Hv2 Hv4 t s time m k Hst Hr Hk Sh' Su' fh fx fy.
  eapply always_imp; [apply (C59_tendency_is_the_discrete_equations_proof S Hok Hdc t s time Replace m Hst Hr)|].
  intros m' K. specialize (K k Hk). cbv zeta in K. destruct K as (Kh & Kv & _). rewrite Edh in Kh. rewrite Edv in Kv.
  pose proof (ready_hex S Hok m Hr) as Hm. destruct Hok as (Hok & _).
  pose proof (smp_cells _ h0 _ m Hm Hev h _ Sh') as SH.
  pose proof (smp_edges _ h0 _ m Hm Hev U V _ Su') as SU'.
  pose proof (per_nvec _ _ _ _ HpU HpV) as Hpu.
  split.
  - intros c Hc. cbv zeta. specialize (Kh c Hc).
    assert (E : outflow m (fun e => emean m (fun c => mr m (HCell s) [c; k]) e * mr m (VnEdge s) [e; k])%R c =
      Ou (dc h0) (fun q x y => Me (dc h0) h q x y * nvec U V q x y)%R (mr m XCell [c]) (mr m YCell [c])).
    { rewrite (hm_xc _ _ _ Hm), (hm_yc _ _ _ Hm) by assumption.
      apply (smp_outflow _ h0 _ Hok Hdc m Hm Hev HX); [| |exact Hc].
      - intros q. apply per_2; [now apply per_Me|apply Hpu].
      - intros e He. rewrite (smp_emean _ h0 _ Hok m Hm Hev h _ Hph SH e He), (SU' e He). reflexivity. }
    rewrite E in Kh. rewrite Kh. unfold fh.
    split; [destruct (hook S); apply Rminus_diag_uniq; cbn [F RA]; ring|].
    specialize (R1 (dc h0) (mr m XCell [c]) (mr m YCell [c]) ltac:(lra)). rewrite <- Rabs_Ropp in R1.
    match type of R1 with (Rabs ?a <= _)%R => match goal with |- (Rabs ?b <= _)%R => replace b with a; [exact R1|] end end.
    destruct (hook S); apply Rminus_diag_uniq; cbn [F RA]; ring.
  - intros e He. cbv zeta. specialize (Kv e He).
    destruct (Rlt_dec 0 (visc_del2 (par_of S))); [lra|]. destruct (Rlt_dec 0 (visc_del4 (par_of S))); [lra|].
    rewrite Ef, Eg in Kv.
    assert (EP : pvflux m f (fun c => mr m (HCell s) [c; k]) (fun e => mr m (VnEdge s) [e; k]) e =
      Pf (dc h0) f h (nvec U V) (e mod 3) (mr m XEdge [e]) (mr m YEdge [e])).
    { rewrite (hm_xe _ _ _ Hm), (hm_ye _ _ _ Hm) by assumption. apply (smp_pvflux _ h0 _ Hok Hdc m Hm Hev); auto. }
    assert (EG : grad m (fun c => kin m (fun e => mr m (VnEdge s) [e; k]) c + g * mr m (HCell s) [c; k])%R e =
      Gr (dc h0) (fun x y => Ki (dc h0) (nvec U V) x y + g * h x y)%R (e mod 3) (mr m XEdge [e]) (mr m YEdge [e])).
    { rewrite (hm_xe _ _ _ Hm), (hm_ye _ _ _ Hm) by assumption. apply (smp_grad _ h0 _ Hok m Hm Hev); [| |exact He].
      - apply per_2; [now apply per_Ki|]. now apply (per_1 _ _ (fun z => g * z)%R).
      - intros c Hc. rewrite (smp_kin _ h0 _ Hok Hdc m Hm Hev (nvec U V) _ Hpu SU' c Hc), (SH c Hc). reflexivity. }
    rewrite EP, EG in Kv. rewrite Kv.
    specialize (R2 (dc h0) (e mod 3) (mr m XEdge [e]) (mr m YEdge [e]) ltac:(lra) (q3 e)).
    rewrite <- (cos_edge _ h0 _ m Hm Hev e He), <- (sin_edge _ h0 _ m Hm Hev e He) in R2.
    unfold fx, fy. split; [destruct (hook S); apply Rminus_diag_uniq; cbn [F RA]; ring|].
    match type of R2 with (Rabs ?a <= _)%R => match goal with |- (Rabs ?b <= _)%R => replace b with a; [exact R2|] end end.
    destruct (hook S); apply Rminus_diag_uniq; cbn [F RA]; ring.
Qed.

Lemma C61_tracer_tendency_consistent_proof :
  forall (h U V r rx ry hrUx hrVy hrxx hryy : fn2) (kappa : R),
  smooth 5 h -> smooth 5 U -> smooth 5 V -> smooth 5 r -> (forall x y, h x y <> 0%R) ->
  is_dx r rx -> is_dy r ry ->
  is_dx (fun x y => h x y * r x y * U x y)%R hrUx -> is_dy (fun x y => h x y * r x y * V x y)%R hrVy ->
  is_dx (fun x y => h x y * rx x y)%R hrxx -> is_dy (fun x y => h x y * ry x y)%R hryy ->
  exists C : R,
  (forall d x y, d <> 0%R ->
     (Rabs (Ou d (fun q x y => Me d h q x y * nvec U V q x y * Me d r q x y) x y - (hrUx x y + hrVy x y)) <= C * d ^ 2)%R /\
     (Rabs (Ou d (fun q x y => Me d h q x y * Gr d r q x y) x y - (hrxx x y + hryy x y)) <= C * d ^ 2)%R) /\
  (forall S : setup RA, setup_ok S ->
   let h0 := mesh_of_setup S in
   2 <= nx h0 -> Z.even (ny h0) = true -> (0 < (dc h0 : R))%R ->
   periodic (period_x h0) (period_y h0) h -> periodic (period_x h0) (period_y h0) U -> periodic (period_x h0) (period_y h0) V ->
   periodic (period_x h0) (period_y h0) r ->
   eddy_diff2 (par_of S) = kappa -> (eddy_diff4 (par_of S) <= 0)%R ->
   forall (t s : sid) (time : R) (m : mem RA) (l k : Z), s <> t -> ready S m -> 0 <= l < ntracers (par_of S) -> 0 <= k < d_nlayers (sdims S) ->
   (forall c, 0 <= c < d_ncells (sdims S) -> mr m (HCell s) [c; k] = h (mr m XCell [c]) (mr m YCell [c])) ->
   (forall e, 0 <= e < d_nedges (sdims S) -> mr m (VnEdge s) [e; k] =
      (cos (mr m AngleEdge [e]) * U (mr m XEdge [e]) (mr m YEdge [e]) + sin (mr m AngleEdge [e]) * V (mr m XEdge [e]) (mr m YEdge [e]))%R) ->
   (forall c, 0 <= c < d_ncells (sdims S) ->
      mr m (TrCell s) [l; c; k] = (h (mr m XCell [c]) (mr m YCell [c]) * r (mr m XCell [c]) (mr m YCell [c]))%R) ->
   always (sdims S) (compute_tendency S t s time Replace) m (fun m' =>
     forall c, 0 <= c < d_ncells (sdims S) ->
        let x := (mr m XCell [c] : R) in let y := (mr m YCell [c] : R) in
        (mr m' (TrCell t) [l; c; k] = - Ou (dc h0) (fun q x y => Me (dc h0) h q x y * nvec U V q x y * Me (dc h0) r q x y) x y
           + Rmax 0 kappa * Ou (dc h0) (fun q x y => Me (dc h0) h q x y * Gr (dc h0) r q x y) x y)%R /\
        (Rabs (mr m' (TrCell t) [l; c; k] - (- (hrUx x y + hrVy x y) + Rmax 0 kappa * (hrxx x y + hryy x y))) <= C * dc h0 ^ 2)%R)).
Proof.
  intros h U V r rx ry hrUx hrVy hrxx hryy kappa Sh SU SV Sr Hne Hrx Hry HhrU HhrV Hhrx Hhry.
  assert (T : forall f, smooth 5 f -> exists fx fy, is_dx f fx /\ is_dy f fy /\ smooth 4 fx /\ smooth 4 fy) by (intros f (_ & fx & fy & H); exists fx, fy; exact H).
  assert (T' : forall f, smooth 4 f -> exists fx fy, is_dx f fx /\ is_dy f fy) by (intros f (_ & fx & fy & H1 & H2 & _); exists fx, fy; auto).
  destruct (T h Sh) as (hx & hy & Hhx & Hhy & Shx & Shy). destruct (T U SU) as (Ux & Uy & HUx & HUy & _). destruct (T V SV) as (Vx & Vy & HVx & HVy & _).
  destruct (T' hx Shx) as (hxx & hxy & Hhxx & Hhxy). destruct (T' hy Shy) as (hyx & hyy & Hhyx & Hhyy).
  destruct (T' rx (smooth_dx 4 r rx Sr Hrx)) as (rxx & rxy & Hrxx & Hrxy). destruct (T' ry (smooth_dy 4 r ry Sr Hry)) as (ryx & ryy & Hryx & Hryy).
  destruct (one_q _ _ (tadv_appr h U V hx hy Ux Uy Vx Vy Hhx Hhy HUx HUy HVx HVy Sh SU SV r rx ry Hrx Hry Sr)) as (C1 & P1 & B1).
  destruct (one_q _ _ (tdif_appr h hx hy Hhx Hhy Sh r rx ry rxx rxy ryx ryy Hrx Hry Hrxx Hrxy Hryx Hryy Sr hxx hxy hyx hyy Hhxx Hhxy Hhyx Hhyy)) as (C2 & P2 & B2).
  assert (Pk : (0 <= Rmax 0 kappa)%R) by apply Rmax_l.
  assert (Pk2 : (0 <= Rmax 0 kappa * C2)%R) by now apply Rmult_le_pos.
  set (C := (C1 + (C2 + Rmax 0 kappa * C2))%R).
  assert (E1 : forall x y, (hrUx x y + hrVy x y = (hx x y * r x y + h x y * rx x y) * U x y + h x y * r x y * Ux x y
      + ((hy x y * r x y + h x y * ry x y) * V x y + h x y * r x y * Vy x y))%R).
  { assert (A1 : forall x y, hrUx x y = ((hx x y * r x y + h x y * rx x y) * U x y + h x y * r x y * Ux x y)%R).
    { apply (is_dx_unique _ _ _ HhrU). intros x y. apply (D_mult (fun s => h s y * r s y)%R (fun s => U s y)); [|auto].
      apply (D_mult (fun s => h s y) (fun s => r s y)); auto. }
    assert (A2 : forall x y, hrVy x y = ((hy x y * r x y + h x y * ry x y) * V x y + h x y * r x y * Vy x y)%R).
    { apply (is_dy_unique _ _ _ HhrV). intros x y. apply (D_mult (fun s => h x s * r x s)%R (fun s => V x s)); [|auto].
      apply (D_mult (fun s => h x s) (fun s => r x s)); auto. }
    intros x y. now rewrite A1, A2. }
  assert (E2 : forall x y, (hrxx x y + hryy x y = hx x y * rx x y + h x y * rxx x y + (hy x y * ry x y + h x y * ryy x y))%R).
  { assert (A1 : forall x y, hrxx x y = (hx x y * rx x y + h x y * rxx x y)%R).
    { apply (is_dx_unique _ _ _ Hhrx). intros x y. apply (D_mult (fun s => h s y) (fun s => rx s y)); auto. }
    assert (A2 : forall x y, hryy x y = (hy x y * ry x y + h x y * ryy x y)%R).
    { apply (is_dy_unique _ _ _ Hhry). intros x y. apply (D_mult (fun s => h x s) (fun s => ry x s)); auto. }
    intros x y. now rewrite A1, A2. }
  assert (R1 : forall d x y, d <> 0%R -> (Rabs (Ou d (fun q x y => Me d h q x y * nvec U V q x y * Me d r q x y) x y - (hrUx x y + hrVy x y)) <= C1 * d ^ 2)%R).
  { intros d x y Hd. rewrite E1. apply (B1 d x y Hd). }
  assert (R2 : forall d x y, d <> 0%R -> (Rabs (Ou d (fun q x y => Me d h q x y * Gr d r q x y) x y - (hrxx x y + hryy x y)) <= C2 * d ^ 2)%R).
  { intros d x y Hd. rewrite E2. apply (B2 d x y Hd). }
  exists C. split.
  { intros d x y Hd. split; [apply (bigger _ C1); [now apply R1|unfold C; lra]|apply (bigger _ C2); [now apply R2|unfold C; lra]]. }
  intros S Hok h0 HX Hev Hdc Hph HpU HpV Hpr Ek Hk4 t s time m l k Hst Hr Hl Hk Sh' Su' Sr'.
  eapply always_imp; [apply (C59_tendency_is_the_discrete_equations_proof S Hok Hdc t s time Replace m Hst Hr)|].
  intros m' K. specialize (K k Hk). cbv zeta in K. destruct K as (_ & _ & K).
  pose proof (ready_hex S Hok m Hr) as Hm. destruct Hok as (Hok & _).
  pose proof (smp_cells _ h0 _ m Hm Hev h _ Sh') as SH.
  pose proof (smp_edges _ h0 _ m Hm Hev U V _ Su') as SU'.
  pose proof (per_nvec _ _ _ _ HpU HpV) as Hpu.
  assert (SR : smpC h0 r (fun c => mr m (TrCell s) [l; c; k] / mr m (HCell s) [c; k])%R).
  { apply (smp_cells _ h0 _ m Hm Hev). intros c Hc. rewrite Sr', Sh' by exact Hc. specialize (Hne (mr m XCell [c]) (mr m YCell [c])).
    apply Rminus_diag_uniq. cbn [F RA] in *. field. exact Hne. }
  intros c Hc. cbv zeta. specialize (K l c Hl Hc). rewrite Ek in K. destruct (Rlt_dec 0 (eddy_diff4 (par_of S))); [lra|].
  assert (A1 : outflow m (fun e => emean m (fun c => mr m (HCell s) [c; k]) e * mr m (VnEdge s) [e; k] * emean m (fun c => mr m (TrCell s) [l; c; k] / mr m (HCell s) [c; k]) e)%R c =
    Ou (dc h0) (fun q x y => Me (dc h0) h q x y * nvec U V q x y * Me (dc h0) r q x y)%R (mr m XCell [c]) (mr m YCell [c])).
  { rewrite (hm_xc _ _ _ Hm), (hm_yc _ _ _ Hm) by assumption.
    apply (smp_outflow _ h0 _ Hok Hdc m Hm Hev HX); [| |exact Hc].
    - intros q. apply (per_2 _ _ Rmult (fun x y => Me (dc h0) h q x y * nvec U V q x y)%R); [apply per_2; [now apply per_Me|apply Hpu]|now apply per_Me].
    - intros e He. rewrite (smp_emean _ h0 _ Hok m Hm Hev h _ Hph SH e He), (SU' e He), (smp_emean _ h0 _ Hok m Hm Hev r _ Hpr SR e He). reflexivity. }
  assert (A2 : outflow m (fun e => emean m (fun c => mr m (HCell s) [c; k]) e * grad m (fun c => mr m (TrCell s) [l; c; k] / mr m (HCell s) [c; k]) e)%R c =
    Ou (dc h0) (fun q x y => Me (dc h0) h q x y * Gr (dc h0) r q x y)%R (mr m XCell [c]) (mr m YCell [c])).
  { rewrite (hm_xc _ _ _ Hm), (hm_yc _ _ _ Hm) by assumption.
    apply (smp_outflow _ h0 _ Hok Hdc m Hm Hev HX); [| |exact Hc].
    - intros q. apply per_2; [now apply per_Me|now apply per_Gr].
    - intros e He. rewrite (smp_emean _ h0 _ Hok m Hm Hev h _ Hph SH e He), (smp_grad _ h0 _ Hok m Hm Hev r _ Hpr SR e He). reflexivity. }
  rewrite A1, A2 in K.
  assert (K' : (mr m' (TrCell t) [l; c; k] = - Ou (dc h0) (fun q x y => Me (dc h0) h q x y * nvec U V q x y * Me (dc h0) r q x y) (mr m XCell [c]) (mr m YCell [c])
           + Rmax 0 kappa * Ou (dc h0) (fun q x y => Me (dc h0) h q x y * Gr (dc h0) r q x y) (mr m XCell [c]) (mr m YCell [c]))%R).
  { rewrite K. destruct (Rlt_dec 0 kappa); [rewrite Rmax_right by lra|rewrite Rmax_left by lra]; apply Rminus_diag_uniq; cbn [F RA]; ring. }
  split; [exact K'|]. rewrite K'.
  specialize (R1 (dc h0) (mr m XCell [c]) (mr m YCell [c]) ltac:(lra)). specialize (R2 (dc h0) (mr m XCell [c]) (mr m YCell [c]) ltac:(lra)).
  set (a := Ou (dc h0) (fun q x y => Me (dc h0) h q x y * nvec U V q x y * Me (dc h0) r q x y)%R (mr m XCell [c]) (mr m YCell [c])) in *.
  set (b := Ou (dc h0) (fun q x y => Me (dc h0) h q x y * Gr (dc h0) r q x y)%R (mr m XCell [c]) (mr m YCell [c])) in *.
  set (a' := (hrUx (mr m XCell [c]) (mr m YCell [c]) + hrVy (mr m XCell [c]) (mr m YCell [c]))%R) in *.
  set (b' := (hrxx (mr m XCell [c]) (mr m YCell [c]) + hryy (mr m XCell [c]) (mr m YCell [c]))%R) in *.
  clear - R1 R2 Pk P1 P2. revert R1 R2. generalize (dc h0 : R). intros d R1 R2.
  replace (- a + Rmax 0 kappa * b - (- a' + Rmax 0 kappa * b'))%R with (- (a - a') + Rmax 0 kappa * (b - b'))%R by ring.
  eapply Rle_trans; [apply Rabs_triang|]. rewrite Rabs_Ropp, Rabs_mult, (Rabs_pos_eq _ Pk).
  assert (Rmax 0 kappa * Rabs (b - b') <= Rmax 0 kappa * (C2 * d ^ 2))%R by (now apply Rmult_le_compat_l).
  pose proof (Rmult_le_pos C2 (d ^ 2) P2 (pow2_ge_0 d)).
  unfold C. replace ((C1 + (C2 + Rmax 0 kappa * C2)) * d ^ 2)%R with (C1 * d ^ 2 + C2 * d ^ 2 + Rmax 0 kappa * (C2 * d ^ 2))%R by ring. lra.
Qed.

Lemma C62_viscous_term_limit_proof :
  forall U V Ux Uy Vx Vy Uxx Uyy Vxx Vxy Vyy : fn2, smooth 5 U -> smooth 5 V ->
  is_dx U Ux -> is_dy U Uy -> is_dx V Vx -> is_dy V Vy ->
  is_dx Ux Uxx -> is_dy Uy Uyy -> is_dx Vx Vxx -> is_dy Vx Vxy -> is_dy Vy Vyy ->
  exists C : R,
  (forall d q x y, d <> 0%R -> 0 <= q < 3 ->
     (Rabs (Vl d (nvec U V) q x y - (cq q * (Uxx x y + Uyy x y) + sq q * (Vxx x y + Vyy x y)
        - (if q =? 1 then -1 else 1) / 4 * (Uyy x y - Uxx x y + 2 * Vxy x y))) <= C * d ^ 2)%R) /\
  (forall (cf : config) (h : hexargs RA), mesh_ok cf h -> 2 <= nx h -> Z.even (ny h) = true -> (0 < (dc h : R))%R ->
   periodic (period_x h) (period_y h) U -> periodic (period_x h) (period_y h) V ->
   always (dims_of cf h 0) (mesh_ctor cf h) (mzero RA) (fun m =>
     let u := fun e => (cos (mr m AngleEdge [e]) * U (mr m XEdge [e]) (mr m YEdge [e]) + sin (mr m AngleEdge [e]) * V (mr m XEdge [e]) (mr m YEdge [e]))%R in
     forall e, 0 <= e < 3 * (nx h * ny h) ->
       let x := (mr m XEdge [e] : R) in let y := (mr m YEdge [e] : R) in let a := (mr m AngleEdge [e] : R) in
       vlap m u e = Vl (dc h) (nvec U V) (e mod 3) x y /\
       (Rabs (vlap m u e - (cos a * (Uxx x y + Uyy x y) + sin a * (Vxx x y + Vyy x y)
          - (if e mod 3 =? 1 then -1 else 1) / 4 * (Uyy x y - Uxx x y + 2 * Vxy x y))) <= C * dc h ^ 2)%R)).
Proof.
  intros U V Ux Uy Vx Vy Uxx Uyy Vxx Vxy Vyy SU SV HUx HUy HVx HVy HUxx HUyy HVxx HVxy HVyy.
  destruct (smooth_dx 4 U Ux SU HUx) as (_ & a1 & Uxy & _ & HUxy & _).
  destruct (smooth_dy 4 U Uy SU HUy) as (_ & Uyx & a2 & HUyx & _ & _).
  destruct (smooth_dy 4 V Vy SV HVy) as (_ & Vyx & a3 & HVyx & _ & _).
  destruct (all_q _ _ (Vl_appr U V Ux Uy Vx Vy Uxx Uxy Uyx Uyy Vxx Vxy Vyx Vyy HUx HUy HVx HVy HUxx HUxy HUyx HUyy HVxx HVxy HVyx HVyy SU SV)) as (C & HC & B).
  assert (B' : forall d q x y, d <> 0%R -> 0 <= q < 3 ->
     (Rabs (Vl d (nvec U V) q x y - (cq q * (Uxx x y + Uyy x y) + sq q * (Vxx x y + Vyy x y)
        - (if q =? 1 then -1 else 1) / 4 * (Uyy x y - Uxx x y + 2 * Vxy x y))) <= C * d ^ 2)%R).
  { intros d q x y Hd Hq. replace (if q =? 1 then -1 else 1)%R with (sgq q); [now apply B|]. unfold sgq, pv1, sg. destruct (q =? 1); reflexivity. }
  exists C. split; [exact B'|].
  intros cf h Hok HX Hev Hdc HpU HpV. apply ctor_always; [exact Hok|]. intros m Hm. cbv zeta. intros e He.
  pose proof (smp_edges cf h 0 m Hm Hev U V _ (fun e _ => eq_refl)) as S.
  pose proof (smp_vlap cf h 0 Hok Hdc m Hm Hev HX (nvec U V) _ (per_nvec _ _ _ _ HpU HpV) S e He) as E.
  rewrite (cos_edge cf h 0 m Hm Hev), (sin_edge cf h 0 m Hm Hev), (hm_xe _ _ _ Hm), (hm_ye _ _ _ Hm) by lia.
  split; [exact E|]. rewrite E. apply B'; [lra|apply q3].
Qed.

Lemma C62_viscosity_consistent_refuted_proof :
  forall (cf : config) (h : hexargs RA), mesh_ok cf h -> 20 <= nx h -> Z.even (ny h) = true -> (0 < (dc h : R))%R ->
  let k := (2 * PI / period_x h)%R in
  exists lam : R, (6 / 5 <= lam)%R /\
  always (dims_of cf h 0) (mesh_ctor cf h) (mzero RA) (fun m =>
    let u := fun e => (cos (mr m AngleEdge [e]) * cos (k * mr m XEdge [e]) + sin (mr m AngleEdge [e]) * 0)%R in
    forall e, 0 <= e < 3 * (nx h * ny h) -> mr m AngleEdge [e] = 0%R ->
      vlap m u e = (lam * (- (k * k) * cos (k * mr m XEdge [e])))%R).
Proof.
  intros cf h Hok HX Hev Hdc k.
  assert (HN : (20 <= IZR (nx h))%R) by (now apply IZR_le).
  assert (Epx : (period_x h : R) = (IZR (nx h) * dc h)%R) by reflexivity.
  assert (Hpx : (0 < (period_x h : R))%R) by (rewrite Epx; apply Rmult_lt_0_compat; lra).
  pose proof PI_RGT_0 as HP. pose proof PI_4 as HP4.
  assert (Hk : (0 < k)%R) by (apply Rdiv_lt_0_compat; lra).
  set (t := (k * dc h)%R).
  assert (Et : t = (2 * PI / IZR (nx h))%R) by (unfold t, k; rewrite Epx; field; lra).
  assert (Ht : (0 < t)%R) by (now apply Rmult_lt_0_compat).
  assert (Ht1 : (t <= 2 / 5)%R).
  { rewrite Et. apply (Rmult_le_reg_r (IZR (nx h))); [lra|]. unfold Rdiv at 1. rewrite Rmult_assoc, Rinv_l by lra. lra. }
  pose proof (too_large t Ht Ht1) as L.
  set (s := (8 / 3 * sin (t / 2) * (sin (t / 2) + sin (t / 4)) + 8 * (1 - cos (t / 4)))%R) in *.
  exists (s / (t * t))%R. split.
  { apply (Rmult_le_reg_r (t * t)); [now apply Rmult_lt_0_compat|]. unfold Rdiv at 2. rewrite Rmult_assoc, Rinv_l; [lra|].
    apply Rgt_not_eq. now apply Rmult_lt_0_compat. }
  apply ctor_always; [exact Hok|]. intros m Hm. cbv zeta. intros e He Ha.
  assert (Hp : periodic (period_x h) (period_y h) (fun x _ => cos (k * x))).
  { intros x y. split; [|reflexivity]. replace (k * (x + period_x h))%R with (k * x + IZR 1 * (2 * PI))%R; [apply cos_Z|].
    unfold k. apply Rminus_diag_uniq. cbn [F RA] in *. field. lra. }
  pose proof (smp_edges cf h 0 m Hm Hev (fun x _ => cos (k * x)) (fun _ _ => 0%R) _ (fun e _ => eq_refl)) as S.
  pose proof (smp_vlap cf h 0 Hok Hdc m Hm Hev ltac:(lia) _ _ (per_nvec _ _ _ _ Hp (per_c _ _ 0%R)) S e He) as E.
  cbv beta in E. rewrite E.
  assert (Eq : e mod 3 = 0).
  { rewrite (hm_ang _ _ _ Hm), hang_R in Ha by lia. pose proof (q3 e). unfold ang in Ha.
    assert (e mod 3 = 0 \/ e mod 3 = 1 \/ e mod 3 = 2) as [Q | [Q | Q]] by lia; [exact Q| |]; rewrite Q in Ha; cbn [Z.eqb Pos.eqb] in Ha; lra. }
  rewrite Eq, (wVl k (dc h) ltac:(lra)), (hm_xe _ _ _ Hm) by lia.
  change (k * dc h)%R with t. fold s. unfold t. apply Rminus_diag_uniq. cbn [F RA] in *. field. split; lra.
Qed.

