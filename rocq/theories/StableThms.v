(** Proofs about the stability of flat rest (C109). *)
From Coq Require Import ZArith Reals List Bool Lia Lra Psatz Ranalysis5 FunctionalExtensionality.
From Verif Require Import Arith Arrays Prog Conc Launch Mesh AuxVars Tend Model Hex RSum Spec MeshProof MeshMem MeshR Ready Relate TendVal StepVal StepRun StepThms RealTend Diag FieldInv ConsBase ConsThms SteadyThms Driver DriverFn ForcedThms Picard TimeThms ExistThms EnergyThms LeastEnergy.
Import ListNotations.
Open Scope Z_scope.

(** The least of finitely many functions and a constant. *)
Definition fmin (a : R) (l : list (R -> R)) (t : R) : R := fold_right (fun f b => Rmin (f t) b) a l.
Lemma fmin_le a l t f : In f l -> (fmin a l t <= f t)%R.
Proof. unfold fmin. induction l as [|g l IH]; cbn; [tauto|]. intros [->|I]; [apply Rmin_l|]. eapply Rle_trans; [apply Rmin_r|auto]. Qed.
Lemma fmin_top a l t : (fmin a l t <= a)%R.
Proof. unfold fmin. induction l as [|g l IH]; cbn; [lra|]. eapply Rle_trans; [apply Rmin_r|exact IH]. Qed.
Lemma fmin_ge a l t b : (b <= a)%R -> (forall f, In f l -> (b <= f t)%R) -> (b <= fmin a l t)%R.
Proof. intros Ha. unfold fmin. induction l as [|g l IH]; cbn; intros H; [exact Ha|]. apply Rmin_glb; [apply H; auto|apply IH; intros; apply H; auto]. Qed.
Lemma fmin_cont a l t : (forall f, In f l -> continuity_pt f t) -> continuity_pt (fmin a l) t.
Proof.
  induction l as [|g l IH]; intros H.
  - apply (continuity_pt_const (fmin a [])). intros x y. reflexivity.
  - assert (C1 : continuity_pt g t) by (apply H; now left). assert (C2 : continuity_pt (fmin a l) t) by (apply IH; intros; apply H; now right).
    assert (X : fmin a (g :: l) = (fun s => ((g s + fmin a l s) - Rabs (g s - fmin a l s)) * / 2)%R).
    + apply functional_extensionality. intros s. change (fmin a (g :: l) s) with (Rmin (g s) (fmin a l s)). unfold Rmin. destruct (Rle_dec (g s) (fmin a l s)); [rewrite Rabs_left1 by lra|rewrite Rabs_right by lra]; field.
    + rewrite X. apply (continuity_pt_mult (fun s => (g s + fmin a l s) - Rabs (g s - fmin a l s))%R (fun _ => / 2)%R); [|apply continuity_pt_const; intros x y; reflexivity].
      apply (continuity_pt_minus (fun s => g s + fmin a l s)%R (fun s => Rabs (g s - fmin a l s))); [now apply (continuity_pt_plus g (fmin a l))|].
      apply (continuity_pt_comp (fun s => g s - fmin a l s)%R Rabs); [now apply (continuity_pt_minus g (fmin a l))|apply Rcontinuity_abs].
Qed.
(** Functions that jump over the interval from 0 to [a] and are continuous stay above it. *)
Lemma stay_above T a (l : list (R -> R)) : (0 < a)%R -> (forall f t, In f l -> (0 <= t <= T)%R -> continuity_pt f t) ->
  (forall t, (0 <= t <= T)%R -> (forall f, In f l -> (0 <= f t)%R) -> forall f, In f l -> (a <= f t)%R) -> (forall f, In f l -> (0 <= f 0)%R) ->
  forall t, (0 <= t <= T)%R -> forall f, In f l -> (0 <= f t)%R.
Proof.
  intros Pa C J I t Ht f Hf.
  assert (G : forall s, (0 <= s <= T)%R -> (0 <= fmin a l s)%R -> fmin a l s = a).
  { intros s Hs P. apply Rle_antisym; [apply fmin_top|]. apply fmin_ge; [lra|]. apply (J s Hs). intros g Hg. pose proof (fmin_le a l s g Hg). lra. }
  destruct (Rle_dec 0 (fmin a l t)) as [P|P]; [pose proof (fmin_le a l t f Hf); lra|exfalso]. apply Rnot_le_lt in P.
  assert (P0 : fmin a l 0 = a). { apply G; [lra|]. apply fmin_ge; [lra|exact I]. }
  assert (Lt : (0 < t)%R). { destruct (Rle_lt_or_eq_dec 0 t (proj1 Ht)) as [L|L]; [exact L|subst t; lra]. }
  destruct (IVT_interv (fun s => a / 2 - fmin a l s)%R 0 t) as (z & Hz & Ez).
  - intros s Hs. apply (continuity_pt_minus (fun _ => a / 2)%R (fmin a l)); [apply continuity_pt_const; intros x y; reflexivity|]. apply fmin_cont. intros g Hg. apply C; [exact Hg|lra].
  - exact Lt.
  - rewrite P0. lra.
  - lra.
  - pose proof (G z ltac:(lra) ltac:(lra)). lra.
Qed.
Lemma away_from_zero (x m d : R) : (0 <= x -> 0 < m -> (x - m) ^ 2 <= d -> (m ^ 2 - d) / (2 * m) <= x)%R.
Proof. intros Hx Hm H. apply (Rmult_le_reg_r (2 * m)); [lra|]. replace ((m ^ 2 - d) / (2 * m) * (2 * m))%R with (m ^ 2 - d)%R by (field; lra). nra. Qed.

Section Stable.
Context (S : setup RA) (Hok : setup_ok S) (Hdc : (0 < (dc (mesh_of_setup S) : R))%R).
Context (H1 : 2 <= nx (mesh_of_setup S)) (H2 : 2 <= ny (mesh_of_setup S)) (Hh : disable_h (par_of S) = false) (Hf : hook S = None).
Local Notation NC := (nx (mesh_of_setup S) * ny (mesh_of_setup S)).
Local Notation NL := (d_nlayers (sdims S)).
Lemma mem_at (H V : Z -> Z -> R) (Q : Z -> Z -> Z -> R) : exists m, fresh S RK4 m /\ ready S m /\ state_is S m H V Q.
Proof.
  destruct (fresh_any S Hok RK4 (fun a ix => match a, ix with HCell St, [c; k] => H c k | VnEdge St, [e; k] => V e k | TrCell St, [l; c; k] => Q l c k | _, _ => 0%R end)) as (m & Fm & E).
  exists m. split; [exact Fm|]. split; [exact (proj1 (fresh_spec S Hok RK4 m Fm))|].
  intros j _. split; [|split]; intros; [apply (proj1 (E [c; j]))|apply (proj1 (proj2 (E [e; j])))|apply (proj2 (proj2 (E [l; c; j])))].
Qed.
(** Along a solution the mass is constant. *)
Lemma mass_along (A : Z -> R) (m0 : mem RA) (R0 : ready S m0) (HA : forall c, 0 <= c < NC -> A c = mr m0 AreaCell [c]) w T H V Q t : solution S w T H V Q -> (0 <= t <= T)%R ->
  rsum NC (fun c => rsum NL (fun k => A c * H t c k))%R = rsum NC (fun c => rsum NL (fun k => A c * H 0%R c k))%R.
Proof.
  intros HS Ht. rewrite (rsum_swap NC NL (fun c k => A c * H t c k)%R), (rsum_swap NC NL (fun c k => A c * H 0%R c k)%R). apply rsum_ext. intros k Hk.
  assert (D : forall s, (0 <= s <= T)%R -> derivable_pt_lim (fun s => rsum NC (fun c => A c * H s c k))%R s 0%R).
  { intros s Hs. destruct (mem_at (H s) (V s) (Q s)) as (m & Fm & Rm & Sm). pose proof (HS s m Hs Fm Sm) as X.
    pose proof (C24_tendency_conserves_mass_proof S Hok Hdc H1 H2 Hh Tend St s Replace m ltac:(discriminate) Rm) as Y.
    destruct X as [A1 [m' E]]. destruct (A1 _ E) as (m2 & E2 & D). injection E2 as <-. destruct Y as [A2 _]. destruct (A2 _ E) as (m2 & E2 & Z). injection E2 as <-.
    destruct (D k Hk) as (Dh & _). specialize (Z k Hk). cbv zeta in Z. rewrite Hf in Z.
    assert (W : (rsum NC (fun c => A c * (w * mr m' (HCell Tend) [c; k])) = 0)%R).
    { transitivity (w * rsum NC (fun c => mr m AreaCell [c] * mr m' (HCell Tend) [c; k]))%R.
      - rewrite <- rsum_scal. apply rsum_ext. intros c Hc. rewrite (HA c Hc), <- (area_eq S Hok m0 R0 m c Rm Hc). cbn [F RA]. ring.
      - etransitivity; [apply (f_equal (Rmult w)); exact Z|]. cbn. ring. }
    rewrite <- W. apply (der_rsum NC (fun c s => A c * H s c k)%R (fun c => A c * (w * mr m' (HCell Tend) [c; k]))%R). intros c Hc.
    apply (derivable_pt_lim_scal (fun s => H s c k)). now apply Dh. }
  pose proof (der_lip T (fun s => rsum NC (fun c => A c * H s c k))%R (fun _ => 0%R) 0%R D) as X. assert (Z : forall s : R, (0 <= s <= T)%R -> (Rabs 0 <= 0)%R) by (intros; rewrite Rabs_R0; lra).
  assert (T0 : (0 <= 0 <= T)%R) by lra. specialize (X Z t 0%R Ht T0). cbn beta in X. rewrite Rmult_0_l in X. split_Rabs; lra.
Qed.
End Stable.

Lemma C109_flat_rest_is_stable_proof :
  forall (S : setup RA) (w T : R) (H V : R -> Z -> Z -> R) (Q : R -> Z -> Z -> Z -> R), setup_ok S -> (0 < (dc (mesh_of_setup S) : R))%R -> (0 < (grav (par_of S) : R))%R ->
  2 <= nx (mesh_of_setup S) -> 2 <= ny (mesh_of_setup S) -> 0 < d_nlayers (sdims S) -> disable_h (par_of S) = false -> disable_vn (par_of S) = false -> hook S = None ->
  ((visc_del2 (par_of S) : R) <= 0)%R -> ((visc_del4 (par_of S) : R) <= 0)%R ->
  solution S w T H V Q -> positive_thickness S (H 0%R) ->
  forall (m : mem RA) (E M : R), ready S m -> state_is S m (H 0%R) (V 0%R) (Q 0%R) -> energy_integral S St m (Some E) -> mass_integral S St m (Some M) ->
  let area := rsum (d_ncells (sdims S)) (fun c => mr m AreaCell [c] : R) in
  let mean := (M / (IZR (d_nlayers (sdims S)) * area))%R in
  let excess := (E - grav (par_of S) * mean * M / 2)%R in
  (2 * excess < grav (par_of S) * mr m AreaCell [0%Z] * mean ^ 2)%R ->
  forall t, (0 <= t <= T)%R -> forall c k, 0 <= c < d_ncells (sdims S) -> 0 <= k < d_nlayers (sdims S) ->
  (0 < H t c k)%R /\ (grav (par_of S) * mr m AreaCell [c] * (H t c k - mean) ^ 2 <= 2 * excess)%R.
Proof.
  intros S w T H V Q Hok Hdc Hg H1 H2 HN Hh Hv Hf V2 V4 HS HP m E M Rm Sm QE QM area mean excess Small.
  set (g := grav (par_of S) : R) in *. set (NC := nx (mesh_of_setup S) * ny (mesh_of_setup S)). set (NL := d_nlayers (sdims S)) in *.
  change (d_ncells (sdims S)) with NC in *. assert (PN : 0 < NC) by (unfold NC; nia).
  set (A0 := mr m AreaCell [0%Z] : R) in *. assert (P0 : (0 < A0)%R) by (apply (cb_area S Hok Hdc m Rm); exact (conj (Z.le_refl 0) PN)).
  assert (HA : forall c, 0 <= c < NC -> mr m AreaCell [c] = A0).
  { intros c Hc. unfold A0. rewrite !(hm_area _ _ _ (ready_hex S Hok m Rm)); [reflexivity|exact (conj (Z.le_refl 0) PN)|exact Hc]. }
  assert (B : forall t, (0 <= t <= T)%R -> (forall c k, 0 <= c < NC -> 0 <= k < NL -> (0 <= H t c k)%R) -> forall c k, 0 <= c < NC -> 0 <= k < NL -> (g * A0 * (H t c k - mean) ^ 2 <= 2 * excess)%R).
  { intros t Ht Pt c k Hc Hk. destruct (mem_at S Hok (H t) (V t) (Q t)) as (n & Fn & Rn & Sn).
    destruct (reduces_ex (sdims S) n (column_energy S St) (zseq (d_ncells (sdims S)))) as [rE XE]. change (energy_integral S St n rE) in XE.
    pose proof (En_value S Hok m Rm n St (traj H V Q t) rE Rn Sn XE) as YE. pose proof (En_value S Hok m Rm m St (traj H V Q 0) (Some E) Rm Sm QE) as YE0. injection YE0 as YE0.
    rewrite (En_const S Hok Hdc m Rm H1 H2 Hh Hv Hf V2 V4 w T H V Q t HS Ht), <- YE0 in YE. subst rE.
    destruct (reduces_ex (sdims S) n (column_mass St) (zseq (d_ncells (sdims S)))) as [rM XM]. change (mass_integral S St n rM) in XM.
    pose proof (mass_sum S Hok n Rn St rM XM) as YM. pose proof (mass_sum S Hok m Rm St (Some M) QM) as YM0. injection YM0 as YM0.
    assert (EM : rM = Some M).
    { rewrite YM, YM0. f_equal. transitivity (rsum NC (fun c => rsum NL (fun k => mr m AreaCell [c] * H t c k))%R).
      - apply rsum_ext. intros i Hi. apply rsum_ext. intros j Hj. rewrite (area_eq S Hok m Rm n i Rn Hi). destruct (Sn j Hj) as (X & _). rewrite X by exact Hi. reflexivity.
      - etransitivity; [apply (mass_along S Hok Hdc H1 H2 Hh Hf (fun c => mr m AreaCell [c]) m Rm (fun c _ => eq_refl) w T H V Q t HS Ht)|].
        apply rsum_ext. intros i Hi. apply rsum_ext. intros j Hj. destruct (Sm j Hj) as (X & _). rewrite X by exact Hi. reflexivity. }
    rewrite EM in XM. clear YM.
    destruct (least_energy S Hok Hdc Hg HN St n E M Rn) as (_ & _ & L); [|exact XE|exact XM|].
    - intros i j Hi Hj. destruct (Sn j Hj) as (X & _). rewrite X by exact Hi. now apply Pt.
    - specialize (L c k Hc Hk). destruct (Sn k Hk) as (X & _). rewrite X in L by exact Hc. rewrite (area_eq S Hok m Rm n c Rn Hc) in L. change (d_ncells (sdims S)) with NC in L.
      rewrite (rsum_ext NC (fun c => mr n AreaCell [c]) (fun c => mr m AreaCell [c]) (fun i Hi => area_eq S Hok m Rm n i Rn Hi)) in L.
      pose proof (HA c Hc) as HA0. cbn [F RA] in *. rewrite HA0 in L. exact L. }
  set (d := (2 * excess / (g * A0))%R). assert (PgA : (0 < g * A0)%R) by now apply Rmult_lt_0_compat.
  assert (Bd : forall t, (0 <= t <= T)%R -> (forall c k, 0 <= c < NC -> 0 <= k < NL -> (0 <= H t c k)%R) -> forall c k, 0 <= c < NC -> 0 <= k < NL -> ((H t c k - mean) ^ 2 <= d)%R).
  { intros t Ht Pt c k Hc Hk. apply (Rmult_le_reg_l (g * A0)); [exact PgA|]. replace (g * A0 * d)%R with (2 * excess)%R by (unfold d; field; split; apply Rgt_not_eq; assumption). now apply B. }
  assert (Sd : (d < mean ^ 2)%R).
  { apply (Rmult_lt_reg_l (g * A0)); [exact PgA|]. replace (g * A0 * d)%R with (2 * excess)%R by (unfold d; field; split; apply Rgt_not_eq; assumption). exact Small. }
  intros t Ht. assert (T0 : (0 <= 0 <= T)%R) by lra.
  assert (I0 : forall c k, 0 <= c < NC -> 0 <= k < NL -> (0 < H 0%R c k)%R) by (intros c k Hc Hk; now apply HP).
  assert (Pm : (0 < mean)%R).
  { pose proof (Bd 0%R T0 (fun c k Hc Hk => Rlt_le _ _ (I0 c k Hc Hk)) 0 0 ltac:(lia) ltac:(lia)) as X. pose proof (I0 0 0 ltac:(lia) ltac:(lia)). nra. }
  set (a := ((mean ^ 2 - d) / (2 * mean))%R). assert (Pa : (0 < a)%R) by (apply Rdiv_lt_0_compat; lra).
  set (l := flat_map (fun c => map (fun k (s : R) => H s c k) (zseq NL)) (zseq NC)).
  assert (Il : forall c k, 0 <= c < NC -> 0 <= k < NL -> In (fun s : R => H s c k) l).
  { intros c k Hc Hk. apply in_flat_map. exists c. split; [now apply in_zseq|]. apply (in_map (fun k (s : R) => H s c k)). now apply in_zseq. }
  assert (Ol : forall f, In f l -> exists c k, 0 <= c < NC /\ 0 <= k < NL /\ f = (fun s : R => H s c k)).
  { intros f I. apply in_flat_map in I. destruct I as (c & Hc & I). apply in_map_iff in I. destruct I as (k & <- & Hk). apply in_zseq in Hc, Hk. exists c, k. auto. }
  assert (Pt : forall c k, 0 <= c < NC -> 0 <= k < NL -> (0 <= H t c k)%R).
  { intros c k Hc Hk. apply (stay_above T a l Pa) with (t := t) (f := fun s : R => H s c k); [| | |exact Ht|now apply Il].
    - intros f s I Hs. destruct (Ol f I) as (i & j & Hi & Hj & ->). destruct (mem_at S Hok (H s) (V s) (Q s)) as (n & Fn & Rn & Sn).
      destruct (HS s n Hs Fn Sn) as [A1 [m' X]]. destruct (A1 _ X) as (m2 & E2 & D). injection E2 as <-. destruct (D j Hj) as (Dh & _).
      apply derivable_continuous_pt. exists (w * mr m' (HCell Tend) [i; j])%R. now apply Dh.
    - intros s Hs P f I. destruct (Ol f I) as (i & j & Hi & Hj & ->). apply away_from_zero; [exact (P _ I)|exact Pm|]. apply Bd; [exact Hs| |exact Hi|exact Hj].
      intros i' j' Hi' Hj'. exact (P _ (Il i' j' Hi' Hj')).
    - intros f I. destruct (Ol f I) as (i & j & Hi & Hj & ->). apply Rlt_le, I0; assumption. }
  intros c k Hc Hk. split.
  - eapply Rlt_le_trans; [exact Pa|]. apply away_from_zero; [now apply Pt|exact Pm|now apply Bd].
  - pose proof (HA c Hc) as HA0. cbn [F RA] in *. rewrite HA0. now apply B.
Qed.
