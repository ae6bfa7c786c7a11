(** Proofs of the properties of [PropsCons.v]. *)
From Coq Require Import ZArith Reals List Bool Lia Lra.
From Verif Require Import Arith Arrays Prog Conc Launch Mesh AuxVars Tend Model Hex RSum Spec MeshProof MeshMem MeshR Over Formulas KernBase Terms KernAux KernTend TendFn StepFn Ready Rel RelRun Relate TendVal StepVal StepRun StepThms RealTend SumParts Diag FieldInv ConsBase.
Import ListNotations.
Open Scope Z_scope.

Lemma tend_aux {A} (S : setup A) t s time md m b ix : is_aux b = true ->
  mr (tendency_fn S t s time md m) b ix = mr (aux_fn (cfg_of S) (sdims S) s m) b ix.
Proof.
  intros Hb. rewrite tend_prehook, hook_other by (intros ->; discriminate Hb). unfold prehook. cbv zeta.
  destruct (0 <? ntracers (par_of S)), (disable_vn (par_of S)), (disable_h (par_of S)); cbn [negb];
    rewrite ?tr_other, ?vn_other by (intros ->; discriminate Hb); try reflexivity; unfold h_fn; now rewrite upd_other by (intros ->; discriminate Hb).
Qed.
Lemma enabled_pos (x : R) : flt (fofZ 0 : F RA) x = true -> (0 < x)%R.
Proof. cbn [flt RA fofZ]. destruct (Rlt_dec 0 x); [auto|discriminate]. Qed.
Lemma disabled_le (x : R) : (x <= 0)%R -> flt (fofZ 0 : F RA) x = false.
Proof. intros H. cbn [flt RA fofZ]. destruct (Rlt_dec 0 x); [lra|reflexivity]. Qed.

(** A polynomial of degree 3 without linear term has derivative 0 at 0. *)
Lemma poly_deriv (E : R -> R) (a b c : R) : (forall x, E x = a + x * x * (b + x * c))%R -> derivable_pt_lim E 0%R 0%R.
Proof.
  intros HE eps He.
  assert (Hp : (0 < eps / (Rabs b + Rabs c + 1))%R).
  { apply Rdiv_lt_0_compat; [exact He|]. pose proof (Rabs_pos b). pose proof (Rabs_pos c). lra. }
  exists (mkposreal (Rmin 1 (eps / (Rabs b + Rabs c + 1))) (Rmin_pos _ _ Rlt_0_1 Hp)).
  intros x Hx Hd. cbn [pos] in Hd. rewrite !HE.
  replace ((a + (0 + x) * (0 + x) * (b + (0 + x) * c) - (a + 0 * 0 * (b + 0 * c))) / x - 0)%R with (x * (b + x * c))%R by (field; exact Hx).
  rewrite Rabs_mult.
  assert (D1 : (Rabs x < 1)%R) by (eapply Rlt_le_trans; [exact Hd|apply Rmin_l]).
  assert (D2 : (Rabs x < eps / (Rabs b + Rabs c + 1))%R) by (eapply Rlt_le_trans; [exact Hd|apply Rmin_r]).
  assert (B : (Rabs (b + x * c) <= Rabs b + Rabs c)%R).
  { eapply Rle_trans; [apply Rabs_triang|]. rewrite Rabs_mult. pose proof (Rabs_pos c). nra. }
  pose proof (Rabs_pos b). pose proof (Rabs_pos c). pose proof (Rabs_pos x).
  apply Rle_lt_trans with (Rabs x * (Rabs b + Rabs c + 1))%R; [nra|].
  apply (Rmult_lt_compat_r (Rabs b + Rabs c + 1)) in D2; [|lra]. unfold Rdiv in D2. rewrite Rmult_assoc, Rinv_l in D2 by lra. lra.
Qed.

(** ** Weighted sums as linear functionals *)
Section Sums.
Context (S : setup RA) (Hok : setup_ok S).
Local Notation h := (mesh_of_setup S).
Local Notation NC := (nx h * ny h).
Local Notation NL := (d_nlayers (sdims S)).
Definition hsum (k : Z) (y : fields RA) : R := rsum NC (fun c => hareac h * fh y c k)%R.
Definition tsum (l k : Z) (y : fields RA) : R := rsum NC (fun c => hareac h * ft y l c k)%R.
Lemma hsum_ext k s (m : mem RA) y : 0 <= k < NL -> holds S s m y -> hsum k (fld s m) = hsum k y.
Proof. intros Hk H. apply rsum_ext. intros c Hc. f_equal. now apply (H k Hk). Qed.
Lemma tsum_ext l k s (m : mem RA) y : 0 <= l < ntracers (par_of S) -> 0 <= k < NL -> holds S s m y -> tsum l k (fld s m) = tsum l k y.
Proof. intros Hl Hk H. apply rsum_ext. intros c Hc. f_equal. now apply (H k Hk). Qed.
Lemma hsum_lin k a b y z : hsum k (fmap2 (A:=RA) (fun u w => (a * u + b * w)%R) y z) = (a * hsum k y + b * hsum k z)%R.
Proof. unfold hsum. rewrite <- !rsum_scal, <- rsum_plus. apply rsum_ext. intros. cbn [fmap2 fh]. ring. Qed.
Lemma tsum_lin l k a b y z : tsum l k (fmap2 (A:=RA) (fun u w => (a * u + b * w)%R) y z) = (a * tsum l k y + b * tsum l k z)%R.
Proof. unfold tsum. rewrite <- !rsum_scal, <- rsum_plus. apply rsum_ext. intros. cbn [fmap2 ft]. ring. Qed.
End Sums.


(** Energies of perturbed states exist. *)
Lemma energy_value (S : setup RA) (Hok : setup_ok S) s m (k : fields RA) : ready S m -> exists E : R -> R, forall eps, exists n, ready S n /\
  energy_integral S s n (Some (E eps)) /\ holds S s n (fmap2 (A:=RA) (fun u w => u + eps * w)%R (fld s m) k).
Proof.
  intros Hr.
  pose (n := fun eps : R => Mem (A:=RA) (mi m) (fun a ix => match a, ix with
    | HCell _, [c; j] => fh (fmap2 (A:=RA) (fun u w => u + eps * w)%R (fld s m) k) c j
    | VnEdge _, [e; j] => fv (fmap2 (A:=RA) (fun u w => u + eps * w)%R (fld s m) k) e j
    | TrCell _, [l; c; j] => ft (fmap2 (A:=RA) (fun u w => u + eps * w)%R (fld s m) k) l c j
    | _, _ => mr m a ix end)).
  assert (Rn : forall eps, ready S (n eps)).
  { intros eps. eapply ready_frame; [|exact Hr]. intros [a ix|a ix] Ha; [reflexivity|]. destruct a; try discriminate Ha; reflexivity. }
  eexists. intros eps. exists (n eps). split; [apply Rn|]. split.
  - destruct (reduces_ex (sdims S) (n eps) (column_energy S s) (zseq (d_ncells (sdims S)))) as [r Q].
    pose proof (energy_sum S Hok (n eps) (Rn eps) s r Q) as Er. unfold energy_integral. rewrite Er in Q. exact Q.
  - intros j Hj. repeat split; intros; reflexivity.
Qed.

Lemma C24_tendency_conserves_mass_proof :
  forall (S : setup RA), setup_ok S -> (0 < (dc (mesh_of_setup S) : R))%R ->
  2 <= nx (mesh_of_setup S) -> 2 <= ny (mesh_of_setup S) ->
  disable_h (par_of S) = false ->
  forall (t s : sid) (time : R) (md : add_mode) (m : mem RA), s <> t -> ready S m ->
  always (sdims S) (compute_tendency S t s time md) m (fun m' => forall k, 0 <= k < d_nlayers (sdims S) ->
    let total (f : Z -> R) := rsum (d_ncells (sdims S)) (fun c => (mr m AreaCell [c] : R) * f c)%R in
    total (fun c => mr m' (HCell t) [c; k]) =
     (match md with Replace => 0 | Increment => total (fun c => mr m (HCell t) [c; k]) end +
      match hook S with None => 0 | Some f => total (fun c => force_h f (mr m XCell [c]) (mr m YCell [c]) time) end)%R).
Proof.
  intros S Hok Hdc H1 H2 Hh t s time md m Hs Hr.
  eapply always_fn; [apply rd_tendency; auto|]. intros M [_ E] k Hk total. unfold total. clear total.
  rewrite (rsum_ext (d_ncells (sdims S)) _ (fun c => (mr m AreaCell [c] : R) * (match md with Replace => 0 | Increment => mr m (HCell t) [c; k] end
     + match hook S with None => 0 | Some f => force_h f (mr m XCell [c]) (mr m YCell [c]) time end)
     - (mr m AreaCell [c] : R) * outflow m (fun e => emean m (fun c => mr m (HCell s) [c; k]) e * mr m (VnEdge s) [e; k]) c)%R).
  2:{ intros c Hc. rewrite E. rewrite (T_h S Hok m Hr) by assumption. rewrite Hh. unfold hk_h, hook_h, zr.
      destruct md, (hook S); cbn [is_replace]; rring. }
  rewrite rsum_minus. change (d_ncells (sdims S)) with (nx (mesh_of_setup S) * ny (mesh_of_setup S))%Z.
  rewrite (out_sum0 S Hok Hdc m Hr) by assumption. rewrite Rminus_0_r.
  rewrite (rsum_ext _ _ (fun c => (mr m AreaCell [c] : R) * match md with Replace => 0 | Increment => mr m (HCell t) [c; k] end +
    (mr m AreaCell [c] : R) * match hook S with None => 0 | Some f => force_h f (mr m XCell [c]) (mr m YCell [c]) time end)%R) by (intros; ring).
  rewrite rsum_plus. apply (f_equal2 Rplus).
  - destruct md; [|reflexivity]; apply rsum_zero; intros; ring.
  - destruct (hook S); [reflexivity|]. apply rsum_zero. intros. ring.
Qed.

Lemma C25_mass_conserved_proof :
  forall (S : setup RA), setup_ok S -> (0 < (dc (mesh_of_setup S) : R))%R ->
  2 <= nx (mesh_of_setup S) -> 2 <= ny (mesh_of_setup S) ->
  disable_h (par_of S) = false -> hook S = None ->
  forall (steps : list (R * R)) (m : mem RA), ready S m ->
  let conserved (m' : mem RA) := forall r r', mass_integral S St m r -> mass_integral S St m' r' -> r' = r /\ exists x, r = Some x in
  always (sdims S) (rk4_run S steps) m conserved /\ forall n, always (sdims S) (lsrk_run S n steps) m conserved.
Proof.
  intros S Hok Hdc H1 H2 Hh Hf steps m Hr conserved.
  assert (Z0 : forall k, 0 <= k < d_nlayers (sdims S) -> lam_zero S (hsum S k)).
  { intros k Hk s time n Hs Rn. assert (Ns : s <> Tend) by (destruct Hs; congruence).
    assert (Ea : forall c, 0 <= c < nx (mesh_of_setup S) * ny (mesh_of_setup S) -> (mr n AreaCell [c] : R) = hareac (mesh_of_setup S)).
    { intros c Hc. now rewrite (hm_area _ _ _ (ready_hex S Hok n Rn)) by assumption. }
    pose proof (out_sum0 S Hok Hdc n Rn (fun e => emean n (fun c => mr n (HCell s) [c; k]) e * mr n (VnEdge s) [e; k])%R H1 H2) as G.
    rewrite (rsum_ext _ _ (fun c => hareac (mesh_of_setup S) * outflow n (fun e => emean n (fun c => mr n (HCell s) [c; k]) e * mr n (VnEdge s) [e; k]) c)%R) in G
      by (intros c Hc; now rewrite Ea).
    assert (V : forall md c, 0 <= c < nx (mesh_of_setup S) * ny (mesh_of_setup S) -> fh (fld Tend (tendency_fn S Tend s time md n)) c k =
      (match md with Replace => 0 | Increment => mr n (HCell Tend) [c; k] end - outflow n (fun e => emean n (fun c => mr n (HCell s) [c; k]) e * mr n (VnEdge s) [e; k]) c)%R).
    { intros md c Hc. cbn [fld fh]. rewrite (T_h S Hok n Rn) by assumption. unfold hk_h. rewrite Hh, Hf. unfold zr. destruct md; reflexivity. }
    split; unfold hsum; rewrite (rsum_ext _ _ _ (fun c Hc => f_equal (Rmult _) (V _ c Hc))).
    - rewrite (rsum_ext _ _ (fun c => - (hareac (mesh_of_setup S) * outflow n (fun e => emean n (fun c => mr n (HCell s) [c; k]) e * mr n (VnEdge s) [e; k]) c))%R) by (intros; ring).
      rewrite rsum_opp, G. ring.
    - rewrite (rsum_ext _ _ (fun c => hareac (mesh_of_setup S) * fh (fld Tend n) c k - hareac (mesh_of_setup S) * outflow n (fun e => emean n (fun c => mr n (HCell s) [c; k]) e * mr n (VnEdge s) [e; k]) c)%R)
        by (intros; cbn [fld fh]; ring).
      rewrite rsum_minus, G. ring. }
  assert (C : forall M, ready S M -> (forall k, 0 <= k < d_nlayers (sdims S) -> hsum S k (fld St M) = hsum S k (fld St m)) -> conserved M).
  { intros M RM EM r r' Q Q'. apply (mass_sum S Hok m Hr) in Q. apply (mass_sum S Hok M RM) in Q'. subst r r'.
    split; [|eexists; reflexivity]. f_equal. rewrite rsum_swap, (rsum_swap (nx (mesh_of_setup S) * ny (mesh_of_setup S))).
    apply rsum_ext. intros k Hk.
    transitivity (hsum S k (fld St M)); [|rewrite EM by assumption].
    - apply rsum_ext. intros c Hc. now rewrite (hm_area _ _ _ (ready_hex S Hok M RM)) by assumption.
    - apply rsum_ext. intros c Hc. now rewrite (hm_area _ _ _ (ready_hex S Hok m Hr)) by assumption. }
  split; [|intros n].
  - eapply always_fn; [apply rd_rk4_run; auto|]. intros M E. apply C.
    + eapply ready_meq; [apply meq_sym; exact E|]. eapply ready_cst; [apply cst_rk4_run|exact Hr].
    + intros k Hk. transitivity (hsum S k (fld St (rk4_run_fn S steps m))).
      * apply rsum_ext. intros c Hc. cbn [fld fh]. destruct E as [_ E]. now rewrite E.
      * apply (lin_rk4 S (hsum S k)); auto using hsum_ext, hsum_lin.
  - eapply always_fn; [apply rd_lsrk_run; auto|]. intros M E. apply C.
    + eapply ready_meq; [apply meq_sym; exact E|]. eapply ready_cst; [apply cst_lsrk_run|exact Hr].
    + intros k Hk. transitivity (hsum S k (fld St (lsrk_run_fn S n steps m))).
      * apply rsum_ext. intros c Hc. cbn [fld fh]. destruct E as [_ E]. now rewrite E.
      * apply (lin_lsrk S (hsum S k)); auto using hsum_ext, hsum_lin.
Qed.

Lemma C26_tracer_content_conserved_proof :
  forall (S : setup RA), setup_ok S -> (0 < (dc (mesh_of_setup S) : R))%R ->
  2 <= nx (mesh_of_setup S) -> 2 <= ny (mesh_of_setup S) ->
  forall (steps : list (R * R)) (m : mem RA), ready S m ->
  let conserved (m' : mem RA) := forall l k, 0 <= l < ntracers (par_of S) -> 0 <= k < d_nlayers (sdims S) ->
    rsum (d_ncells (sdims S)) (fun c => (mr m AreaCell [c] : R) * mr m' (TrCell St) [l; c; k])%R =
    rsum (d_ncells (sdims S)) (fun c => (mr m AreaCell [c] : R) * mr m (TrCell St) [l; c; k])%R in
  always (sdims S) (rk4_run S steps) m conserved /\ forall n, always (sdims S) (lsrk_run S n steps) m conserved.
Proof.
  intros S Hok Hdc H1 H2 steps m Hr conserved.
  assert (Z0 : forall l k, 0 <= l < ntracers (par_of S) -> 0 <= k < d_nlayers (sdims S) -> lam_zero S (tsum S l k)).
  { intros l k Hl Hk s time n Hs Rn. assert (Ns : s <> Tend) by (destruct Hs; congruence).
    assert (G : forall g, rsum (nx (mesh_of_setup S) * ny (mesh_of_setup S)) (fun c => hareac (mesh_of_setup S) * outflow n g c)%R = 0%R).
    { intros g. rewrite <- (out_sum0 S Hok Hdc n Rn g H1 H2). apply rsum_ext. intros c Hc.
      now rewrite (hm_area _ _ _ (ready_hex S Hok n Rn)) by assumption. }
    assert (T0 : rsum (nx (mesh_of_setup S) * ny (mesh_of_setup S)) (fun c => hareac (mesh_of_setup S) * ttend S n s k l c)%R = 0%R).
    { unfold ttend. cbv zeta.
      set (g1 := fun e : Z => (emean n (fun c => mr n (HCell s) [c; k]) e * mr n (VnEdge s) [e; k] * emean n (fun c => mr n (TrCell s) [l; c; k] / mr n (HCell s) [c; k]) e)%R).
      set (g2 := fun e : Z => (emean n (fun c => mr n (HCell s) [c; k]) e * grad n (fun c => mr n (TrCell s) [l; c; k] / mr n (HCell s) [c; k]) e)%R).
      rewrite (rsum_ext _ _ (fun c => - (hareac (mesh_of_setup S) * outflow n g1 c) +
        ((if tracer_diff_enabled (par_of S) then eddy_diff2 (par_of S) else 0) * (hareac (mesh_of_setup S) * outflow n g2 c) -
         (if tracer_hyperdiff_enabled (par_of S) then eddy_diff4 (par_of S) else 0) * (hareac (mesh_of_setup S) * outflow n (grad n (outflow n g2)) c)))%R).
      2:{ intros c Hc. destruct (tracer_diff_enabled (par_of S)), (tracer_hyperdiff_enabled (par_of S)); cbn [F RA]; ring. }
      rewrite rsum_plus, rsum_minus, rsum_opp, G, rsum_scal, G, rsum_scal, G. ring. }
    assert (V : forall md c, 0 <= c < nx (mesh_of_setup S) * ny (mesh_of_setup S) -> ft (fld Tend (tendency_fn S Tend s time md n)) l c k =
      (match md with Replace => 0 | Increment => mr n (TrCell Tend) [l; c; k] end + ttend S n s k l c)%R).
    { intros md c Hc. cbn [fld ft]. rewrite (T_tr S Hok n Rn) by assumption. unfold zr. destruct md; reflexivity. }
    split; unfold tsum; rewrite (rsum_ext _ _ _ (fun c Hc => f_equal (Rmult _) (V _ c Hc))).
    - etransitivity; [|exact T0]. apply rsum_ext. intros. rring.
    - rewrite (rsum_ext _ _ (fun c => hareac (mesh_of_setup S) * ft (fld Tend n) l c k + hareac (mesh_of_setup S) * ttend S n s k l c)%R)
        by (intros; cbn [fld ft]; rring).
      rewrite rsum_plus, T0. ring. }
  assert (C : forall M, (forall l k, 0 <= l < ntracers (par_of S) -> 0 <= k < d_nlayers (sdims S) -> tsum S l k (fld St M) = tsum S l k (fld St m)) -> conserved M).
  { intros M EM l k Hl Hk.
    assert (Q : forall N : mem RA, rsum (d_ncells (sdims S)) (fun c => (mr m AreaCell [c] : R) * mr N (TrCell St) [l; c; k])%R = tsum S l k (fld St N)).
    { intros N. apply rsum_ext. intros c Hc. now rewrite (hm_area _ _ _ (ready_hex S Hok m Hr)) by assumption. }
    rewrite !Q. now apply EM. }
  split; [|intros n].
  - eapply always_fn; [apply rd_rk4_run; auto|]. intros M E. apply C.
    intros l k Hl Hk. transitivity (tsum S l k (fld St (rk4_run_fn S steps m))).
    + apply rsum_ext. intros c Hc. cbn [fld ft]. destruct E as [_ E]. now rewrite E.
    + apply (lin_rk4 S (tsum S l k)); auto using tsum_ext, tsum_lin.
  - eapply always_fn; [apply rd_lsrk_run; auto|]. intros M E. apply C.
    intros l k Hl Hk. transitivity (tsum S l k (fld St (lsrk_run_fn S n steps m))).
    + apply rsum_ext. intros c Hc. cbn [fld ft]. destruct E as [_ E]. now rewrite E.
    + apply (lin_lsrk S (tsum S l k)); auto using tsum_ext, tsum_lin.
Qed.

Lemma C27_circulation_is_constant_proof :
  forall (S : setup RA), setup_ok S -> (0 < (dc (mesh_of_setup S) : R))%R ->
  forall (s : sid) (m : mem RA), ready S m -> (exists r, circulation_integral S s m r) /\
  forall r, circulation_integral S s m r ->
  r = Some (IZR (d_nlayers (sdims S)) * f0 (par_of S) * (period_x (mesh_of_setup S) * period_y (mesh_of_setup S)))%R.
Proof.
  intros S Hok Hdc s m Hr. split; [apply reduces_ex|]. intros r Q.
  apply (circulation_sum S Hok m Hr) in Q. subst r. f_equal. rewrite rsum_swap.
  rewrite (rsum_ext _ _ (fun _ => f0 (par_of S) * (period_x (mesh_of_setup S) * period_y (mesh_of_setup S)))%R).
  - rewrite rsum_const by (apply (NL_nonneg S Hok)). unfold F, RA. ring.
  - intros k Hk. rewrite rsum_plus, (circ_sum0 S Hok Hdc m Hr), rsum_scal.
    destruct (m_areas (cfg_of S) (mesh_of_setup S) (ntracers (par_of S)) (proj1 Hok) m (ready_hex S Hok m Hr)) as (_ & _ & _ & A3 & _).
    rewrite A3. cbn [F RA]. ring.
Qed.

Lemma C28_inviscid_energy_conservation_proof :
  forall (S : setup RA), setup_ok S -> (0 < (dc (mesh_of_setup S) : R))%R ->
  2 <= nx (mesh_of_setup S) -> 2 <= ny (mesh_of_setup S) ->
  disable_h (par_of S) = false -> disable_vn (par_of S) = false -> hook S = None ->
  ((visc_del2 (par_of S) : R) <= 0)%R -> ((visc_del4 (par_of S) : R) <= 0)%R ->
  forall (t s : sid) (time : R) (m m' : mem RA) (E : R -> R), s <> t -> ready S m ->
  exec (sdims S) (compute_tendency S t s time Replace) m (OK m') ->
  (forall eps, exists n, ready S n /\ energy_integral S s n (Some (E eps)) /\
     holds S s n (fmap2 (A:=RA) (fun u w => u + eps * w)%R (fld s m) (fld t m'))) ->
  derivable_pt_lim E 0%R 0%R.
Proof.
  intros S Hok Hdc H1 H2 Hh Hv Hf V2 V4 t s time m m' E Hs Hr X HE.
  apply (tendency_exec S Hok) in X; auto. destruct X as [_ X].
  set (h := mesh_of_setup S) in *. set (NL := d_nlayers (sdims S)). set (g := grav (par_of S) : R).
  set (q := fun k c => mr m (HCell s) [c; k] : R). set (u := fun k e => mr m (VnEdge s) [e; k] : R).
  set (kh := fun k c => mr m' (HCell t) [c; k] : R). set (kv := fun k e => mr m' (VnEdge t) [e; k] : R).
  set (A := fun c => mr m AreaCell [c] : R).
  assert (Eh : forall k c, 0 <= k < NL -> 0 <= c < nx h * ny h -> kh k c = (- outflow m (fun e => emean m (q k) e * u k e) c)%R).
  { intros k c Hk Hc. unfold kh. rewrite X, (T_h S Hok m Hr) by assumption. unfold hk_h. rewrite Hh, Hf. unfold zr. cbn [is_replace fofZ RA].
    rewrite Rminus_0_l. reflexivity. }
  assert (Ev : forall k e, 0 <= k < NL -> 0 <= e < 3 * (nx h * ny h) ->
    kv k e = (pvflux m (f0 (par_of S)) (q k) (u k) e - grad m (kin m (u k)) e - g * grad m (q k) e)%R).
  { intros k e Hk He. unfold kv. rewrite X, (T_v S Hok Hdc m Hr) by assumption. unfold hk_v. rewrite Hv, Hf. unfold zr, vtend. cbn [is_replace fofZ RA].
    unfold vel_diff_enabled, vel_hyperdiff_enabled. rewrite !disabled_le by assumption. fold g. cbn [F RA].
    fold (q k). fold (u k). ring. }
  apply (poly_deriv E
    (rsum (nx h * ny h) (fun c => rsum NL (fun k => A c * (g * q k c * q k c / 2 + q k c * kin m (u k) c))))
    (rsum (nx h * ny h) (fun c => rsum NL (fun k => A c * (g * kh k c * kh k c / 2 + q k c * kin m (kv k) c + 2 * (kh k c * kinb m (u k) (kv k) c)))))
    (rsum (nx h * ny h) (fun c => rsum NL (fun k => A c * (kh k c * kin m (kv k) c)))))%R.
  intros eps. destruct (HE eps) as (n & Rn & Qn & Hn). apply (energy_sum S Hok n Rn) in Qn. injection Qn as ->.
  rewrite Rmult_plus_distr_l, <- Rplus_assoc.
  assert (Z0 : rsum (nx h * ny h) (fun c => rsum NL (fun k => A c * (g * q k c * kh k c + kh k c * kin m (u k) c + 2 * (q k c * kinb m (u k) (kv k) c))))%R = 0%R).
  { rewrite rsum_swap. apply rsum_zero. intros k Hk. apply (energy_rate S Hok Hdc m Hr (f0 (par_of S)) g (q k) (u k) (kh k) (kv k) H1 H2); auto. }
  match goal with |- _ = (?a + ?b + ?c)%R => transitivity (a + eps * 0 + b + c)%R; [|ring] end. rewrite <- Z0.
  rewrite <- (Rmult_assoc (eps * eps) eps). rewrite <- !rsum_scal, <- !rsum_plus. apply rsum_ext. intros c Hc.
  rewrite <- !rsum_scal, <- !rsum_plus. apply rsum_ext. intros k Hk.
  assert (EA : mr n AreaCell [c] = A c).
  { unfold A. now rewrite (hm_area _ _ _ (ready_hex S Hok n Rn)), (hm_area _ _ _ (ready_hex S Hok m Hr)) by assumption. }
  assert (Eq : forall c, 0 <= c < nx h * ny h -> mr n (HCell s) [c; k] = (q k c + eps * kh k c)%R) by (intros; now apply (Hn k Hk)).
  assert (Eu : forall e, 0 <= e < 3 * (nx h * ny h) -> mr n (VnEdge s) [e; k] = (u k e + eps * kv k e)%R) by (intros; now apply (Hn k Hk)).
  unfold ecell. fold g. rewrite EA, Eq by assumption.
  rewrite (kin_ext S Hok n Rn (fun e => mr n (VnEdge s) [e; k]) (fun e => u k e + eps * kv k e)%R) by assumption.
  assert (Ek : forall w, kin n w c = kin m w c).
  { intros w. unfold kin. rewrite EA. fold (A c). rewrite (hm_noc _ _ _ (ready_hex S Hok n Rn)), (hm_noc _ _ _ (ready_hex S Hok m Hr)) by assumption.
    do 2 f_equal. apply rsum_ext. intros j Hj. cbv zeta.
    rewrite (hm_eoc _ _ _ (ready_hex S Hok n Rn)), (hm_eoc _ _ _ (ready_hex S Hok m Hr)) by assumption.
    pose proof (hE_range (nx h) (ny h) ltac:(apply Hok) ltac:(apply Hok) c j Hc Hj) as He.
    now rewrite (hm_dve _ _ _ (ready_hex S Hok n Rn)), (hm_dve _ _ _ (ready_hex S Hok m Hr)), (hm_dce _ _ _ (ready_hex S Hok n Rn)), (hm_dce _ _ _ (ready_hex S Hok m Hr)) by assumption. }
  rewrite Ek, kin_pert. field.
Qed.

Lemma C29_pv_flux_does_no_work_proof :
  forall (S : setup RA), setup_ok S -> (0 < (dc (mesh_of_setup S) : R))%R ->
  disable_vn (par_of S) = false -> hook S = None ->
  ((visc_del2 (par_of S) : R) <= 0)%R -> ((visc_del4 (par_of S) : R) <= 0)%R ->
  forall (t s : sid) (time : R) (m : mem RA), s <> t -> ready S m ->
  always (sdims S) (compute_tendency S t s time Replace) m (fun m' => forall k, 0 <= k < d_nlayers (sdims S) ->
    rsum (d_nedges (sdims S)) (fun e =>
      let pv_flux := (mr m' (VnEdge t) [e; k] + grad m (fun c => mr m' KeCell [c; k]) e + grav (par_of S) * grad m (fun c => mr m (HCell s) [c; k]) e)%R in
      (mr m DcEdge [e] : R) * mr m DvEdge [e] * (mr m' FluxHEdge [e; k] * mr m (VnEdge s) [e; k]) * pv_flux)%R = 0%R).
Proof.
  intros S Hok Hdc Hv Hf V2 V4 t s time m Hs Hr.
  eapply always_fn; [apply rd_tendency; auto|]. intros M [_ E] k Hk.
  rewrite <- (pv_no_work S Hok m Hr (f0 (par_of S)) (fun c => mr m (HCell s) [c; k]) (fun e => mr m (VnEdge s) [e; k])).
  apply rsum_ext. intros e He. cbv zeta. rewrite !E, tend_aux by reflexivity.
  rewrite (a_flux S Hok m s k Hk e He).
  rewrite (grad_ext S Hok m Hr (fun c => mr M KeCell [c; k]) (kin m (fun e => mr m (VnEdge s) [e; k]))).
  2:{ intros c Hc. rewrite E, tend_aux by reflexivity. now apply a_ke. }
  2:{ exact He. }
  rewrite (T_v S Hok Hdc m Hr) by assumption. unfold hk_v. rewrite Hv, Hf. unfold zr, vtend. cbn [is_replace fofZ RA].
  unfold vel_diff_enabled, vel_hyperdiff_enabled. rewrite !disabled_le by assumption. cbn [F RA]. ring.
Qed.

