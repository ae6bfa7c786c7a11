(** Proofs about the state of least energy (C108). *)
From Coq Require Import ZArith Reals List Bool Lia Lra Psatz.
From Verif Require Import Arith Arrays Prog Conc Launch Mesh AuxVars Tend Model Hex HexComb RSum Spec MeshProof MeshMem MeshR MeshCalc Over Formulas KernBase Terms KernAux KernTend TendFn StepFn Ready Rel RelRun Relate TendVal StepVal StepRun StepThms RealTend SumParts Diag FieldInv ConsBase ConsThms SteadyThms.
Import ListNotations.
Open Scope Z_scope.

(** One term of a sum of non-negative ones. *)
Lemma rsum_ge_term n (f : Z -> R) : (forall i, 0 <= i < n -> (0 <= f i)%R) -> forall i, 0 <= i < n -> (f i <= rsum n f)%R.
Proof.
  intros P i Hi. assert (G : forall j, 0 <= j -> j <= n -> (0 <= rsum j f)%R /\ (i < j -> (f i <= rsum j f)%R)).
  { intros j Hj. pattern j. apply natlike_ind; [|intros x Hx IH|exact Hj].
    - intros _. rewrite rsum_0. split; [lra|lia].
    - intros Hn. unfold Z.succ in *. destruct (IH ltac:(lia)) as [I1 I2]. rewrite rsum_succ by lia. pose proof (P x ltac:(lia)). split; [lra|]. intros Hl. destruct (Z.eq_dec i x) as [->|N]; [lra|]. specialize (I2 ltac:(lia)). lra. }
  apply (G n); lia.
Qed.

Lemma least_energy :
  forall (S : setup RA), setup_ok S -> (0 < (dc (mesh_of_setup S) : R))%R -> (0 < (grav (par_of S) : R))%R -> 0 < d_nlayers (sdims S) ->
  forall (s : sid) (m : mem RA) (E M : R), ready S m ->
  (forall c k, 0 <= c < d_ncells (sdims S) -> 0 <= k < d_nlayers (sdims S) -> (0 <= mr m (HCell s) [c; k])%R) ->
  energy_integral S s m (Some E) -> mass_integral S s m (Some M) ->
  let area := rsum (d_ncells (sdims S)) (fun c => mr m AreaCell [c] : R) in
  let mean := (M / (IZR (d_nlayers (sdims S)) * area))%R in
  let Emin := (grav (par_of S) * mean * M / 2)%R in
  (Emin <= E)%R /\
  ((forall c k, 0 <= c < d_ncells (sdims S) -> 0 <= k < d_nlayers (sdims S) -> (0 < mr m (HCell s) [c; k])%R) -> (E = Emin <-> forall k, 0 <= k < d_nlayers (sdims S) ->
     (forall c, 0 <= c < d_ncells (sdims S) -> mr m (HCell s) [c; k] = mean) /\ (forall e, 0 <= e < d_nedges (sdims S) -> mr m (VnEdge s) [e; k] = 0%R))) /\
  (forall c k, 0 <= c < d_ncells (sdims S) -> 0 <= k < d_nlayers (sdims S) ->
     (grav (par_of S) * mr m AreaCell [c] * (mr m (HCell s) [c; k] - mean) ^ 2 <= 2 * (E - Emin))%R).
Proof.
  intros S Hok Hdc Hg HN s m E M Hr Hp0 QE QM area mean Emin.
  apply (energy_sum S Hok m Hr) in QE. apply (mass_sum S Hok m Hr) in QM. injection QE as QE. injection QM as QM.
  set (NC := nx (mesh_of_setup S) * ny (mesh_of_setup S)) in *. set (NL := d_nlayers (sdims S)) in *. set (g := grav (par_of S) : R) in *.
  set (h := fun c k => mr m (HCell s) [c; k] : R). set (A := fun c => mr m AreaCell [c] : R). set (K := fun c k => kin m (fun e => mr m (VnEdge s) [e; k]) c).
  assert (PN : 0 < NC) by (pose proof (proj1 Hok) as B; unfold NC; assert (1 <= nx (mesh_of_setup S)) by apply Hok; assert (1 <= ny (mesh_of_setup S)) by apply Hok; nia).
  assert (PA : forall c, 0 <= c < NC -> (0 < A c)%R) by (intros; now apply (cb_area S Hok Hdc m Hr)).
  assert (Pa : (0 < area)%R).
  { pose proof (rsum_nonneg NC A (fun c Hc => Rlt_le _ _ (PA c Hc))) as NN. destruct (Rle_lt_or_eq_dec _ _ NN) as [L|L]; [exact L|exfalso].
    pose proof (rsum_zero_each NC _ (fun c Hc => Rlt_le _ _ (PA c Hc)) (eq_sym L) 0 ltac:(lia)) as Z1. cbv beta in Z1. pose proof (PA 0 ltac:(lia)). lra. }
  assert (PL : (0 < IZR NL)%R) by (apply IZR_lt; exact HN).
  assert (Hmean : (mean * (IZR NL * area) = M)%R) by (unfold mean; field; split; lra).
  assert (Pk : forall c k, 0 <= c < NC -> 0 <= k < NL -> (0 <= K c k)%R).
  { intros c k Hc Hk. unfold K, kin. pose proof (PA c Hc). apply Rmult_le_pos; [|lra]. apply Rmult_le_pos; [|apply Rlt_le, Rinv_0_lt_compat; assumption].
    apply rsum_nonneg. intros j Hj. cbv zeta. rewrite (hm_noc _ _ _ (ready_hex S Hok _ Hr)) in Hj by assumption.
    pose proof (wf_eoc _ _ (ready_wfm S Hok _ Hr) c j Hc Hj) as He. pose proof (cb_dcdv S Hok Hdc m Hr _ He) as D0. rewrite Rmult_comm in D0. apply Rmult_le_pos; [now apply Rlt_le|apply Rle_0_sqr]. }
  set (f := fun c k => (A c * (g / 2 * ((h c k - mean) * (h c k - mean)) + h c k * K c k))%R).
  assert (Pf : forall c k, 0 <= c < NC -> 0 <= k < NL -> (g / 2 * (A c * ((h c k - mean) * (h c k - mean))) <= f c k)%R).
  { intros c k Hc Hk. unfold f. pose proof (Hp0 c k Hc Hk) as P. change (0 <= h c k)%R in P. assert (0 <= A c * (h c k * K c k))%R by (apply Rmult_le_pos; [apply Rlt_le, PA, Hc|apply Rmult_le_pos; [lra|now apply Pk]]). lra. }
  assert (Psq : forall c k, 0 <= c < NC -> (0 <= g / 2 * (A c * ((h c k - mean) * (h c k - mean))))%R).
  { intros c k Hc. apply Rmult_le_pos; [lra|]. apply Rmult_le_pos; [apply Rlt_le, PA, Hc|apply Rle_0_sqr]. }
  assert (Ex : (E - Emin = rsum NC (fun c => rsum NL (fun k => f c k)))%R).
  { assert (G : (rsum NC (fun c => rsum NL (fun k => f c k)) = E - g * mean * M + g / 2 * mean * mean * (IZR NL * area))%R).
    { rewrite QE, QM. unfold area. fold A. rewrite <- (Rmult_assoc (g / 2 * mean * mean)), <- !rsum_scal, <- rsum_minus, <- rsum_plus. apply rsum_ext. intros c Hc.
      rewrite <- rsum_scal, <- rsum_minus.
      replace (g / 2 * mean * mean * IZR NL * A c)%R with (rsum NL (fun _ => g / 2 * mean * mean * A c))%R by (rewrite rsum_const by lia; ring).
      rewrite <- rsum_plus. apply rsum_ext. intros k Hk. unfold f, Diag.ecell. fold g. fold (h c k). fold (K c k). change (mr m AreaCell [c]) with (A c). change (mr m (HCell s) [c; k]) with (h c k). field. }
    rewrite G. unfold Emin. rewrite <- Hmean. field. }
  assert (Pc : forall c, 0 <= c < NC -> (0 <= rsum NL (fun k => f c k))%R).
  { intros c Hc. apply rsum_nonneg. intros k Hk. pose proof (Pf c k Hc Hk). pose proof (Psq c k Hc). lra. }
  assert (Pall := rsum_nonneg NC _ Pc). cbv beta in Pall.
  split; [|split].
  - lra.
  - intros Hp. split.
    + intros EE. assert (Z0 : rsum NC (fun c => rsum NL (fun k => f c k)) = 0%R) by lra.
      assert (Zf : forall c k, 0 <= c < NC -> 0 <= k < NL -> f c k = 0%R).
      { intros c k Hc Hk. pose proof (rsum_zero_each NC _ Pc Z0 c Hc) as Zc. cbv beta in Zc.
        apply (rsum_zero_each NL (fun k => f c k)); [|exact Zc|exact Hk]. intros k' Hk'. pose proof (Pf c k' Hc Hk'). pose proof (Psq c k' Hc). lra. }
      intros k Hk.
      assert (Zh : forall c, 0 <= c < NC -> h c k = mean).
      { intros c Hc. pose proof (Pf c k Hc Hk) as P1. pose proof (Psq c k Hc) as P2. rewrite (Zf c k Hc Hk) in P1.
        assert (Z1 : (g / 2 * (A c * ((h c k - mean) * (h c k - mean))) = 0)%R) by lra. pose proof (PA c Hc).
        apply Rmult_integral in Z1. destruct Z1 as [Z1|Z1]; [lra|]. apply Rmult_integral in Z1. destruct Z1 as [Z1|Z1]; [lra|]. apply Rmult_integral in Z1. destruct Z1; lra. }
      split; [exact Zh|]. intros e He.
      assert (Hc : 0 <= e / 3 < NC) by (split; [apply Z.div_pos; lia|apply Z.div_lt_upper_bound; [lia|exact (proj2 He)]]). set (c := e / 3) in *.
      assert (ZK : K c k = 0%R).
      { pose proof (Zf c k Hc Hk) as Z1. unfold f in Z1. rewrite (Zh c Hc) in Z1. pose proof (PA c Hc). pose proof (Hp c k Hc Hk) as P. change (0 < h c k)%R in P. rewrite (Zh c Hc) in P.
        apply Rmult_integral in Z1. destruct Z1 as [Z1|Z1]; [lra|]. assert (Z2 : (mean * K c k = 0)%R) by lra. apply Rmult_integral in Z2. destruct Z2; [lra|assumption]. }
      unfold K, kin in ZK. pose proof (PA c Hc) as Pc'. change (mr m AreaCell [c]) with (A c) in ZK.
      set (w := fun j => let e := mi m EdgesOnCell [c; j] in (mr m DvEdge [e] * mr m DcEdge [e] * (mr m (VnEdge s) [e; k] * mr m (VnEdge s) [e; k]))%R).
      assert (Sw : rsum 6 w = 0%R).
      { rewrite (hm_noc _ _ _ (ready_hex S Hok _ Hr)) in ZK by assumption. change (rsum 6 w / A c / 4 = 0)%R in ZK.
        apply (Rmult_eq_compat_r (4 * A c)) in ZK. replace (rsum 6 w / A c / 4 * (4 * A c))%R with (rsum 6 w) in ZK by (field; lra). lra. }
      assert (Pw : forall j, 0 <= j < 6 -> (0 <= w j)%R).
      { intros j Hj. unfold w. cbv zeta. pose proof (wf_eoc _ _ (ready_wfm S Hok _ Hr) c j Hc Hj) as He'. pose proof (cb_dcdv S Hok Hdc m Hr _ He') as D0. rewrite Rmult_comm in D0. apply Rmult_le_pos; [now apply Rlt_le|apply Rle_0_sqr]. }
      pose proof (Z.mod_pos_bound e 3 ltac:(lia)) as Hj. pose proof (rsum_zero_each 6 w Pw Sw (e mod 3) ltac:(lia)) as Z1. unfold w in Z1. cbv zeta in Z1.
      rewrite (hm_eoc _ _ _ (ready_hex S Hok _ Hr)) in Z1 by (assumption || lia). unfold hE in Z1. destruct (Z.ltb_spec (e mod 3) 3); [|lia].
      replace (3 * c + e mod 3) with e in Z1 by (unfold c; apply Z.div_mod; lia).
      pose proof (cb_dcdv S Hok Hdc m Hr e He) as D0. rewrite Rmult_comm in D0. apply Rmult_integral in Z1. destruct Z1 as [Z1|Z1]; [exfalso; cbn [F RA] in *; lra|]. apply Rmult_integral in Z1. now destruct Z1.
    + intros Z0. assert (Zs : rsum NC (fun c => rsum NL (fun k => f c k)) = 0%R).
      { apply rsum_zero. intros c Hc. apply rsum_zero. intros k Hk. destruct (Z0 k Hk) as [Zh Zu]. unfold f. 
        assert (K0 : K c k = 0%R).
        { unfold K, kin. rewrite rsum_zero; [unfold Rdiv; ring|]. intros j Hj. cbv zeta. rewrite (hm_noc _ _ _ (ready_hex S Hok _ Hr)) in Hj by assumption. rewrite Zu; [ring|]. now apply (wf_eoc _ _ (ready_wfm S Hok _ Hr)). }
        rewrite K0. change (h c k) with (mr m (HCell s) [c; k] : R). rewrite (Zh c Hc). ring. }
      lra.
  - intros c k Hc Hk. change (g * A c * (h c k - mean) ^ 2 <= 2 * (E - Emin))%R. rewrite Ex.
    assert (L1 : (rsum NL (fun k => f c k) <= rsum NC (fun c => rsum NL (fun k => f c k)))%R) by (apply (rsum_ge_term NC (fun c => rsum NL (fun k => f c k)) Pc c Hc)).
    assert (L2 : (f c k <= rsum NL (fun k => f c k))%R).
    { apply (rsum_ge_term NL (fun k => f c k)); [|exact Hk]. intros k' Hk'. pose proof (Pf c k' Hc Hk'). pose proof (Psq c k' Hc). lra. }
    pose proof (Pf c k Hc Hk). nra.
Qed.

Lemma C108_flat_rest_has_least_energy_proof :
  forall (S : setup RA), setup_ok S -> (0 < (dc (mesh_of_setup S) : R))%R -> (0 < (grav (par_of S) : R))%R -> 0 < d_nlayers (sdims S) ->
  forall (s : sid) (m : mem RA) (E M : R), ready S m ->
  (forall c k, 0 <= c < d_ncells (sdims S) -> 0 <= k < d_nlayers (sdims S) -> (0 < mr m (HCell s) [c; k])%R) ->
  energy_integral S s m (Some E) -> mass_integral S s m (Some M) ->
  let area := rsum (d_ncells (sdims S)) (fun c => mr m AreaCell [c] : R) in
  let mean := (M / (IZR (d_nlayers (sdims S)) * area))%R in
  let Emin := (grav (par_of S) * mean * M / 2)%R in
  (Emin <= E)%R /\
  (E = Emin <-> forall k, 0 <= k < d_nlayers (sdims S) ->
     (forall c, 0 <= c < d_ncells (sdims S) -> mr m (HCell s) [c; k] = mean) /\ (forall e, 0 <= e < d_nedges (sdims S) -> mr m (VnEdge s) [e; k] = 0%R)) /\
  (forall c k, 0 <= c < d_ncells (sdims S) -> 0 <= k < d_nlayers (sdims S) ->
     (grav (par_of S) * mr m AreaCell [c] * (mr m (HCell s) [c; k] - mean) ^ 2 <= 2 * (E - Emin))%R).
Proof.
  intros S Hok Hdc Hg HN s m E M Hr Hp QE QM area mean Emin.
  destruct (least_energy S Hok Hdc Hg HN s m E M Hr (fun c k Hc Hk => Rlt_le _ _ (Hp c k Hc Hk)) QE QM) as (A & B & C). split; [exact A|]. split; [exact (B Hp)|exact C].
Qed.
