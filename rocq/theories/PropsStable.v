(** Flat rest is stable (C109). *)
From Coq Require Import ZArith Reals List Bool Lia Lra Psatz.
From Verif Require Import Arith Arrays Prog Conc Launch Mesh AuxVars Tend Model RSum Spec MeshProof MeshR Ready Relate StepVal StepRun StepThms RealTend Diag FieldInv ConsBase ConsThms SteadyThms Driver DriverFn ForcedThms PropsCons TimeThms ExistThms PropsExist EnergyThms LeastEnergy StableThms.
Import ListNotations.
Open Scope Z_scope.

(** C109.  [E] and [M] are results of energy_integral and mass_integral for the state at time 0, and [excess] is what the energy exceeds that of flat rest of the same mass by.  Nothing is assumed about the thickness after time 0. *)
Theorem C109_flat_rest_is_stable :
  forall (S : setup RA) (w T : R) (H V : R -> Z -> Z -> R) (Q : R -> Z -> Z -> Z -> R), setup_ok S -> (0 < (dc (mesh_of_setup S) : R))%R -> (0 < (grav (par_of S) : R))%R ->
  2 <= nx (mesh_of_setup S) -> 2 <= ny (mesh_of_setup S) -> 0 < d_nlayers (sdims S) -> disable_h (par_of S) = false -> disable_vn (par_of S) = false -> hook S = None ->
  ((visc_del2 (par_of S) : R) <= 0)%R -> ((visc_del4 (par_of S) : R) <= 0)%R ->
  solution S w T H V Q -> positive_thickness S (H 0%R) ->
  forall (m : mem RA) (E M : R), ready S m -> state_is S m (H 0%R) (V 0%R) (Q 0%R) -> energy_integral S St m (Some E) -> mass_integral S St m (Some M) ->
  let area := rsum (d_ncells (sdims S)) (fun c => mr m AreaCell [c] : R) in
  let mean := (M / (IZR (d_nlayers (sdims S)) * area))%R in
  let excess := (E - grav (par_of S) * mean * M / 2)%R in
  (2 * excess < grav (par_of S) * mr m AreaCell [0%Z] * mean ^ 2)%R ->
  forall t, (0 <= t <= T)%R -> forall c k, 0 <= c < d_ncells (sdims S) -> 0 <= k < d_nlayers (sdims S) ->
  (0 < H t c k)%R /\ (grav (par_of S) * mr m AreaCell [c] * (H t c k - mean) ^ 2 <= 2 * excess)%R.
Proof. exact C109_flat_rest_is_stable_proof. Qed.
Print Assumptions C109_flat_rest_is_stable.

(** Non-vacuity: a solution that starts from a flat layer with one moving edge per layer. *)
Definition S109 : setup RA := mkSetup (mkConfig false false false 8) (mkHex (A:=RA) 4 6 (IZR 1) 3) (mkParams (A:=RA) (IZR 1) (IZR 10) (IZR 0) (IZR 0) (IZR 0) (IZR 1) (IZR 1) 1 false false) None.
Example C109_hyps : exists (T : R) (H V : R -> Z -> Z -> R) (Q : R -> Z -> Z -> Z -> R) (m : mem RA) (E M : R), (0 < T)%R /\ solution S109 1 T H V Q /\ positive_thickness S109 (H 0%R) /\ (0 < V 0%R 0%Z 0%Z)%R /\
  ready S109 m /\ state_is S109 m (H 0%R) (V 0%R) (Q 0%R) /\ energy_integral S109 St m (Some E) /\ mass_integral S109 St m (Some M) /\
  let mean := (M / (8 * rsum 24 (fun c => mr m AreaCell [c])))%R in (2 * (E - 10 * mean * M / 2) < 10 * mr m AreaCell [0%Z] * mean ^ 2)%R.
Proof.
  assert (Ho : setup_ok S109) by ok. assert (Hdc : (0 < (dc (mesh_of_setup S109) : R))%R) by (cbn; lra).
  destruct (mem_at S109 Ho (fun _ _ => 0%R) (fun _ _ => 0%R) (fun _ _ _ => 0%R)) as (n & _ & Rn & _).
  set (u := fun e : Z => if e =? 0 then 1%R else 0%R). set (X := rsum 24 (fun c => rsum 8 (fun k => mr n AreaCell [c] * (2 * kin n u c)))%R).
  set (area := rsum 24 (fun c => mr n AreaCell [c] : R)). set (A0 := mr n AreaCell [0%Z] : R).
  assert (PA : forall c, 0 <= c < 24 -> (0 < (mr n AreaCell [c] : R))%R) by (intros c Hc; apply (cb_area S109 Ho Hdc n Rn); exact Hc).
  assert (P0 : (0 < A0)%R) by (apply PA; lia).
  assert (Pa : (0 < area)%R).
  { eapply Rlt_le_trans; [exact P0|]. apply (rsum_ge_term 24 (fun c => mr n AreaCell [c])); [intros; apply Rlt_le, PA; assumption|lia]. }
  pose proof (Rabs_pos X) as PX. set (a := (A0 / (1 + A0 + Rabs X))%R).
  assert (Ha : (a * (1 + A0 + Rabs X) = A0)%R) by (unfold a; field; lra). assert (La : (0 < a)%R) by (apply Rdiv_lt_0_compat; lra).
  destruct (C92_solutions_exist S109 1 1 (fun _ _ => 2%R) (fun e _ => a * u e)%R (fun _ _ _ => 0%R) Ho Hdc ltac:(lra) ltac:(intros g Hg; discriminate Hg) ltac:(intros c k _ _; lra)) as (T & H & V & Q & HT & HS & HE & HP).
  destruct (mem_at S109 Ho (fun _ _ => 2%R) (fun e _ => a * u e)%R (fun _ _ _ => 0%R)) as (m & _ & Rm & Sm).
  destruct (reduces_ex (sdims S109) m (column_energy S109 St) (zseq (d_ncells (sdims S109)))) as [rE QE]. change (energy_integral S109 St m rE) in QE.
  pose proof (En_value S109 Ho n Rn m St (mkFields (A:=RA) (fun _ _ => 2%R) (fun e _ => a * u e)%R (fun _ _ _ => 0%R)) rE Rm Sm QE) as XE. subst rE.
  destruct (reduces_ex (sdims S109) m (column_mass St) (zseq (d_ncells (sdims S109)))) as [rM QM]. change (mass_integral S109 St m rM) in QM. pose proof (mass_sum S109 Ho m Rm St rM QM) as XM.
  assert (YM : rM = Some (16 * area)%R).
  { rewrite XM. f_equal. unfold area. rewrite <- rsum_scal. apply rsum_ext. intros c Hc. rewrite (area_eq S109 Ho n Rn m c Rm Hc).
    rewrite (rsum_ext _ _ (fun _ => mr n AreaCell [c] * 2)%R); [|intros k Hk; destruct (Sm k Hk) as (A1 & _); rewrite A1 by exact Hc; reflexivity].
    change (d_nlayers (sdims S109)) with 8. rewrite rsum_const by lia. cbn [F RA]. ring. }
  clear XM. subst rM. exists T, H, V, Q, m, (160 * area + a * a * X)%R, (16 * area)%R. split; [apply HT|]. split; [exact HS|]. split; [apply HP; lra|]. split.
  { destruct (HE 0 ltac:(cbn; lia)) as (_ & EV & _). rewrite EV by (cbn; lia). unfold u. cbn. lra. }
  split; [exact Rm|]. split.
  { intros k Hk. destruct (Sm k Hk) as (A1 & A2 & A3). destruct (HE k Hk) as (B1 & B2 & B3). split; [|split]; intros; [rewrite B1|rewrite B2|rewrite B3]; auto. }
  split.
  { match type of QE with energy_integral _ _ _ (Some ?e) => replace (160 * area + a * a * X)%R with e; [exact QE|] end.
    unfold En, area, X. rewrite <- !rsum_scal, <- rsum_plus. apply rsum_ext. intros c Hc. change (d_nlayers (sdims S109)) with 8.
    replace (160 * mr n AreaCell [c])%R with (rsum 8 (fun _ => 20 * mr n AreaCell [c]))%R by (rewrite rsum_const by lia; cbn [F RA]; ring).
    rewrite <- rsum_scal, <- rsum_plus. apply rsum_ext. intros k Hk. cbn [fh fv].
    assert (K : kin n (fun e => a * u e)%R c = (a * a * kin n u c)%R).
    { unfold kin. cbv zeta. rewrite (rsum_ext _ _ (fun j => a * a * (let e := mi n EdgesOnCell [c; j] in mr n DvEdge [e] * mr n DcEdge [e] * (u e * u e)))%R); [|intros; cbv zeta; cbn [F RA]; ring]. rewrite rsum_scal. unfold Rdiv. cbn [F RA]. ring. }
    cbn [F RA] in *. rewrite K. cbn. field. }
  split; [exact QM|]. cbv zeta.
  rewrite (rsum_ext 24 (fun c => mr m AreaCell [c]) (fun c => mr n AreaCell [c]) (fun i Hi => area_eq S109 Ho n Rn m i Rm Hi)). fold area.
  replace (16 * area / (8 * area))%R with 2%R by (field; lra). rewrite (area_eq S109 Ho n Rn m 0 Rm ltac:(cbn; lia)). fold A0.
  pose proof (Rle_abs X). assert (a < 1)%R by nra. assert (a * Rabs X < A0)%R by nra. assert (a * a * X <= a * a * Rabs X)%R by (apply Rmult_le_compat_l; [apply Rmult_le_pos; lra|lra]). assert (a * a * Rabs X <= 1 * a * Rabs X)%R by (apply Rmult_le_compat_r; [lra|apply Rmult_le_compat_r; lra]). lra.
Qed.
