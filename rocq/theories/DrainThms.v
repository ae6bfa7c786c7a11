(** Proofs of the properties of [PropsDrain.v]. *)
From Coq Require Import ZArith Reals List Bool Lia Lra.
From Verif Require Import Arith Arrays Prog Conc Launch Mesh AuxVars Tend Model Hex HexComb RSum Spec MeshProof MeshMem MeshFacts MeshR MeshCalc Over Formulas KernBase Terms KernAux KernTend TendFn StepFn Ready Rel RelRun Relate TendVal StepVal StepRun Tableau StepThms RealTend SumParts Diag FieldInv ConsBase ConsThms SteadyThms SuperThms Diffuse DiffuseThms.
Import ListNotations.
Open Scope Z_scope.

Section Drain.
Context (S : setup RA) (Hok : setup_ok S) (Hdc : (0 < (dc (mesh_of_setup S) : R))%R) (HX : 2 <= nx (mesh_of_setup S)) (HY : 2 <= ny (mesh_of_setup S)).
Local Notation h := (mesh_of_setup S).
Local Notation X := (nx (mesh_of_setup S)).
Local Notation Y := (ny (mesh_of_setup S)).
Local Notation NC := (nx (mesh_of_setup S) * ny (mesh_of_setup S)).
Definition e3 : Z := hE X Y 0 3.
Definition uu (w : R) (e : Z) : R := if e =? e3 then w else 0%R.
Definition hh (dl : R) (c : Z) : R := if c =? 0 then dl else 1%R.
Definition cfl : R := (hdve h / hareac h)%R.
Lemma cfl0 : (0 < cfl)%R.
Proof.
  unfold cfl. rewrite hdve_R, hareac_R. cbn [F RA] in *. assert (S3 : (0 < sqrt 3)%R) by (apply sqrt_lt_R0; lra).
  repeat (apply Rdiv_lt_0_compat || apply Rmult_lt_0_compat || lra || assumption).
Qed.
Lemma N0 : 0 <= 0 < NC. Proof. nia. Qed.
Lemma nb_ne : nb X Y 0 3 <> 0.
Proof. intros C. pose proof (inb_nb X Y ltac:(lia) 0 3 N0 ltac:(lia)) as I. rewrite C in I. revert I. apply inb_ne; lia. Qed.
Context (m : mem RA) (Hr : ready S m).
Let Hm := ready_hex S Hok m Hr.
(** Only the edge [e3] carries a flux. *)
Lemma out0 w phi : outflow m (fun e => emean m phi e * uu w e)%R 0 = (cfl * (w * ((phi 0%Z + phi (nb X Y 0%Z 3%Z)) / 2)))%R.
Proof.
  pose proof (proj1 Hok) as Hmo. rewrite (outflow_eq _ _ _ Hmo _ Hm) by exact N0. unfold cfl. f_equal. rewrite rsum_small6. rewrite !(cs_closed _ _ Hmo) by (exact N0 || lia).
  assert (U : forall j, 0 <= j < 6 -> j <> 3 -> uu w (hE X Y 0 j) = 0%R).
  { intros j Hj Hj3. unfold uu. destruct (Z.eqb_spec (hE X Y 0 j) e3) as [C|C]; [|reflexivity]. exfalso. pose proof nb_ne as N1. unfold e3, hE in C. cbn [Z.ltb Z.compare Pos.compare Pos.compare_cont] in C.
    destruct (Z.ltb_spec j 3); lia. }
  rewrite (U 0), (U 1), (U 2), (U 4), (U 5) by lia. fold e3. assert (U3 : uu w e3 = w) by (unfold uu; now rewrite Z.eqb_refl). rewrite U3. unfold emean. cbn [Z.ltb Z.compare Pos.compare Pos.compare_cont].
  pose proof (hE_range X Y ltac:(lia) ltac:(lia) 0 3 N0 ltac:(lia)) as He. fold e3 in He. rewrite !(hm_coe _ _ _ Hm e3) by lia.
  assert (C0 : hcoe X Y e3 0 = 0). { apply Z.eqb_eq. unfold e3. rewrite coe0_hE by (exact N0 || lia). reflexivity. }
  assert (C1 : hcoe X Y e3 1 = nb X Y 0 3). { unfold hcoe. cbn [Z.eqb]. unfold e3. rewrite hE_div_ by lia. reflexivity. }
  rewrite C0, C1. field.
Qed.
(** The outflow of a small velocity is small. *)
Lemma out_small u w phi b c : (forall e, 0 <= e < 3 * NC -> (Rabs (u e) <= w)%R) -> (0 <= w)%R -> (0 <= b)%R -> 0 <= c < NC -> (forall c, 0 <= c < NC -> (Rabs (phi c) <= b)%R) ->
  (Rabs (outflow m (fun e => emean m phi e * u e)%R c) <= 6 * cfl * w * b)%R.
Proof.
  intros Hu Hw Hb Hc Hphi. pose proof (proj1 Hok) as Hmo. rewrite (outflow_eq _ _ _ Hmo _ Hm) by exact Hc. fold cfl. pose proof cfl0 as C0. rewrite Rabs_mult, (Rabs_right cfl) by lra.
  replace (6 * cfl * w * b)%R with (cfl * (6 * (b * w)))%R by ring. apply Rmult_le_compat_l; [lra|].
  assert (T : forall j, 0 <= j < 6 -> (Rabs (cs h c j * (emean m phi (hE X Y c j) * u (hE X Y c j))) <= b * w)%R).
  { intros j Hj. pose proof (hE_range X Y ltac:(lia) ltac:(lia) c j Hc Hj) as He. rewrite !Rabs_mult. rewrite <- (Rmult_1_l (b * w)). apply Rmult_le_compat; try apply Rabs_pos; [apply Rmult_le_pos; apply Rabs_pos| |].
    - rewrite (cs_closed _ _ Hmo) by assumption. destruct (j <? 3); split_Rabs; lra.
    - apply Rmult_le_compat; try apply Rabs_pos.
      + unfold emean. pose proof (fun s => hcoe_range X Y ltac:(lia) ltac:(lia) (hE X Y c j) s He) as Rg. rewrite !(hm_coe _ _ _ Hm (hE X Y c j)) by lia.
        pose proof (Hphi _ (Rg 0)) as P0. pose proof (Hphi _ (Rg 1)) as P1. split_Rabs; lra.
      + now apply Hu. }
  assert (T' : forall j, 0 <= j < 6 -> (- (b * w) <= cs h c j * (emean m phi (hE X Y c j) * u (hE X Y c j)) <= b * w)%R) by (intros j Hj; specialize (T j Hj); split_Rabs; lra).
  rewrite rsum_small6. pose proof (T' 0 ltac:(lia)). pose proof (T' 1 ltac:(lia)). pose proof (T' 2 ltac:(lia)). pose proof (T' 3 ltac:(lia)). pose proof (T' 4 ltac:(lia)). pose proof (T' 5 ltac:(lia)).
  apply Rabs_le. lra.
Qed.
(** The thickness tendency of a state whose velocity is [uu w]. *)
Context (Ek : hook S = None) (Ed : disable_h (par_of S) = false).
Lemma tend_hu u (time : R) y K k : 0 <= k < d_nlayers (sdims S) -> tendency_of S time y K -> (forall e, 0 <= e < 3 * NC -> fv y e k = u e) ->
  forall c, 0 <= c < NC -> fh K c k = (- outflow m (fun e => emean m (fun c => fh y c k) e * u e)%R c)%R.
Proof.
  intros Hk T Hv c Hc. destruct (tend_of S Hok Hdc m Hr _ _ _ T k Hk) as (A1 & _ & _). rewrite A1 by exact Hc. unfold hk_h. rewrite Ek, Ed. f_equal.
  apply (outflow_ext S Hok m Hr); [|exact Hc]. intros e He. now rewrite Hv.
Qed.
Lemma tend_h w (time : R) y K k : 0 <= k < d_nlayers (sdims S) -> tendency_of S time y K -> (forall e, 0 <= e < 3 * NC -> fv y e k = uu w e) ->
  forall c, 0 <= c < NC -> fh K c k = (- outflow m (fun e => emean m (fun c => fh y c k) e * uu w e)%R c)%R.
Proof. exact (tend_hu (uu w) time y K k). Qed.
Lemma tend_v (time : R) y K k : disable_vn (par_of S) = true -> 0 <= k < d_nlayers (sdims S) -> tendency_of S time y K -> forall e, 0 <= e < 3 * NC -> fv K e k = 0%R.
Proof. intros Dv Hk T e He. destruct (tend_of S Hok Hdc m Hr _ _ _ T k Hk) as (_ & A2 & _). rewrite A2 by exact He. unfold hk_v. now rewrite Ek, Dv. Qed.
End Drain.

Lemma hh0 dl c : (0 < dl)%R -> (0 < hh dl c)%R. Proof. intros H. unfold hh. destruct (_ =? _); lra. Qed.
Lemma uu_le S w e : (0 <= w)%R -> (Rabs (uu S w e) <= w)%R. Proof. intros H. unfold uu. destruct (_ =? _); rewrite ?Rabs_R0, ?Rabs_right; lra. Qed.
Lemma start (S : setup RA) (Hok : setup_ok S) w dl : exists m, ready S m /\ (forall c k, mr m (HCell St) [c; k] = hh dl c) /\ (forall e k, mr m (VnEdge St) [e; k] = uu S w e) /\ disabled_zero S Tend m.
Proof.
  destruct (ready_any S Hok (fun a ix => match a, ix with HCell St, [c; k] => hh dl c | VnEdge St, [e; k] => uu S w e | _, _ => 0%R end)) as (m & Hr & E).
  exists m. split; [exact Hr|]. split; [intros; now rewrite E|]. split; [intros; now rewrite E|]. intros k Hk. split; intros _ i Hi; now rewrite E.
Qed.

Lemma C101_euler_positive_thickness_refuted_proof :
  forall (S : setup RA), setup_ok S -> (0 < (dc (mesh_of_setup S) : R))%R -> 2 <= nx (mesh_of_setup S) -> 2 <= ny (mesh_of_setup S) ->
  hook S = None -> disable_h (par_of S) = false ->
  forall t dt V : R, (0 < dt)%R -> (0 < V)%R ->
  exists m, ready S m /\ (forall c k, (0 < mr m (HCell St) [c; k])%R) /\ (forall e k, (Rabs (mr m (VnEdge St) [e; k]) <= V)%R) /\
  always (sdims S) (lsrk_run S 1 [(t, dt)]) m (fun m' => forall k, 0 <= k < d_nlayers (sdims S) -> (mr m' (HCell St) [0%Z; k] < 0)%R).
Proof.
  intros S Hok Hdc HX HY Ek Ed t dt V Hdt HV. pose proof (cfl0 S Hdc) as C0. set (dl := (dt * (cfl S * V) / 4)%R).
  assert (P0 : (0 < dt * (cfl S * V))%R) by (apply Rmult_lt_0_compat; [exact Hdt|apply Rmult_lt_0_compat; assumption]). assert (D0 : (0 < dl)%R) by (unfold dl; lra).
  destruct (start S Hok V dl) as (m & Hr & E1 & E2 & _).
  exists m. split; [exact Hr|]. split; [intros c k; rewrite E1; now apply hh0|]. split; [intros e k; rewrite E2; apply uu_le; lra|].
  eapply always_fn; [apply rd_lsrk_run; auto|]. intros M EM k Hk. destruct EM as [_ EM]. rewrite EM. clear EM M.
  change (lsrk_run_fn S 1 [(t, dt)] m) with (lsrk_fn S 1 t dt m).
  destruct (stages_ex S Hok 1 t dt (fld St m) (fld Tend m) ltac:(lia)) as (Yf & Q & K & EY & EQ & G).
  destruct (lsrk_holds S Hok 1 t dt m Yf Q K ltac:(lia) Hr) as (_ & B & _).
  { rewrite EY. apply holds_fld. } { rewrite EQ. apply holds_fld. } { exact G. }
  destruct (G 0 ltac:(lia)) as (T0 & Q0 & Y0). rewrite EY in T0.
  assert (T1 := tend_h S Hok Hdc m Hr Ek Ed V _ _ _ k Hk T0 (fun e _ => E2 e k) 0 (N0 S HX HY)). rewrite (out0 S Hok HX HY m Hr) in T1.
  change (fh (fld St m)) with (fun c k => mr m (HCell St) [c; k]) in T1. cbv beta in T1. rewrite !E1 in T1.
  destruct (B k Hk) as (B3 & _ & _). rewrite B3 by exact (N0 S HX HY). change (0 + 1) with 1 in *. rewrite Y0, EY. cbn [fmap2 fh]. rewrite Q0. cbn [fmap2 fh]. rewrite lsrk_a0, T1.
  change (lsrk_b (A:=RA) 1 0) with (IZR 1). change (fh (fld St m) 0 k) with (mr m (HCell St) [0; k]). rewrite E1.
  unfold hh. cbn [Z.eqb]. destruct (Z.eqb_spec (nb (nx (mesh_of_setup S)) (ny (mesh_of_setup S)) 0 3) 0) as [C|_]; [exfalso; revert C; now apply nb_ne|].
  cbn [F RA] in *. assert (0 < dt * (cfl S * V) * dl)%R by (apply Rmult_lt_0_compat; assumption). unfold dl in *. lra.
Qed.

Lemma C101_rk4_positive_thickness_refuted_proof :
  forall (S : setup RA), setup_ok S -> (0 < (dc (mesh_of_setup S) : R))%R -> 2 <= nx (mesh_of_setup S) -> 2 <= ny (mesh_of_setup S) ->
  hook S = None -> disable_h (par_of S) = false -> disable_vn (par_of S) = true ->
  forall t dt V : R, (0 < dt)%R -> (0 < V)%R ->
  exists m, ready S m /\ disabled_zero S Tend m /\ (forall c k, (0 < mr m (HCell St) [c; k])%R) /\ (forall e k, (Rabs (mr m (VnEdge St) [e; k]) <= V)%R) /\
  always (sdims S) (rk4_run S [(t, dt)]) m (fun m' => forall k, 0 <= k < d_nlayers (sdims S) -> (mr m' (HCell St) [0%Z; k] < 0)%R).
Proof.
  intros S Hok Hdc HX HY Ek Ed Dv t dt V Hdt HV. pose proof (cfl0 S Hdc) as C0. assert (P0 : (0 < dt * cfl S)%R) by (apply Rmult_lt_0_compat; assumption).
  set (w := Rmin V (1 / (60 * (dt * cfl S)))). assert (w0 : (0 < w)%R) by (apply Rmin_glb_lt; [exact HV|apply Rdiv_lt_0_compat; lra]). assert (wV : (w <= V)%R) by apply Rmin_l.
  set (z := (dt * cfl S * w)%R). assert (z0 : (0 < z)%R) by (apply Rmult_lt_0_compat; assumption).
  assert (z1 : (z <= 1 / 60)%R). { unfold z. apply Rle_trans with (dt * cfl S * (1 / (60 * (dt * cfl S))))%R; [apply Rmult_le_compat_l; [lra|apply Rmin_r]|right; field; lra]. }
  set (dl := (z / 4)%R). assert (D0 : (0 < dl <= 1)%R) by (unfold dl; lra).
  destruct (start S Hok w dl) as (m & Hr & E1 & E2 & Hz).
  exists m. split; [exact Hr|]. split; [exact Hz|]. split; [intros c k; rewrite E1; now apply hh0|]. split; [intros e k; rewrite E2; eapply Rle_trans; [apply uu_le; lra|exact wV]|].
  eapply always_fn; [apply rd_rk4_run; auto|]. intros M EM k Hk. destruct EM as [_ EM]. rewrite EM. clear EM M.
  change (rk4_run_fn S [(t, dt)] m) with (rk4_fn S t dt m). set (y := fld St m).
  destruct (tendency_ex S Hok t y) as [k1 T1].
  destruct (tendency_ex S Hok (t + rk4_c (A:=RA) 0 * dt)%R (add (A:=RA) dt (rk4_a 0) y k1)) as [k2 T2].
  destruct (tendency_ex S Hok (t + rk4_c (A:=RA) 1 * dt)%R (add (A:=RA) dt (rk4_a 1) y k2)) as [k3 T3].
  destruct (tendency_ex S Hok (t + rk4_c (A:=RA) 2 * dt)%R (add (A:=RA) dt (rk4_a 2) y k3)) as [k4 T4].
  destruct (rk4_holds S Hok t dt m y k1 k2 k3 k4) as (A & _ & _); auto; [intros _; exact Ek|apply holds_fld|].
  destruct (A k Hk) as (A1 & _ & _). rewrite A1 by exact (N0 S HX HY). clear A A1.
  set (X := nx (mesh_of_setup S)) in *. set (Y := ny (mesh_of_setup S)) in *. set (n1 := nb X Y 0 3).
  assert (NN : 0 <= n1 < X * Y) by (apply nb_range; lia || exact (N0 S HX HY)). assert (Nn : n1 <> 0) by now apply nb_ne.
  assert (H0 : forall c, (0 <= hh dl c <= 1)%R) by (intros c; unfold hh; destruct (c =? 0); lra).
  (* one stage: the value it starts from is within 1/9 of the first value *)
  assert (St1 : forall (time : R) y' K, tendency_of S time y' K -> (forall e, 0 <= e < 3 * (X * Y) -> fv y' e k = uu S w e) ->
    (forall c, 0 <= c < X * Y -> (Rabs (fh y' c k - hh dl c) <= 1 / 8)%R) ->
    (forall e, 0 <= e < 3 * (X * Y) -> fv K e k = 0%R) /\ (forall c, 0 <= c < X * Y -> (Rabs (dt * fh K c k) <= 1 / 8)%R) /\ (dt * fh K 0 k <= - (3 / 8 * z))%R).
  { intros time y' K T Hv Hh'. split; [eapply tend_v; eauto|]. pose proof (tend_h S Hok Hdc m Hr Ek Ed w _ _ _ k Hk T Hv) as TH. split.
    - intros c Hc. rewrite TH by exact Hc. pose proof (out_small S Hok Hdc HX HY m Hr (uu S w) w (fun c => fh y' c k) (9 / 8) c (fun e _ => uu_le S w e (Rlt_le _ _ w0)) ltac:(lra) ltac:(lra) Hc) as B.
      assert (Hb : forall c0, 0 <= c0 < X * Y -> (Rabs (fh y' c0 k) <= 9 / 8)%R) by (intros c0 Hc0; specialize (Hh' c0 Hc0); specialize (H0 c0); clear - Hh' H0; split_Rabs; lra).
      specialize (B Hb). rewrite Rabs_mult, Rabs_Ropp, (Rabs_right dt) by lra.
      apply Rle_trans with (dt * (6 * cfl S * w * (9 / 8)))%R; [apply Rmult_le_compat_l; [lra|exact B]|]. replace (dt * (6 * cfl S * w * (9 / 8)))%R with (27 / 4 * z)%R by (unfold z; field). lra.
    - rewrite TH by exact (N0 S HX HY). rewrite (out0 S Hok HX HY m Hr). fold X Y n1.
      pose proof (Hh' 0 (N0 S HX HY)) as B0. pose proof (Hh' n1 NN) as B1. unfold hh in B0, B1. cbn [Z.eqb] in B0. destruct (Z.eqb_spec n1 0); [contradiction|].
      replace (dt * - (cfl S * (w * ((fh y' 0 k + fh y' n1 k) / 2))))%R with (- (z * ((fh y' 0%Z k + fh y' n1 k) / 2)))%R by (unfold z; ring).
      assert (3 / 8 <= (fh y' 0%Z k + fh y' n1 k) / 2)%R by (clear - B0 B1 D0; split_Rabs; lra). assert (z * (3 / 8) <= z * ((fh y' 0%Z k + fh y' n1 k) / 2))%R by (apply Rmult_le_compat_l; lra). lra. }
  assert (Y1 : forall e, 0 <= e < 3 * (X * Y) -> fv y e k = uu S w e) by (intros e He; apply E2).
  assert (Y2 : forall c, fh y c k = hh dl c) by (intros c; apply E1).
  destruct (St1 _ _ _ T1 Y1) as (V1 & W1 & Z1); [intros c Hc; rewrite Y2, Rminus_diag_eq, Rabs_R0 by reflexivity; lra|].
  assert (Next : forall (K : fields RA) (st : Z), (forall e, 0 <= e < 3 * (X * Y) -> fv K e k = 0%R) -> (forall c, 0 <= c < X * Y -> (Rabs (dt * fh K c k) <= 1 / 8)%R) -> (0 <= rk4_a (A:=RA) st <= 1)%R ->
    (forall e, 0 <= e < 3 * (X * Y) -> fv (add (A:=RA) dt (rk4_a st) y K) e k = uu S w e) /\ (forall c, 0 <= c < X * Y -> (Rabs (fh (add (A:=RA) dt (rk4_a st) y K) c k - hh dl c) <= 1 / 8)%R)).
  { intros K st HV1 HW Ha. split.
    - intros e He. change (fv (add (A:=RA) dt (rk4_a st) y K) e k) with (fv y e k + dt * rk4_a (A:=RA) st * fv K e k)%R. rewrite HV1, Y1 by exact He. cbn [F RA]. ring.
    - intros c Hc. change (fh (add (A:=RA) dt (rk4_a st) y K) c k) with (fh y c k + dt * rk4_a (A:=RA) st * fh K c k)%R. rewrite Y2.
      replace (hh dl c + dt * rk4_a (A:=RA) st * fh K c k - hh dl c)%R with (rk4_a (A:=RA) st * (dt * fh K c k))%R by (cbn [F RA]; ring). rewrite Rabs_mult, (Rabs_right (rk4_a (A:=RA) st)) by (cbn [F RA] in *; lra).
      rewrite <- (Rmult_1_l (1 / 8)). apply Rmult_le_compat; try apply Rabs_pos; [apply Ha|apply Ha|now apply HW]. }
  destruct (Next k1 0 V1 W1) as [N1 M1]; [cbn; lra|]. destruct (St1 _ _ _ T2 N1 M1) as (V2 & W2 & Z2).
  destruct (Next k2 1 V2 W2) as [N2 M2]; [cbn; lra|]. destruct (St1 _ _ _ T3 N2 M2) as (V3 & W3 & Z3).
  destruct (Next k3 2 V3 W3) as [N3 M3]; [cbn; lra|]. destruct (St1 _ _ _ T4 N3 M3) as (V4 & W4 & Z4).
  match goal with |- (?g < 0)%R => change g with (fh y 0 k + dt * rk4_b (A:=RA) 0 * fh k1 0 k + dt * rk4_b (A:=RA) 1 * fh k2 0 k + dt * rk4_b (A:=RA) 2 * fh k3 0 k + dt * rk4_b (A:=RA) 3 * fh k4 0 k)%R end.
  change (rk4_b (A:=RA) 0) with (IZR 1 / IZR 6)%R. change (rk4_b (A:=RA) 1) with (IZR 1 / IZR 3)%R. change (rk4_b (A:=RA) 2) with (IZR 1 / IZR 3)%R. change (rk4_b (A:=RA) 3) with (IZR 1 / IZR 6)%R.
  rewrite Y2. unfold hh. cbn [Z.eqb F RA]. unfold dl. cbn [F RA] in *. lra.
Qed.

Lemma C101_euler_stays_positive_proof :
  forall (S : setup RA), setup_ok S -> (0 < (dc (mesh_of_setup S) : R))%R -> 2 <= nx (mesh_of_setup S) -> 2 <= ny (mesh_of_setup S) ->
  hook S = None -> disable_h (par_of S) = false ->
  forall (t dt V a b : R) k, (0 <= dt)%R -> (0 <= V)%R -> (0 < a)%R -> (4 * V * b * dt < (dc (mesh_of_setup S) : R) * a)%R -> 0 <= k < d_nlayers (sdims S) ->
  forall m, ready S m -> (forall c, 0 <= c < d_ncells (sdims S) -> (a <= mr m (HCell St) [c; k] <= b)%R) -> (forall e, 0 <= e < d_nedges (sdims S) -> (Rabs (mr m (VnEdge St) [e; k]) <= V)%R) ->
  always (sdims S) (lsrk_run S 1 [(t, dt)]) m (fun m' => forall c, 0 <= c < d_ncells (sdims S) -> (0 < mr m' (HCell St) [c; k])%R).
Proof.
  intros S Hok Hdc HX HY Ek Ed t dt V a b k Hdt HV Ha HC Hk m Hr Hh Hu. pose proof (cfl0 S Hdc) as C0.
  eapply always_fn; [apply rd_lsrk_run; auto|]. intros M EM c Hc. destruct EM as [_ EM]. rewrite EM. clear EM M.
  change (lsrk_run_fn S 1 [(t, dt)] m) with (lsrk_fn S 1 t dt m).
  destruct (stages_ex S Hok 1 t dt (fld St m) (fld Tend m) ltac:(lia)) as (Yf & Q & K & EY & EQ & G).
  destruct (lsrk_holds S Hok 1 t dt m Yf Q K ltac:(lia) Hr) as (_ & B & _).
  { rewrite EY. apply holds_fld. } { rewrite EQ. apply holds_fld. } { exact G. }
  destruct (G 0 ltac:(lia)) as (T0 & Q0 & Y0). rewrite EY in T0.
  assert (T1 := tend_hu S Hok Hdc m Hr Ek Ed (fun e => mr m (VnEdge St) [e; k]) _ _ _ k Hk T0 (fun e _ => eq_refl) c Hc).
  assert (b0 : (0 <= b)%R) by (pose proof (Hh c Hc); lra).
  pose proof (out_small S Hok Hdc HX HY m Hr (fun e => mr m (VnEdge St) [e; k]) V (fun c => fh (fld St m) c k) b c Hu HV b0 Hc) as B1.
  assert (Hb : forall c', 0 <= c' < nx (mesh_of_setup S) * ny (mesh_of_setup S) -> (Rabs (fh (fld St m) c' k) <= b)%R).
  { intros c' Hc'. pose proof (Hh c' Hc') as P. change (fh (fld St m) c' k) with (mr m (HCell St) [c'; k]). cbn [F RA] in *. rewrite Rabs_right; lra. }
  specialize (B1 Hb).
  destruct (B k Hk) as (B3 & _ & _). rewrite B3 by exact Hc. change (0 + 1) with 1 in *. rewrite Y0, EY. cbn [fmap2 fh]. rewrite Q0. cbn [fmap2 fh]. rewrite lsrk_a0, T1.
  change (lsrk_b (A:=RA) 1 0) with (IZR 1). change (fh (fld St m) c k) with (mr m (HCell St) [c; k]). pose proof (Hh c Hc) as [Hc1 _].
  match type of B1 with (Rabs ?o <= _)%R => set (o1 := o) in * end.
  assert (B2 : (o1 <= 6 * cfl S * V * b)%R) by (clear - B1; split_Rabs; lra). assert (B4 : (dt * o1 <= dt * (6 * cfl S * V * b))%R) by (apply Rmult_le_compat_l; assumption).
  assert (Ec : (6 * cfl S = 4 / (dc (mesh_of_setup S) : R))%R).
  { unfold cfl. rewrite hdve_R, hareac_R. assert (S3 : (0 < sqrt 3)%R) by (apply sqrt_lt_R0; lra). cbn [F RA] in *. field. lra. }
  rewrite Ec in B4. assert (B5 : (dt * (4 / (dc (mesh_of_setup S) : R) * V * b) < a)%R).
  { apply (Rmult_lt_reg_l (dc (mesh_of_setup S) : R)); [exact Hdc|]. replace ((dc (mesh_of_setup S) : R) * (dt * (4 / (dc (mesh_of_setup S) : R) * V * b)))%R with (4 * V * b * dt)%R; [exact HC|]. cbn [F RA] in *. field. lra. }
  cbn [F RA] in *. lra.
Qed.
