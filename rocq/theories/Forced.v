(** Spatially uniform states: their tendency, and what a Runge-Kutta step does to them. *)
From Coq Require Import ZArith Reals List Bool Lia Lra.
From Verif Require Import Arith Arrays Prog Conc Launch Mesh AuxVars Tend Model Hex RSum Spec MeshProof MeshMem MeshR MeshCalc Over Formulas KernBase Terms KernAux KernTend TendFn StepFn Ready Rel RelRun Relate TendVal StepVal StepRun StepThms RealTend SumParts FieldInv ConsBase ConsThms SteadyThms.
Import ListNotations.
Open Scope Z_scope.

(** The hook adds nothing that depends on the position. *)
Definition uniform_forcing (S : setup RA) (ph px py : R -> R) : Prop :=
  match hook S with
  | None => (forall t, ph t = 0) /\ (forall t, px t = 0) /\ (forall t, py t = 0)
  | Some f => forall x y t : R, force_h f x y t = ph t /\ force_vx f x y t = px t /\ force_vy f x y t = py t
  end%R.

Section Forced.
Context (S : setup RA) (Hok : setup_ok S) (Hdc : (0 < (dc (mesh_of_setup S) : R))%R) (N1 : 2 <= nx (mesh_of_setup S)) (N2 : 2 <= ny (mesh_of_setup S)).
Context (Eh : disable_h (par_of S) = false) (Ev : disable_vn (par_of S) = false).
Local Notation P := (par_of S).
Local Notation NL := (d_nlayers (sdims S)).
Local Notation NC := (d_ncells (sdims S)).
Local Notation NE := (d_nedges (sdims S)).
Local Notation f := (f0 P : R).
Context (m : mem RA) (Hr : ready S m).

Definition ustate (H U V : Z -> R) (y : fields RA) : Prop := forall j, 0 <= j < NL ->
  (forall c, 0 <= c < NC -> fh y c j = H j) /\ (forall e, 0 <= e < NE -> fv y e j = uni m (U j) (V j) e).

Lemma ustate_tend (time : R) H U V y k : ustate H U V y -> (f = 0%R \/ forall j, 0 <= j < NL -> H j <> 0%R) ->
  tendency_of S time y k -> forall j, 0 <= j < NL ->
  (forall c, 0 <= c < NC -> fh k c j = hk_h S (time : F RA) m c j (0%R : F RA)) /\
  (forall e, 0 <= e < NE -> fv k e j = hk_v S (time : F RA) m e j (uni m (f * V j) (- (f * U j)) e : F RA)).
Proof.
  intros Uy Hf T j Hj. destruct (tend_of S Hok Hdc m Hr time y k T j Hj) as (A1 & A2 & _).
  pose proof (ymem_ready S m Hr y) as Ry.
  assert (Us : forall i, 0 <= i < NL -> still S m (fun e => fv y e i)).
  { intros i Hi. destruct (Uy i Hi) as [_ Vi]. split; intros x Hx.
    - rewrite (outflow_ext S Hok m Hr _ (uni m (U i) (V i))) by (intros; auto). now apply (uni_outflow S Hok m Hr).
    - rewrite (circ_ext S Hok m Hr _ (uni m (U i) (V i))) by (intros; auto). now apply (uni_circ S Hok m Hr). }
  destruct (Uy j Hj) as [Hc0 Vz].
  assert (Em : forall e, 0 <= e < NE -> emean m (fun c => fh y c j) e = H j).
  { intros e He. unfold emean. rewrite !Hc0 by (apply (wf_coe _ _ (ready_wfm S Hok _ Hr)); lia || assumption). field. }
  split.
  - intros c Hc. rewrite A1 by assumption. rewrite Eh. f_equal.
    rewrite (outflow_ext S Hok m Hr _ (fun e => H j * fv y e j)%R); [| |assumption].
    + rewrite outflow_scal. rewrite (proj1 (Us j Hj)) by assumption. cbn [F RA]. ring.
    + intros e He. now rewrite Em.
  - intros e He. rewrite A2 by assumption. rewrite Ev. f_equal.
    set (n := ymem m y) in *.
    set (q := fun c => mr n (HCell St) [c; j] : R). set (u := fun e => mr n (VnEdge St) [e; j] : R).
    set (u' := fun e => mr n (VnEdge St) [e; rv_layer (cfg_of S) j] : R).
    assert (Su : still S n u) by exact (Us j Hj).
    assert (Su' : still S n u') by exact (Us _ (rv_range S (ok_wfd S Hok) j Hj)).
    assert (Vu : still S n (vlap n u)) by (apply (zero_still S Hok n Ry); intros; now apply (vlap_still S Hok n Ry)).
    assert (Vu' : still S n (vlap n u')) by (apply (zero_still S Hok n Ry); intros; now apply (vlap_still S Hok n Ry)).
    unfold vtend. fold u. fold u'. fold q.
    rewrite (grad_flat S Hok n Ry (kin n u)); [|intros c c' Hc Hc'|assumption].
    2:{ assert (Kz : forall c, 0 <= c < NC -> kin n u c = ((U j * U j + V j * V j) / 2)%R).
        { intros x Hx. rewrite <- (uni_kin S Hok Hdc m Hr (U j) (V j) x Hx).
          change (kin m (fun e => fv y e j) x = kin m (uni m (U j) (V j)) x). apply (kin_ext S Hok m Hr); [|assumption]. intros; auto. }
        now rewrite !Kz. }
    rewrite (grad_flat S Hok n Ry q); [|intros c c' Hc Hc'; change (fh y c j = fh y c' j); now rewrite !Hc0|assumption].
    rewrite (vlap_still S Hok n Ry u) by assumption.
    rewrite (vlap'_still S Hok n Ry (vlap n u) (vlap n u') e (proj1 Vu) (proj2 Vu') He).
    assert (Pe : forall e, 0 <= e < NE -> (H j * pvedge n f q u e)%R = f).
    { intros e' He'. unfold pvedge, pvort, vort.
      rewrite !(proj2 Su) by (apply (wf_voe _ _ (ready_wfm S Hok _ Ry)); lia || assumption).
      assert (Hv0 : forall v, 0 <= v < d_nvertices (sdims S) -> hvert n q v = H j).
      { intros v Hv. unfold hvert. pose proof (ready_hex S Hok n Ry) as Hh.
        rewrite (rsum_ext _ _ (fun _ => hkite (mesh_of_setup S) * H j)%R).
        2:{ intros i Hi. rewrite (hm_kite _ _ _ Hh) by assumption. f_equal. apply Hc0. now apply (wf_cov _ _ (ready_wfm S Hok _ Ry)). }
        rewrite (hm_atri _ _ _ Hh), rsum_small3, hkite_R, hatri_R by assumption.
        pose proof sqrt3_pos. cbn [F RA] in *. field. split; lra. }
      rewrite !Hv0 by (apply (wf_voe _ _ (ready_wfm S Hok _ Ry)); lia || assumption).
      destruct Hf as [->|Hf]; [unfold Rdiv; ring|]. specialize (Hf j Hj).
      assert (Z0 : forall x : R, (0 / x = 0)%R) by (intros; unfold Rdiv; ring). rewrite !Z0. field. exact Hf. }
    assert (Pf : pvflux n f q u e = uni m (f * V j) (- (f * U j)) e).
    { unfold pvflux. rewrite (rsum_ext _ _ (fun i => f * (mr m WeightsOnEdge [e; i] * uni m (U j) (V j) (mi m EdgesOnEdge [e; i])))%R).
      2:{ intros i Hi. cbv zeta. set (e' := mi n EdgesOnEdge [e; i]).
          assert (He' : 0 <= e' < NE) by (apply (wf_eoe _ _ (ready_wfm S Hok _ Ry)); assumption).
          change (mi m EdgesOnEdge [e; i]) with e'. change (mr m WeightsOnEdge [e; i]) with (mr n WeightsOnEdge [e; i]).
          rewrite <- Vz by assumption. change (fv y e' j) with (u e').
          change (emean n q e') with (emean m (fun c => fh y c j) e'). rewrite Em by assumption.
          transitivity (mr n WeightsOnEdge [e; i] * u e' * ((H j * pvedge n f q u e + H j * pvedge n f q u e') / 2))%R.
          - cbn [F RA]. field.
          - rewrite !Pe by assumption. cbn [F RA]. field. }
      rewrite rsum_scal.
      pose proof (uniform_reconstruction (cfg_of S) (mesh_of_setup S) (ntracers P) (proj1 Hok) m (ready_hex S Hok m Hr) e (U j) (V j) He) as Q. cbv zeta in Q.
      change (mi n NedgesOnEdge [e]) with (mi m NedgesOnEdge [e]). unfold uni in *. rewrite Q. ring. }
    rewrite Pf. destruct (vel_diff_enabled P), (vel_hyperdiff_enabled P); cbn [F RA]; ring.
Qed.

Context (ph px py : R -> R) (Hf : uniform_forcing S ph px py).
Lemma ustate_forced (time : R) H U V y k : ustate H U V y -> (f = 0%R \/ forall j, 0 <= j < NL -> H j <> 0%R) ->
  tendency_of S time y k ->
  ustate (fun _ => ph time) (fun j => f * V j + px time)%R (fun j => - (f * U j) + py time)%R k.
Proof.
  intros Uy Hz T j Hj. destruct (ustate_tend time H U V y k Uy Hz T j Hj) as [A1 A2].
  unfold uniform_forcing in Hf. split.
  - intros c Hc. rewrite A1 by assumption. unfold hk_h, hook_h. destruct (hook S) as [g|].
    + rewrite (proj1 (Hf _ _ _)). cbn [fadd RA]. apply Rplus_0_l.
    + symmetry. apply Hf.
  - intros e He. rewrite A2 by assumption. unfold hk_v, hook_v, uni. destruct (hook S) as [g|].
    + rewrite (proj1 (proj2 (Hf _ _ _))), (proj2 (proj2 (Hf _ _ _))). cbn [fadd fmul fcos fsin RA]. apply Rminus_diag_uniq. ring.
    + rewrite (proj1 (proj2 Hf)), (proj2 (proj2 Hf)). apply Rminus_diag_uniq. ring.
Qed.
Lemma ustate_add b H U V A B C y k : ustate H U V y -> ustate A B C k ->
  ustate (fun j => H j + b * A j)%R (fun j => U j + b * B j)%R (fun j => V j + b * C j)%R (fmap2 (A:=RA) (fun u w => u + b * w)%R y k).
Proof.
  intros Uy Uk j Hj. destruct (Uy j Hj) as [Y1 Y2]. destruct (Uk j Hj) as [K1 K2]. split; intros; cbn [fmap2 fh fv].
  - rewrite Y1, K1 by assumption. reflexivity.
  - rewrite Y2, K2 by assumption. unfold uni. cbn [F RA]. ring.
Qed.
(** The classical Runge-Kutta step of H' = ph, U' = f V + px, V' = - f U + py. *)
Definition ode (time H U V : R) : R * R * R := (ph time, f * V + px time, - (f * U) + py time)%R.
Definition rk3 (t dt : R) (x : R * R * R) : R * R * R :=
  (let '(H, U, V) := x in
   let '(h1, u1, v1) := ode t H U V in
   let '(h2, u2, v2) := ode (t + dt / 2) (H + dt / 2 * h1) (U + dt / 2 * u1) (V + dt / 2 * v1) in
   let '(h3, u3, v3) := ode (t + dt / 2) (H + dt / 2 * h2) (U + dt / 2 * u2) (V + dt / 2 * v2) in
   let '(h4, u4, v4) := ode (t + dt) (H + dt * h3) (U + dt * u3) (V + dt * v3) in
   (H + dt / 6 * (h1 + 2 * h2 + 2 * h3 + h4), U + dt / 6 * (u1 + 2 * u2 + 2 * u3 + u4), V + dt / 6 * (v1 + 2 * v2 + 2 * v3 + v4)))%R.
Lemma ustate_rk4 (t dt : R) H U V y : holds S St m y -> ustate H U V y ->
  (f = 0%R \/ ((forall t, ph t = 0%R) /\ forall j, 0 <= j < NL -> H j <> 0%R)) ->
  always (sdims S) (rk4_step S t dt) m (fun m' => exists y', holds S St m' y' /\
    ustate (fun j => fst (fst (rk3 t dt (H j, U j, V j)))) (fun j => snd (fst (rk3 t dt (H j, U j, V j)))) (fun j => snd (rk3 t dt (H j, U j, V j))) y').
Proof.
  intros Hy Uy Hz.
  assert (Z0 : f = 0%R \/ forall j, 0 <= j < NL -> H j <> 0%R) by (destruct Hz as [Hz|[_ Hz]]; auto).
  destruct (tendency_ex S Hok t y) as [k1 T1].
  pose proof (ustate_forced t H U V y k1 Uy Z0 T1) as U1.
  pose proof (ustate_add (dt / 2)%R _ _ _ _ _ _ _ _ Uy U1) as Y1. cbv beta in Y1.
  destruct (tendency_ex S Hok (t + dt / 2)%R (fmap2 (A:=RA) (fun u w => u + dt / 2 * w)%R y k1)) as [k2 T2].
  pose proof (ustate_forced _ _ _ _ _ k2 Y1 ltac:(destruct Hz as [Hz|[Q Hz]]; [auto|right; intros; rewrite Q, Rmult_0_r, Rplus_0_r; auto]) T2) as U2.
  pose proof (ustate_add (dt / 2)%R _ _ _ _ _ _ _ _ Uy U2) as Y2. cbv beta in Y2.
  destruct (tendency_ex S Hok (t + dt / 2)%R (fmap2 (A:=RA) (fun u w => u + dt / 2 * w)%R y k2)) as [k3 T3].
  pose proof (ustate_forced _ _ _ _ _ k3 Y2 ltac:(destruct Hz as [Hz|[Q Hz]]; [auto|right; intros; rewrite Q, Rmult_0_r, Rplus_0_r; auto]) T3) as U3.
  pose proof (ustate_add dt _ _ _ _ _ _ _ _ Uy U3) as Y3. cbv beta in Y3.
  destruct (tendency_ex S Hok (t + dt)%R (fmap2 (A:=RA) (fun u w => u + dt * w)%R y k3)) as [k4 T4].
  pose proof (ustate_forced _ _ _ _ _ k4 Y3 ltac:(destruct Hz as [Hz|[Q Hz]]; [auto|right; intros; rewrite Q, Rmult_0_r, Rplus_0_r; auto]) T4) as U4.
  assert (Dz : disabled_zero S Tend m) by (intros k Hk; split; intros; congruence).
  assert (Un : disable_h P = true \/ disable_vn P = true -> hook S = None) by (intros [Q|Q]; congruence).
  pose proof (C39_rk4_is_classical_proof S Hok Un t dt m y k1 k2 k3 k4 Hr Hy Dz T1 T2 T3 T4) as [G1 G2].
  split; [|exact G2]. intros o X. destruct (G1 o X) as (M & EM & HM). exists M. split; [exact EM|].
  eexists. split; [exact HM|]. intros j Hj. cbn [fh fv].
  destruct (Uy j Hj) as [A0 B0]. destruct (U1 j Hj) as [A1 B1]. destruct (U2 j Hj) as [A2 B2]. destruct (U3 j Hj) as [A3 B3]. destruct (U4 j Hj) as [A4 B4].
  split.
  - intros c Hc. rewrite A0, A1, A2, A3, A4 by assumption. unfold rk3, ode. cbn [fst snd]. reflexivity.
  - intros e He. rewrite B0, B1, B2, B3, B4 by assumption. unfold rk3, ode. cbn [fst snd]. unfold uni. apply Rminus_diag_uniq. ring.
Qed.
End Forced.

(** A fluid at rest whose thickness is forced and, for lack of gravity, does not move. *)
Section Rest.
Context (S : setup RA) (Hok : setup_ok S) (Hdc : (0 < (dc (mesh_of_setup S) : R))%R).
Context (Eh : disable_h (par_of S) = false) (Ev : disable_vn (par_of S) = false).
Local Notation P := (par_of S).
Local Notation NL := (d_nlayers (sdims S)).
Local Notation NC := (d_ncells (sdims S)).
Local Notation NE := (d_nedges (sdims S)).
Context (m : mem RA) (Hr : ready S m) (g : forcing RA) (Hg : hook S = Some g) (G0 : grav P = 0%R)
  (V0 : forall x y t : R, force_vx g x y t = 0%R /\ force_vy g x y t = 0%R).
Local Notation fx c t := (force_h g (mr m XCell [c]) (mr m YCell [c]) t : R).
Definition atrest (y : fields RA) : Prop := forall j, 0 <= j < NL -> forall e, 0 <= e < NE -> fv y e j = 0%R.
Lemma rest_tend (time : R) y k : atrest y -> tendency_of S time y k ->
  atrest k /\ forall j, 0 <= j < NL -> forall c, 0 <= c < NC -> fh k c j = fx c time.
Proof.
  intros Uy T. split; intros j Hj i Hi; destruct (tend_of S Hok Hdc m Hr time y k T j Hj) as (A1 & A2 & _).
  - rewrite A2 by assumption. rewrite Ev. unfold hk_v, hook_v. rewrite Hg, (proj1 (V0 _ _ _)), (proj2 (V0 _ _ _)).
    pose proof (ymem_ready S m Hr y) as Ry. set (n := ymem m y) in *.
    set (q := fun c => mr n (HCell St) [c; j] : R). set (u := fun e => mr n (VnEdge St) [e; j] : R).
    set (u' := fun e => mr n (VnEdge St) [e; rv_layer (cfg_of S) j] : R).
    assert (Zu : forall e, 0 <= e < NE -> u e = 0%R) by (intros; now apply (Uy j)).
    assert (Su : still S n u) by now apply (zero_still S Hok n Ry).
    assert (Su' : still S n u').
    { apply (zero_still S Hok n Ry). intros e He. apply (Uy (rv_layer (cfg_of S) j)); [|exact He]. now apply (rv_range S (ok_wfd S Hok)). }
    assert (Vu : still S n (vlap n u)) by (apply (zero_still S Hok n Ry); intros; now apply (vlap_still S Hok n Ry)).
    assert (Vu' : still S n (vlap n u')) by (apply (zero_still S Hok n Ry); intros; now apply (vlap_still S Hok n Ry)).
    unfold vtend. fold u. fold u'. fold q. rewrite G0.
    rewrite (grad_flat S Hok n Ry (kin n u)); [|intros c c' Hc Hc'|assumption].
    2:{ assert (Kz : forall c, 0 <= c < NC -> kin n u c = 0%R); [|now rewrite !Kz].
        intros x Hx. unfold kin. rewrite rsum_zero; [unfold Rdiv; ring|]. intros i' Hi'. cbv zeta. rewrite Zu; [ring|].
        apply (wf_eoc _ _ (ready_wfm S Hok _ Ry)); [exact Hx|]. rewrite (hm_noc _ _ _ (ready_hex S Hok n Ry)) in Hi' by exact Hx. exact Hi'. }
    rewrite (vlap_still S Hok n Ry u) by assumption.
    rewrite (vlap'_still S Hok n Ry (vlap n u) (vlap n u') i (proj1 Vu) (proj2 Vu') Hi).
    assert (Pf : pvflux n (f0 P) q u i = 0%R).
    { unfold pvflux. apply rsum_zero. intros i' Hi'. cbv zeta. rewrite Zu; [ring|]. apply (wf_eoe _ _ (ready_wfm S Hok _ Ry)); assumption. }
    rewrite Pf. destruct (vel_diff_enabled P), (vel_hyperdiff_enabled P); cbn [fadd fmul RA]; apply Rminus_diag_uniq; ring.
  - rewrite A1 by assumption. rewrite Eh. unfold hk_h, hook_h. rewrite Hg. cbn [fadd RA].
    rewrite (outflow_zero S Hok m Hr) by (assumption || (intros; cbv beta; rewrite (Uy j) by assumption; ring)). apply Rminus_diag_uniq. ring.
Qed.
Lemma rest_add b y k : atrest y -> atrest k -> atrest (fmap2 (A:=RA) (fun u w => u + b * w)%R y k).
Proof. intros Y K j Hj e He. cbn [fmap2 fv]. rewrite Y, K by assumption. apply Rminus_diag_uniq. cbn [F RA]. ring. Qed.
Lemma rest_rk4 (t dt : R) y : holds S St m y -> atrest y ->
  always (sdims S) (rk4_step S t dt) m (fun m' => exists y', holds S St m' y' /\ atrest y' /\ forall j, 0 <= j < NL -> forall c, 0 <= c < NC ->
    fh y' c j = (fh y c j + dt / 6 * (fx c t + 4 * fx c (t + dt / 2) + fx c (t + dt)))%R).
Proof.
  intros Hy Uy.
  destruct (tendency_ex S Hok t y) as [k1 T1]. destruct (rest_tend _ _ _ Uy T1) as [R1 F1].
  destruct (tendency_ex S Hok (t + dt / 2)%R (fmap2 (A:=RA) (fun u w => u + dt / 2 * w)%R y k1)) as [k2 T2].
  destruct (rest_tend _ _ _ (rest_add _ _ _ Uy R1) T2) as [R2 F2].
  destruct (tendency_ex S Hok (t + dt / 2)%R (fmap2 (A:=RA) (fun u w => u + dt / 2 * w)%R y k2)) as [k3 T3].
  destruct (rest_tend _ _ _ (rest_add _ _ _ Uy R2) T3) as [R3 F3].
  destruct (tendency_ex S Hok (t + dt)%R (fmap2 (A:=RA) (fun u w => u + dt * w)%R y k3)) as [k4 T4].
  destruct (rest_tend _ _ _ (rest_add _ _ _ Uy R3) T4) as [R4 F4].
  assert (Dz : disabled_zero S Tend m) by (intros k Hk; split; intros; congruence).
  assert (Un : disable_h P = true \/ disable_vn P = true -> hook S = None) by (intros [Q|Q]; congruence).
  pose proof (C39_rk4_is_classical_proof S Hok Un t dt m y k1 k2 k3 k4 Hr Hy Dz T1 T2 T3 T4) as [G1 G2].
  split; [|exact G2]. intros o X. destruct (G1 o X) as (M & EM & HM). exists M. split; [exact EM|].
  eexists. split; [exact HM|]. split.
  - intros j Hj e He. cbn [fv]. rewrite Uy, R1, R2, R3, R4 by assumption. apply Rminus_diag_uniq. ring.
  - intros j Hj c Hc. cbn [fh]. rewrite F1, F2, F3, F4 by assumption. apply Rminus_diag_uniq. cbn [F RA]. field.
Qed.
End Rest.
