(** Derivatives of the model with respect to a parameter of the state, around the fluid at rest. *)
From Coq Require Import ZArith Reals List Bool Lia Lra FunctionalExtensionality.
From Verif Require Import Arith Arrays Prog Conc Launch Mesh AuxVars Tend Model Hex HexComb RSum Spec MeshProof MeshMem MeshFacts MeshR MeshCalc Over Formulas KernBase Terms KernAux KernTend TendFn StepFn Ready Rel RelRun Relate TendVal StepVal StepRun Tableau StepThms RealTend SumParts Vort FieldInv Driver DriverFn Diffuse LinStep LinSpec.
Import ListNotations.
Open Scope Z_scope.

(** [f] has the value [a] and the derivative [b] at 0. *)
Definition T1 (f : R -> R) (a b : R) : Prop := f 0%R = a /\ derivable_pt_lim f 0 b.

Section T1.
Open Scope R_scope.
Lemma T1_ext f g a b : (forall x, f x = g x) -> T1 f a b -> T1 g a b.
Proof. intros E. replace g with f; [auto|]. now apply functional_extensionality. Qed.
Lemma T1_eq f a b a' b' : T1 f a b -> a = a' -> b = b' -> T1 f a' b'.
Proof. now intros H -> ->. Qed.
Lemma T1_const a : T1 (fun _ => a) a 0.
Proof. split; [reflexivity|apply derivable_pt_lim_const]. Qed.
Lemma T1_plus f g a b a' b' : T1 f a b -> T1 g a' b' -> T1 (fun x => f x + g x) (a + a') (b + b').
Proof. intros [E D] [E' D']. split; [now rewrite E, E'|now apply derivable_pt_lim_plus]. Qed.
Lemma T1_opp f a b : T1 f a b -> T1 (fun x => - f x) (- a) (- b).
Proof. intros [E D]. split; [now rewrite E|now apply derivable_pt_lim_opp]. Qed.
Lemma T1_minus f g a b a' b' : T1 f a b -> T1 g a' b' -> T1 (fun x => f x - g x) (a - a') (b - b').
Proof. intros [E D] [E' D']. split; [now rewrite E, E'|now apply derivable_pt_lim_minus]. Qed.
Lemma T1_mult f g a b a' b' : T1 f a b -> T1 g a' b' -> T1 (fun x => f x * g x) (a * a') (b * a' + a * b').
Proof. intros [E D] [E' D']. split; [now rewrite E, E'|]. rewrite <- E, <- E'. now apply derivable_pt_lim_mult. Qed.
Lemma T1_scal r f a b : T1 f a b -> T1 (fun x => r * f x) (r * a) (r * b).
Proof. intros [E D]. split; [now rewrite E|]. exact (derivable_pt_lim_scal f r 0 b D). Qed.
Lemma T1_scal_r r f a b : T1 f a b -> T1 (fun x => f x * r) (a * r) (b * r).
Proof. intros H. eapply T1_eq; [eapply T1_ext; [|exact (T1_scal r f a b H)]; intros; cbn beta; ring| |]; ring. Qed.
Lemma T1_divc r f a b : T1 f a b -> T1 (fun x => f x / r) (a / r) (b / r).
Proof. exact (T1_scal_r (/ r) f a b). Qed.
Lemma T1_div f g a b a' b' : T1 f a b -> T1 g a' b' -> a' <> 0 -> exists d, T1 (fun x => f x / g x) (a / a') d.
Proof.
  intros [E D] [E' D'] H. eexists. split; [now rewrite E, E'|]. apply (derivable_pt_lim_div f g 0 b b'); [exact D|exact D'|now rewrite E'].
Qed.
Lemma T1_rsum n (f : R -> Z -> R) a b : (forall i, (0 <= i < n)%Z -> T1 (fun x => f x i) (a i) (b i)) -> T1 (fun x => rsum n (f x)) (rsum n a) (rsum n b).
Proof.
  unfold rsum. intros H. assert (G : forall i, In i (zseq n) -> T1 (fun x => f x i) (a i) (b i)) by (intros i Hi; apply H; now apply in_zseq).
  clear H. induction (zseq n) as [|i l IH]; [apply T1_const|]. cbn [Rsum fold_right map]. apply T1_plus; [apply G; now left|apply IH; intros; apply G; now right].
Qed.
End T1.

Section Tangent.
Context (S : setup RA) (Hok : setup_ok S) (Hdc : (0 < (dc (mesh_of_setup S) : R))%R) (m : mem RA) (Hr : ready S m).
Local Notation cf := (cfg_of S).
Local Notation P := (par_of S).
Local Notation h := (mesh_of_setup S).
Local Notation D := (sdims S).
Local Notation NC := (nx h * ny h).
Local Notation NL := (d_nlayers D).
Let Hh : hexmem h NL m := ready_hex S Hok m Hr.
Let Hw : wfm D m := ready_wfm S Hok m Hr.

(** Families of cell, edge and vertex fields. *)
Definition famc (q : R -> Z -> R) (a b : Z -> R) := forall c, 0 <= c < NC -> T1 (fun x => q x c) (a c) (b c).
Definition fame (q : R -> Z -> R) (a b : Z -> R) := forall e, 0 <= e < 3 * NC -> T1 (fun x => q x e) (a e) (b e).
Definition famv (q : R -> Z -> R) (a b : Z -> R) := forall v, 0 <= v < 2 * NC -> T1 (fun x => q x v) (a v) (b v).

Lemma f_grad q a b : famc q a b -> fame (fun x => grad m (q x)) (grad m a) (grad m b).
Proof. intros H e He. unfold grad. apply T1_divc. apply T1_minus; apply H; apply (wf_coe _ _ Hw); assumption || lia. Qed.
Lemma f_rgrad q a b : famv q a b -> fame (fun x => rgrad m (q x)) (rgrad m a) (rgrad m b).
Proof. intros H e He. unfold rgrad. apply T1_divc. apply T1_minus; apply H; apply (wf_voe _ _ Hw); assumption || lia. Qed.
Lemma f_emean q a b : famc q a b -> fame (fun x => emean m (q x)) (emean m a) (emean m b).
Proof. intros H e He. unfold emean. apply T1_divc. apply T1_plus; apply H; apply (wf_coe _ _ Hw); assumption || lia. Qed.
Lemma f_outflow q a b : fame q a b -> famc (fun x => outflow m (q x)) (outflow m a) (outflow m b).
Proof.
  intros H c Hc. unfold outflow. apply T1_divc. rewrite (hm_noc _ _ _ Hh) by assumption. apply T1_rsum. intros i Hi. cbv zeta.
  apply T1_scal. apply H. now apply (wf_eoc _ _ Hw).
Qed.
Lemma f_vort q a b : fame q a b -> famv (fun x => vort m (q x)) (vort m a) (vort m b).
Proof.
  intros H v Hv. unfold vort, circ. apply T1_divc. apply T1_rsum. intros i Hi. cbv zeta. apply T1_scal. apply H. now apply (wf_eov _ _ Hw).
Qed.
Lemma f_hvert q a b : famc q a b -> famv (fun x => hvert m (q x)) (hvert m a) (hvert m b).
Proof.
  intros H v Hv. unfold hvert. apply T1_divc. apply T1_rsum. intros i Hi. cbv zeta. apply T1_scal. apply H. now apply (wf_cov _ _ Hw).
Qed.
Lemma f_vlap' q a b q' a' b' : fame q a b -> fame q' a' b' -> fame (fun x => vlap' m (q x) (q' x)) (vlap' m a a') (vlap' m b b').
Proof.
  intros H H' e He. unfold vlap'. apply T1_minus.
  - apply (f_grad _ _ _ (f_outflow _ _ _ H)); assumption.
  - apply (f_rgrad _ _ _ (f_vort _ _ _ H')); assumption.
Qed.
Lemma f_vlap q a b : fame q a b -> fame (fun x => vlap m (q x)) (vlap m a) (vlap m b).
Proof. intros H. exact (f_vlap' q a b q a b H H). Qed.

Lemma vlap'_zero a a' e : (forall e, 0 <= e < 3 * NC -> a e = 0%R) -> (forall e, 0 <= e < 3 * NC -> a' e = 0%R) -> 0 <= e < 3 * NC -> vlap' m a a' e = 0%R.
Proof.
  intros E E' He. unfold vlap'. rewrite (grad_ext S Hok m Hr _ (fun _ => 0%R)), (rgrad_ext S Hok m Hr _ (fun _ => 0%R)); auto.
  - unfold grad, rgrad, Rdiv. cbn [F RA]. ring.
  - intros v Hv. rewrite (vort_ext S Hok m Hr _ (fun _ => 0%R)) by assumption. unfold vort, circ. rewrite rsum_zero; [unfold Rdiv; ring|]. intros; cbv zeta; ring.
  - intros c Hc. rewrite (outflow_ext S Hok m Hr _ (fun _ => 0%R)) by assumption. unfold outflow. rewrite rsum_zero; [unfold Rdiv; ring|]. intros; cbv zeta; ring.
Qed.
Section Layer.
Context (H : R) (H0 : (H <> 0)%R) (q u : R -> Z -> R) (w v : Z -> R) (Hq : famc q (fun _ => H) w) (Hu : fame u (fun _ => 0%R) v).
Lemma f_kin : famc (fun x => kin m (u x)) (fun _ => 0%R) (fun _ => 0%R).
Proof.
  intros c Hc. unfold kin. rewrite (hm_noc _ _ _ Hh) by assumption.
  eapply T1_eq; [apply T1_divc, T1_divc, (T1_rsum _ _ (fun _ => 0%R) (fun _ => 0%R))| |].
  - intros i Hi. cbv zeta. pose proof (Hu _ (wf_eoc _ _ Hw c i Hc Hi)) as E. eapply T1_eq; [apply T1_scal, T1_mult; exact E| |]; ring.
  - rewrite rsum_zero by auto. unfold Rdiv. ring.
  - rewrite rsum_zero by auto. unfold Rdiv. ring.
Qed.
Lemma f_pvort f i : 0 <= i < 2 * NC -> exists d, T1 (fun x => pvort m f (q x) (u x) i) (f / H)%R d.
Proof.
  intros C. destruct (T1_div (fun x => vort m (u x) i + f)%R (fun x => hvert m (q x) i) (0 + f) (vort m v i + 0) H (hvert m w i)) as [d E].
  - apply T1_plus; [|apply T1_const]. eapply T1_eq; [apply (f_vort _ _ _ Hu); exact C| |reflexivity].
    unfold vort, circ. rewrite rsum_zero; [unfold Rdiv; ring|]. intros; cbv zeta; ring.
  - eapply T1_eq; [apply (f_hvert _ _ _ Hq); exact C| |reflexivity]. apply (hvert_flat S Hok Hdc m Hr _ H i); auto.
  - exact H0.
  - exists d. unfold pvort. eapply T1_eq; [exact E| |reflexivity]. rewrite Rplus_0_l. reflexivity.
Qed.
Lemma f_pvedge f e : 0 <= e < 3 * NC -> exists d, T1 (fun x => pvedge m f (q x) (u x) e) (f / H)%R d.
Proof.
  intros He. destruct (f_pvort f (mi m VerticesOnEdge [e; 0])) as [d E]; [apply (wf_voe _ _ Hw); assumption || lia|].
  destruct (f_pvort f (mi m VerticesOnEdge [e; 1])) as [d' E']; [apply (wf_voe _ _ Hw); assumption || lia|].
  eexists. unfold pvedge. eapply T1_eq; [apply T1_divc, T1_plus; [exact E|exact E']|field; exact H0|reflexivity].
Qed.
Lemma f_pvflux f : fame (fun x => pvflux m f (q x) (u x)) (fun _ => 0%R) (fun e => f * recon m v e)%R.
Proof.
  intros e He. unfold pvflux.
  eapply T1_eq; [apply (T1_rsum _ _ (fun _ => 0%R) (fun j => f * (mr m WeightsOnEdge [e; j] * v (mi m EdgesOnEdge [e; j])))%R)| |].
  - intros j Hj. cbv zeta. pose proof (wf_eoe _ _ Hw e j He Hj) as He'. set (e' := mi m EdgesOnEdge [e; j]) in *.
    destruct (f_pvedge f e He) as [d E]. destruct (f_pvedge f e' He') as [d' E'].
    eapply T1_eq; [apply T1_scal, T1_mult; [apply T1_mult; [apply (f_emean _ _ _ Hq e' He')|exact (Hu e' He')]|apply T1_divc, T1_plus; [exact E|exact E']]| |].
    + cbn beta. ring.
    + cbn beta. unfold emean. cbn [F RA]. field. exact H0.
  - now rewrite rsum_zero.
  - unfold recon. now rewrite <- rsum_scal.
Qed.
Lemma f_massflux : famc (fun x => outflow m (fun e => emean m (q x) e * u x e))%R (fun _ => 0%R) (fun c => H * outflow m v c)%R.
Proof.
  intros c Hc. assert (E : fame (fun x e => emean m (q x) e * u x e)%R (fun _ => 0%R) (fun e => H * v e)%R).
  { intros e He. eapply T1_eq; [apply T1_mult; [exact (f_emean _ _ _ Hq e He)|exact (Hu e He)]|ring|]. unfold emean. field. }
  eapply T1_eq; [exact (f_outflow _ _ _ E c Hc)| |].
  - unfold outflow. rewrite rsum_zero; [unfold Rdiv; ring|]. intros; cbv zeta; ring.
  - unfold outflow, Rdiv. rewrite <- rsum_scal_r. rewrite <- !rsum_scal_r. rewrite <- rsum_scal. apply rsum_ext. intros; cbv zeta; cbn [F RA]; ring.
Qed.
End Layer.

(** Memories with the same mesh. *)
Section Same.
Context (m1 : mem RA) (Hs : cst m m1).
Lemma s_i a ix : mi m1 a ix = mi m a ix.
Proof. assert (E : mget m1 (LI a ix) = mget m (LI a ix)) by now apply Hs. cbn in E. congruence. Qed.
Lemma s_r a ix : const_loc (LR a ix) = true -> mr m1 a ix = mr m a ix.
Proof. intros Ha. assert (E : mget m1 (LR a ix) = mget m (LR a ix)) by now apply Hs. cbn in E. congruence. Qed.
Ltac sm := repeat (rewrite s_i || rewrite s_r by reflexivity).
Ltac fx := let x := fresh in apply functional_extensionality; intros x.
Lemma s_grad : grad m1 = grad m. Proof. fx. fx. unfold grad. now sm. Qed.
Lemma s_rgrad : rgrad m1 = rgrad m. Proof. fx. fx. unfold rgrad. now sm. Qed.
Lemma s_emean : emean m1 = emean m. Proof. fx. fx. unfold emean. now sm. Qed.
Lemma s_outflow : outflow m1 = outflow m. Proof. fx. fx. unfold outflow. sm. f_equal. f_equal. fx. now sm. Qed.
Lemma s_vort : vort m1 = vort m. Proof. fx. fx. unfold vort, circ. sm. f_equal. f_equal. fx. now sm. Qed.
Lemma s_hvert : hvert m1 = hvert m. Proof. fx. fx. unfold hvert. sm. f_equal. f_equal. fx. now sm. Qed.
Lemma s_kin : kin m1 = kin m. Proof. fx. fx. unfold kin. sm. do 2 f_equal. f_equal. fx. now sm. Qed.
Lemma s_pvedge : pvedge m1 = pvedge m. Proof. do 4 fx. unfold pvedge, pvort. rewrite s_vort, s_hvert. now sm. Qed.
Lemma s_pvflux : pvflux m1 = pvflux m. Proof. do 4 fx. unfold pvflux. rewrite s_pvedge, s_emean. sm. f_equal. fx. now sm. Qed.
Lemma s_vlap' : vlap' m1 = vlap' m. Proof. do 3 fx. unfold vlap'. now rewrite s_grad, s_rgrad, s_outflow, s_vort. Qed.
Lemma s_vlap : vlap m1 = vlap m. Proof. do 2 fx. unfold vlap. now rewrite s_grad, s_rgrad, s_outflow, s_vort. Qed.
End Same.

Context (H : Z -> R) (H0 : forall k, 0 <= k < NL -> (H k <> 0)%R) (Hf : hook S = None) (Dh : disable_h P = false) (Dv : disable_vn P = false).
Local Notation V := (valid_place S).
(** The state [s] of the memories [M] has the values [b] and the derivatives [w]. *)
Definition tan (s : sid) (M : R -> mem RA) (b w : place -> R) : Prop := forall p, V p -> T1 (fun x => value_at s (M x) p) (b p) (w p).
Definition fam (M : R -> mem RA) : Prop := forall x, ready S (M x) /\ cst m (M x).
Local Notation L := (linear_swe S m H).

Lemma tan_eq s M b w b' w' : tan s M b w -> (forall p, V p -> b p = b' p) -> (forall p, V p -> w p = w' p) -> tan s M b' w'.
Proof. intros T E1 E2 p Hp. eapply T1_eq; [exact (T p Hp)|auto|auto]. Qed.
Lemma tan_other s M M' b w : (forall x a ix, is_st s a = true -> mr (M' x) a ix = mr (M x) a ix) -> tan s M b w -> tan s M' b w.
Proof.
  intros E T p Hp. eapply T1_ext; [|exact (T p Hp)]. intros x. symmetry.
  assert (Q : (if sid_eq_dec s s then true else false) = true) by (destruct (sid_eq_dec s s); congruence).
  destruct p; cbn [value_at]; apply E; exact Q.
Qed.
Lemma tan_axpy d s M dt r b w b' w' : tan s M b w -> tan Tend M b' w' ->
  tan d (fun x => axpy S d s dt r (M x)) (fun p => b p + dt * r * b' p)%R (fun p => w p + dt * r * w' p)%R.
Proof.
  intros T T' p Hp.
  apply T1_ext with (f := fun x => (value_at s (M x) p + dt * r * value_at Tend (M x) p)%R).
  - intros x. pose proof (holds_axpy S d s dt r (M x) _ _ (holds_fld S s (M x)) (holds_fld S Tend (M x))) as Q.
    destruct p as [c k|e k]; destruct Hp as [Hc Hk]; destruct (Q k Hk) as (Q1 & Q2 & _); cbn [value_at]; [rewrite Q1 by exact Hc|rewrite Q2 by exact Hc]; reflexivity.
  - apply T1_plus; [exact (T p Hp)|]. apply T1_scal. exact (T' p Hp).
Qed.
Lemma tan_scale M r b w : tan Tend M b w -> tan Tend (fun x => scale_fn S r (M x)) (fun p => b p * r)%R (fun p => w p * r)%R.
Proof.
  intros T p Hp.
  apply T1_ext with (f := fun x => (value_at Tend (M x) p * r)%R).
  - intros x. pose proof (holds_scale S r (M x) _ (holds_fld S Tend (M x))) as Q.
    destruct p as [c k|e k]; destruct Hp as [Hc Hk]; destruct (Q k Hk) as (Q1 & Q2 & _); cbn [value_at]; [rewrite Q1 by exact Hc|rewrite Q2 by exact Hc]; reflexivity.
  - apply T1_scal_r. exact (T p Hp).
Qed.
Lemma tan_save M b w : tan St M b w -> tan Old (fun x => save_fn S (M x)) b w.
Proof.
  intros T p Hp. eapply T1_ext; [|exact (T p Hp)]. intros x. pose proof (holds_save S (M x) _ (holds_fld S St (M x))) as Q.
  destruct p as [c k|e k]; destruct Hp as [Hc Hk]; destruct (Q k Hk) as (Q1 & Q2 & _); cbn [value_at]; [rewrite Q1 by exact Hc|rewrite Q2 by exact Hc]; reflexivity.
Qed.

Lemma tan_tend s M time md b w b' w' : s <> Tend -> fam M -> tan s M (at_rest H) w -> 
  (forall p, V p -> T1 (fun x => zr (A:=RA) md (value_at Tend (M x) p)) (b p) (b' p)) -> (forall p, V p -> w' p = b' p + L w p)%R ->
  tan Tend (fun x => tendency_fn S Tend s time md (M x)) b w'.
Proof.
  intros Hs HM T Tb Ew p Hp. pose proof (Tb p Hp) as B. pose proof (Ew p Hp) as E. clear Tb Ew.
  assert (Q : forall k, 0 <= k < NL -> famc (fun x c => mr (M x) (HCell s) [c; k]) (fun _ => H k) (fun c => w (AtCell c k)))
    by (intros k Hk c Hc; apply (T (AtCell c k)); split; [exact Hc|exact Hk]).
  assert (U : forall k, 0 <= k < NL -> fame (fun x c => mr (M x) (VnEdge s) [c; k]) (fun _ => 0%R) (fun c => w (AtEdge c k)))
    by (intros k Hk c Hc; apply (T (AtEdge c k)); split; [exact Hc|exact Hk]).
  destruct p as [c k|e k]; destruct Hp as [Hc Hk]; cbn [value_at] in *; rewrite E; clear E.
  - apply T1_ext with (f := fun x => (zr (A:=RA) md (mr (M x) (HCell Tend) [c; k]) - outflow m (fun e => emean m (fun c => mr (M x) (HCell s) [c; k]) e * mr (M x) (VnEdge s) [e; k]) c)%R).
    + intros x. destruct (HM x) as [R1 C1]. rewrite (T_h S Hok (M x) R1 s k Hk) by exact Hc. unfold hk_h. rewrite Hf, Dh.
      now rewrite (s_outflow (M x) C1), (s_emean (M x) C1).
    + eapply T1_eq; [apply T1_minus; [exact B|apply (f_massflux (H k) _ _ _ _ (Q k Hk) (U k Hk)); exact Hc]|ring|].
      cbn [linear_swe]. cbn beta. ring.
  - pose proof (rv_range S (ok_wfd S Hok) k Hk) as Hk'.
    apply T1_ext with (f := fun x => let q := fun c => mr (M x) (HCell s) [c; k] in let u := fun e => mr (M x) (VnEdge s) [e; k] in let u' := fun e => mr (M x) (VnEdge s) [e; rv_layer cf k] in
      (zr (A:=RA) md (mr (M x) (VnEdge Tend) [e; k]) + (pvflux m (f0 P) q u e - grad m (kin m u) e - grav P * grad m q e
   + (if vel_diff_enabled P then visc_del2 P * vlap m u e else 0)
   - (if vel_hyperdiff_enabled P then visc_del4 P * vlap' m (vlap m u) (vlap m u') e else 0)))%R).
    + intros x. destruct (HM x) as [R1 C1]. rewrite (T_v S Hok Hdc (M x) R1 s k Hk) by (exact Hs || exact Hc). unfold hk_v. rewrite Hf, Dv. unfold vtend.
      now rewrite (s_pvflux (M x) C1), (s_grad (M x) C1), (s_kin (M x) C1), (s_vlap (M x) C1), (s_vlap' (M x) C1).
    + cbv zeta. eapply T1_eq.
      * apply T1_plus; [exact B|]. apply T1_minus; [apply T1_plus; [apply T1_minus; [apply T1_minus|]|]|].
        -- apply (f_pvflux (H k) (H0 k Hk) _ _ _ _ (Q k Hk) (U k Hk) (f0 P)). exact Hc.
        -- apply (f_grad _ _ _ (f_kin _ _ (U k Hk))). exact Hc.
        -- apply T1_scal. apply (f_grad _ _ _ (Q k Hk)). exact Hc.
        -- instantiate (1 := (if vel_diff_enabled P then visc_del2 P * vlap m (fun e => w (AtEdge e k)) e else 0)%R). instantiate (1 := 0%R).
           destruct (vel_diff_enabled P); [|apply T1_const]. eapply T1_eq; [apply T1_scal, (f_vlap _ _ _ (U k Hk)); exact Hc| |reflexivity].
           change (vlap m (fun _ => 0%R) e) with (vlap' m (fun _ => 0%R) (fun _ => 0%R) e). rewrite vlap'_zero by auto. apply Rmult_0_r.
        -- instantiate (1 := (if vel_hyperdiff_enabled P then visc_del4 P * vlap' m (vlap m (fun e => w (AtEdge e k))) (vlap m (fun e => w (AtEdge e (rv_layer cf k)))) e else 0)%R). instantiate (1 := 0%R).
           destruct (vel_hyperdiff_enabled P); [|apply T1_const]. eapply T1_eq; [apply T1_scal, (f_vlap' _ _ _ _ _ _ (f_vlap _ _ _ (U k Hk)) (f_vlap _ _ _ (U _ Hk'))); exact Hc| |reflexivity].
           rewrite (vlap'_zero (vlap m (fun _ => 0%R)) (vlap m (fun _ => 0%R))); [apply Rmult_0_r| | |exact Hc]; intros e' He'; apply (vlap'_zero (fun _ => 0%R) (fun _ => 0%R)); auto.
      * unfold grad. cbn [F RA]. unfold Rdiv. ring.
      * cbn [linear_swe]. cbn beta. rewrite visc2, visc4. fold (rv_layer cf k). unfold grad at 1. cbn [F RA]. unfold Rdiv. ring.
Qed.
End Tangent.
