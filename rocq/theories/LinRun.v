(** Runs of either stepper from a family of slightly disturbed states of rest: the derivative of the result. *)
From Coq Require Import ZArith Reals List Bool Lia Lra FunctionalExtensionality.
From Verif Require Import Arith Arrays Prog Conc Launch Mesh AuxVars Tend Model Hex HexComb RSum Spec MeshProof MeshMem MeshFacts MeshR MeshCalc Over Formulas KernBase Terms KernAux KernTend TendFn StepFn Ready Rel RelRun Relate TendVal StepVal StepRun Tableau StepThms RealTend SumParts Vort FieldInv Driver DriverFn Diffuse Cplx WaveRun AdvThms LinStep LinSpec Tangent.
Import ListNotations.
Open Scope Z_scope.

Section LinRun.
Context (S : setup RA) (Hok : setup_ok S) (Hdc : (0 < (dc (mesh_of_setup S) : R))%R) (m : mem RA) (Hr : ready S m).
Local Notation cf := (cfg_of S).
Local Notation P := (par_of S).
Local Notation h := (mesh_of_setup S).
Local Notation D := (sdims S).
Local Notation NC := (nx h * ny h).
Local Notation NL := (d_nlayers D).
Let Hh : hexmem h NL m := ready_hex S Hok m Hr.
Let Hw : wfm D m := ready_wfm S Hok m Hr.
Context (H : Z -> R).
Local Notation V := (valid_place S).
Local Notation L := (linear_swe S m H).

(** ** The operator *)
Lemma vlap'_ext a a' b b' e : (forall e, 0 <= e < 3 * NC -> a e = a' e) -> (forall e, 0 <= e < 3 * NC -> b e = b' e) -> 0 <= e < 3 * NC -> vlap' m a b e = vlap' m a' b' e.
Proof.
  intros E E' He. unfold vlap'. rewrite (grad_ext S Hok m Hr _ (outflow m a')), (rgrad_ext S Hok m Hr _ (vort m b')); auto.
  - intros v Hv. now apply (vort_ext S Hok m Hr).
  - intros c Hc. now apply (outflow_ext S Hok m Hr).
Qed.
Lemma recon_ext2 f g e : (forall e, 0 <= e < 3 * NC -> f e = g e) -> 0 <= e < 3 * NC -> recon m f e = recon m g e.
Proof. intros E He. unfold recon. apply rsum_ext. intros i Hi. f_equal. apply E. now apply (wf_eoe _ _ Hw). Qed.
Lemma L_ext f g p : (forall p, V p -> f p = g p) -> V p -> L f p = L g p.
Proof.
  intros E. destruct p as [c k|e k]; intros [Hc Hk]; cbn [linear_swe]; cbv zeta.
  - do 2 f_equal. apply (outflow_ext S Hok m Hr); [|exact Hc]. intros e He. apply E. split; assumption.
  - pose proof (rv_range S (ok_wfd S Hok) k Hk) as Hk'. fold (rv_layer cf k).
    assert (E1 : forall e, 0 <= e < 3 * NC -> f (AtEdge e k) = g (AtEdge e k)) by (intros; apply E; now split).
    assert (E2 : forall e, 0 <= e < 3 * NC -> f (AtEdge e (rv_layer cf k)) = g (AtEdge e (rv_layer cf k))) by (intros; apply E; now split).
    rewrite (recon_ext2 _ (fun e => g (AtEdge e k)) e E1 Hc).
    rewrite (grad_ext S Hok m Hr _ (fun c => g (AtCell c k)) e); [|intros; apply E; now split|exact Hc].
    rewrite (vlap_ext S Hok m Hr _ (fun e => g (AtEdge e k)) e E1 Hc).
    rewrite (vlap'_ext (vlap m (fun e => f (AtEdge e k))) (vlap m (fun e => g (AtEdge e k))) (vlap m (fun e => f (AtEdge e (rv_layer cf k)))) (vlap m (fun e => g (AtEdge e (rv_layer cf k))))); [reflexivity| | |exact Hc].
    + intros e' He'. now apply (vlap_ext S Hok m Hr).
    + intros e' He'. now apply (vlap_ext S Hok m Hr).
Qed.

Lemma rsum_lin n (a b : R) f g : rsum n (fun i => (a * f i + b * g i)%R) = (a * rsum n f + b * rsum n g)%R.
Proof. now rewrite rsum_plus, !rsum_scal. Qed.
Lemma outflow_lin2 a b f g c : outflow m (fun e => a * f e + b * g e)%R c = (a * outflow m f c + b * outflow m g c)%R.
Proof.
  unfold outflow. rewrite (rsum_ext _ _ (fun j => a * (mr m EdgeSignOnCell [c; j] * mr m DvEdge [mi m EdgesOnCell [c; j]] * f (mi m EdgesOnCell [c; j])) + b * (mr m EdgeSignOnCell [c; j] * mr m DvEdge [mi m EdgesOnCell [c; j]] * g (mi m EdgesOnCell [c; j])))%R) by (intros; cbv zeta; cbn [F RA]; ring).
  rewrite rsum_lin. cbn [F RA]. unfold Rdiv. ring.
Qed.
Lemma vort_lin2 a b f g c : vort m (fun e => a * f e + b * g e)%R c = (a * vort m f c + b * vort m g c)%R.
Proof.
  unfold vort, circ. rewrite (rsum_ext _ _ (fun j => a * (mr m EdgeSignOnVertex [c; j] * mr m DcEdge [mi m EdgesOnVertex [c; j]] * f (mi m EdgesOnVertex [c; j])) + b * (mr m EdgeSignOnVertex [c; j] * mr m DcEdge [mi m EdgesOnVertex [c; j]] * g (mi m EdgesOnVertex [c; j])))%R) by (intros; cbv zeta; cbn [F RA]; ring).
  rewrite rsum_lin. cbn [F RA]. unfold Rdiv. ring.
Qed.
Lemma recon_lin2 a b f g e : recon m (fun e => a * f e + b * g e)%R e = (a * recon m f e + b * recon m g e)%R.
Proof. unfold recon. rewrite <- rsum_lin. apply rsum_ext. intros. cbn [F RA]. ring. Qed.
Lemma grad_lin2 a b f g e : grad m (fun e => a * f e + b * g e)%R e = (a * grad m f e + b * grad m g e)%R.
Proof. unfold grad, Rdiv. cbn [F RA]. ring. Qed.
Lemma rgrad_lin2 a b f g e : rgrad m (fun e => a * f e + b * g e)%R e = (a * rgrad m f e + b * rgrad m g e)%R.
Proof. unfold rgrad, Rdiv. cbn [F RA]. ring. Qed.
Lemma vlap'_lin a b f g f' g' e : 0 <= e < 3 * NC -> vlap' m (fun e => a * f e + b * g e)%R (fun e => a * f' e + b * g' e)%R e = (a * vlap' m f f' e + b * vlap' m g g' e)%R.
Proof.
  intros He. unfold vlap'.
  rewrite (grad_ext S Hok m Hr _ (fun c => a * outflow m f c + b * outflow m g c)%R) by (intros; apply outflow_lin2 || exact He).
  rewrite (rgrad_ext S Hok m Hr _ (fun c => a * vort m f' c + b * vort m g' c)%R) by (intros; apply vort_lin2 || exact He).
  rewrite grad_lin2, rgrad_lin2. ring.
Qed.
Lemma L_lin a b f g p : V p -> L (fun p => a * f p + b * g p)%R p = (a * L f p + b * L g p)%R.
Proof.
  destruct p as [c k|e k]; intros [Hc Hk]; cbn [linear_swe]; cbv zeta.
  - rewrite outflow_lin2. ring.
  - rewrite recon_lin2, grad_lin2.
    set (k' := if ksimd cf then k / vector_length cf * vector_length cf else k).
    change (vlap m (fun e => a * f (AtEdge e k) + b * g (AtEdge e k))%R e) with (vlap' m (fun e => a * f (AtEdge e k) + b * g (AtEdge e k))%R (fun e => a * f (AtEdge e k) + b * g (AtEdge e k))%R e).
    rewrite (vlap'_lin a b (fun e => f (AtEdge e k))) by exact Hc.
    rewrite (vlap'_ext (vlap m (fun e => a * f (AtEdge e k) + b * g (AtEdge e k))%R) (fun e => a * vlap m (fun e => f (AtEdge e k)) e + b * vlap m (fun e => g (AtEdge e k)) e)%R
       (vlap m (fun e => a * f (AtEdge e k') + b * g (AtEdge e k'))%R) (fun e => a * vlap m (fun e => f (AtEdge e k')) e + b * vlap m (fun e => g (AtEdge e k')) e)%R);
      [|intros e' He'; exact (vlap'_lin a b (fun e => f (AtEdge e k)) (fun e => g (AtEdge e k)) (fun e => f (AtEdge e k)) (fun e => g (AtEdge e k)) e' He')
       |intros e' He'; exact (vlap'_lin a b (fun e => f (AtEdge e k')) (fun e => g (AtEdge e k')) (fun e => f (AtEdge e k')) (fun e => g (AtEdge e k')) e' He')|exact Hc].
    rewrite vlap'_lin by exact Hc. unfold vlap'. unfold vlap. fold (vlap m).
    cbn [F RA]; ring.
Qed.

(** ** Steps *)
Context (H0 : forall k, 0 <= k < NL -> (H k <> 0)%R) (Hf : hook S = None) (Dh : disable_h P = false) (Dv : disable_vn P = false).
Local Notation rest := (at_rest H).
Local Notation zero := (fun _ : place => 0%R).
Local Notation tan := (tan S).
Local Notation fam := (fam S m).
Lemma fam_step (f : mem RA -> mem RA) M : (forall n, cst n (f n)) -> fam M -> fam (fun x => f (M x)).
Proof. intros Hc HM x. destruct (HM x) as [A B]. split; [eapply ready_cst; [apply Hc|exact A]|eapply cst_trans; [exact B|apply Hc]]. Qed.
Lemma tan_axpy_other r d b (dt x : R) M v w : r <> d -> tan r M v w -> tan r (fun y => axpy S d b dt x (M y)) v w.
Proof. intros Hd. apply tan_other. intros y a ix Ha. apply axpy_other. now apply (is_st_ne r). Qed.
Lemma tan_tend_other r s time md M v w : r <> Tend -> tan r M v w -> tan r (fun y => tendency_fn S Tend s time md (M y)) v w.
Proof.
  intros Hd T p Hp. eapply T1_ext; [|exact (T p Hp)]. intros x.
  pose proof (holds_tend_other S r Tend s time md (M x) _ Hd (holds_fld S r (M x))) as Q.
  destruct p as [c k|e k]; destruct Hp as [Hc Hk]; destruct (Q k Hk) as (Q1 & Q2 & _); cbn [value_at]; [rewrite Q1 by exact Hc|rewrite Q2 by exact Hc]; reflexivity.
Qed.
Lemma tan_replace s M time w : s <> Tend -> fam M -> tan s M rest w -> tan Tend (fun x => tendency_fn S Tend s time Replace (M x)) zero (L w).
Proof.
  intros Hs HM T. apply (tan_tend S Hok Hdc m Hr H H0 Hf Dh Dv s M time Replace zero w zero (L w)); auto.
  - intros p Hp. apply T1_const.
  - intros; ring.
Qed.
Lemma tan_incr s M time w q : s <> Tend -> fam M -> tan s M rest w -> tan Tend M zero q -> tan Tend (fun x => tendency_fn S Tend s time Increment (M x)) zero (fun p => q p + L w p)%R.
Proof.
  intros Hs HM T Tq. now apply (tan_tend S Hok Hdc m Hr H H0 Hf Dh Dv s M time Increment zero w q).
Qed.
Lemma tan_add d s M (dt r : R) w q : tan s M rest w -> tan Tend M zero q -> tan d (fun x => axpy S d s dt r (M x)) rest (fun p => w p + dt * r * q p)%R.
Proof. intros T Tq. eapply tan_eq; [apply (tan_axpy S d s M dt r _ _ _ _ T Tq)| |reflexivity]. intros; cbn beta; ring. Qed.

Definition inv4 (w ws k : place -> R) (M : R -> mem RA) := fam M /\ tan St M rest ws /\ tan Old M rest w /\ tan Tend M zero k.
Lemma stage4 (t dt a b : R) w ws k M : inv4 w ws k M ->
  inv4 w (fun p => ws p + dt * b * k p)%R (L (fun p => w p + dt * a * k p)%R) (fun x => tendency_fn S Tend Provis t Replace (axpy S Provis Old dt a (axpy S St St dt b (M x)))).
Proof.
  intros (HM & Ts & To & Tt). set (M1 := fun x => axpy S St St dt b (M x)). set (M2 := fun x => axpy S Provis Old dt a (M1 x)).
  assert (F1 : fam M1) by (apply (fam_step (axpy S St St dt b)); [intros; apply cst_axpy|exact HM]).
  assert (F2 : fam M2) by (apply (fam_step (axpy S Provis Old dt a)); [intros; apply cst_axpy|exact F1]).
  assert (S1 : tan St M1 rest (fun p => ws p + dt * b * k p)%R) by (apply tan_add; assumption).
  assert (O1 : tan Old M1 rest w) by (apply tan_axpy_other; [discriminate|assumption]).
  assert (T1' : tan Tend M1 zero k) by (apply tan_axpy_other; [discriminate|assumption]).
  assert (P2 : tan Provis M2 rest (fun p => w p + dt * a * k p)%R) by (apply tan_add; assumption).
  assert (S2 : tan St M2 rest (fun p => ws p + dt * b * k p)%R) by (apply tan_axpy_other; [discriminate|assumption]).
  assert (O2 : tan Old M2 rest w) by (apply tan_axpy_other; [discriminate|assumption]).
  split; [apply (fam_step (tendency_fn S Tend Provis t Replace)); [intros; apply cst_tendency|exact F2]|].
  split; [apply tan_tend_other; [discriminate|exact S2]|]. split; [apply tan_tend_other; [discriminate|exact O2]|].
  apply tan_replace; [discriminate|exact F2|exact P2].
Qed.
Lemma rk4_tan (t dt : R) w M : fam M -> tan St M rest w -> fam (fun x => rk4_fn S t dt (M x)) /\ tan St (fun x => rk4_fn S t dt (M x)) rest (opolyx L [1; 1; 1 / 2; 1 / 6; 1 / 24]%R dt w).
Proof.
  intros HM T. split; [apply (fam_step (rk4_fn S t dt)); [intros; apply cst_rk4|exact HM]|].
  assert (F0 : fam (fun x => save_fn S (M x))) by (apply (fam_step (save_fn S)); [intros; apply cst_save|exact HM]).
  assert (S0 : tan St (fun x => save_fn S (M x)) rest w).
  { eapply tan_other; [|exact T]. intros x a ix Ha. apply save_other. apply (is_st_ne St); congruence. }
  assert (I1 : inv4 w w (L w) (fun x => tendency_fn S Tend St t Replace (save_fn S (M x)))).
  { split; [apply (fam_step (tendency_fn S Tend St t Replace)); [intros; apply cst_tendency|exact F0]|].
    split; [apply tan_tend_other; [discriminate|exact S0]|]. split; [apply tan_tend_other; [discriminate|]; now apply tan_save|].
    apply tan_replace; [discriminate|exact F0|exact S0]. }
  pose proof (stage4 (t + rk4_c (A:=RA) 0 * dt)%R dt (rk4_a (A:=RA) 0) (rk4_b (A:=RA) 0) _ _ _ _ I1) as I2.
  pose proof (stage4 (t + rk4_c (A:=RA) 1 * dt)%R dt (rk4_a (A:=RA) 1) (rk4_b (A:=RA) 1) _ _ _ _ I2) as I3.
  pose proof (stage4 (t + rk4_c (A:=RA) 2 * dt)%R dt (rk4_a (A:=RA) 2) (rk4_b (A:=RA) 2) _ _ _ _ I3) as I4.
  destruct I4 as (_ & Ts & _ & Tt). pose proof (tan_add St St _ dt (rk4_b (A:=RA) 3) _ _ Ts Tt) as Q.
  eapply tan_eq; [exact Q|reflexivity|]. intros p Hp. cbn beta.
  apply (rk4_alg V L L_ext L_lin dt w (L w) (L (fun p => w p + dt * rk4_a (A:=RA) 0 * L w p)%R)
    (L (fun p => w p + dt * rk4_a (A:=RA) 1 * L (fun p => w p + dt * rk4_a (A:=RA) 0 * L w p) p)%R)); auto.
Qed.

Lemma stage_ls n (t dt : R) i y q M : fam M -> tan St M rest y -> tan Tend M zero q \/ lsrk_a (A:=RA) n i = 0%R ->
  let q' := fun p => (lsrk_a (A:=RA) n i * q p + L y p)%R in
  let M' := fun x => lsrk_stage_fn S n t dt i (M x) in fam M' /\ tan Tend M' zero q' /\ tan St M' rest (fun p => y p + dt * lsrk_b (A:=RA) n i * q' p)%R.
Proof.
  intros HM T Tq q' M'. unfold M', lsrk_stage_fn. set (a := lsrk_a n i) in *. set (b := lsrk_b n i). clear M'.
  match goal with |- context [tendency_fn S Tend St ?tt Increment _] => set (tm := tt); clearbody tm end.
  set (M1 := fun x => scale_fn S a (M x)). set (M2 := fun x => tendency_fn S Tend St tm Increment (M1 x)).
  assert (F1 : fam M1) by (apply (fam_step (scale_fn S a)); [intros; apply cst_scale|exact HM]).
  assert (F2 : fam M2) by (apply (fam_step (tendency_fn S Tend St tm Increment)); [intros; apply cst_tendency|exact F1]).
  assert (S1 : tan St M1 rest y) by (eapply tan_other; [|exact T]; intros x r ix Ha; apply scale_other; apply (is_st_ne St); congruence).
  assert (T1' : tan Tend M1 zero (fun p => a * q p)%R).
  { destruct Tq as [Tq|Z0].
    - eapply tan_eq; [apply (tan_scale S M a _ _ Tq)| |]; intros; cbn [F RA]; ring.
    - intros p Hp. eapply T1_eq; [eapply T1_ext; [|apply (T1_const 0%R)]|reflexivity|rewrite Z0; ring].
      intros x. unfold M1. rewrite Z0. pose proof (holds_scale S (0%R : F RA) (M x) _ (holds_fld S Tend (M x))) as Q.
      destruct p as [c k|e k]; destruct Hp as [Hc Hk]; destruct (Q k Hk) as (Q1 & Q2 & _); cbn [value_at]; [rewrite Q1 by exact Hc|rewrite Q2 by exact Hc]; cbn [fh fv fld fmul RA]; ring. }
  assert (T2 : tan Tend M2 zero q') by (exact (tan_incr St M1 tm y (fun p => a * q p)%R ltac:(discriminate) F1 S1 T1')).
  assert (S2 : tan St M2 rest y) by (exact (tan_tend_other St St tm Increment M1 rest y ltac:(discriminate) S1)).
  split; [apply (fam_step (axpy S St St dt b)); [intros; apply cst_axpy|exact F2]|].
  split; [apply tan_axpy_other; [discriminate|exact T2]|]. apply tan_add; assumption.
Qed.
Lemma lsrk1_tan (t dt : R) w M : fam M -> tan St M rest w -> fam (fun x => lsrk_fn S 1 t dt (M x)) /\ tan St (fun x => lsrk_fn S 1 t dt (M x)) rest (opolyx L [1; 1]%R dt w).
Proof.
  intros HM T. destruct (stage_ls 1 t dt 0 w zero M HM T (or_intror (lsrk_a0 1))) as (F1 & _ & S1). split; [exact F1|].
  eapply tan_eq; [exact S1|reflexivity|]. intros p Hp. cbn beta. rewrite lsrk_a0. change (lsrk_b (A:=RA) 1 0) with (IZR 1). cbn [opolyx F RA]. ring.
Qed.
Lemma lsrk5_tan (t dt : R) w M : fam M -> tan St M rest w -> fam (fun x => lsrk_fn S 5 t dt (M x)) /\ tan St (fun x => lsrk_fn S 5 t dt (M x)) rest (opolyx L (glist (LSRK 5)) dt w).
Proof.
  intros HM T.
  destruct (stage_ls 5 t dt 0 w zero M HM T (or_intror (lsrk_a0 5))) as (F1 & Q1 & S1).
  destruct (stage_ls 5 t dt 1 _ _ _ F1 S1 (or_introl Q1)) as (F2 & Q2 & S2).
  destruct (stage_ls 5 t dt 2 _ _ _ F2 S2 (or_introl Q2)) as (F3 & Q3 & S3).
  destruct (stage_ls 5 t dt 3 _ _ _ F3 S3 (or_introl Q3)) as (F4 & Q4 & S4).
  destruct (stage_ls 5 t dt 4 _ _ _ F4 S4 (or_introl Q4)) as (F5 & Q5 & S5). clear Q5.
  split; [exact F5|].
  set (a := lsrk_a (A:=RA) 5) in *. set (b := lsrk_b (A:=RA) 5) in *.
  pose (q1 := fun p => (a 0%Z * 0 + L w p)%R). pose (y1 := fun p => (w p + dt * b 0%Z * q1 p)%R).
  pose (q2 := fun p => (a 1%Z * q1 p + L y1 p)%R). pose (y2 := fun p => (y1 p + dt * b 1%Z * q2 p)%R).
  pose (q3 := fun p => (a 2%Z * q2 p + L y2 p)%R). pose (y3 := fun p => (y2 p + dt * b 2%Z * q3 p)%R).
  pose (q4 := fun p => (a 3%Z * q3 p + L y3 p)%R). pose (y4 := fun p => (y3 p + dt * b 3%Z * q4 p)%R).
  pose (q5 := fun p => (a 4%Z * q4 p + L y4 p)%R). pose (y5 := fun p => (y4 p + dt * b 4%Z * q5 p)%R).
  eapply tan_eq; [exact S5|reflexivity|]. intros p Hp.
  pose (Y := fun i : Z => match i with 0 => w | 1 => y1 | 2 => y2 | 3 => y3 | 4 => y4 | _ => y5 end).
  pose (Q := fun i : Z => match i with 1 => q1 | 2 => q2 | 3 => q3 | 4 => q4 | _ => q5 end).
  change (Y 5 p = opolyx L (glist (LSRK 5)) dt w p).
  rewrite (lsrk5_alg V L L_ext L_lin dt a b w Y Q); [reflexivity| | | | | | |exact Hp]; intros x Hx; [reflexivity| |split; reflexivity|split; reflexivity|split; reflexivity|split; reflexivity].
  split; [|reflexivity]. unfold Q, q1, Y. unfold a. rewrite lsrk_a0. cbn [F RA fofZ]. ring.
Qed.

Definition supported (st : stepper) : Prop := match st with RK4 => True | LSRK n => n = 1 \/ n = 5 end.
Lemma run_tan st steps : supported st -> forall w M, fam M -> tan St M rest w ->
  fam (fun x => run_fn S st steps (M x)) /\ tan St (fun x => run_fn S st steps (M x)) rest (fold_left (fun f (s : R * R) => opolyx L (glist st) (snd s) f) steps w).
Proof.
  intros Hs. induction steps as [|[t dt] l IH]; intros w M HM T; [destruct st; split; assumption|].
  destruct st as [|n].
  - destruct (rk4_tan t dt w M HM T) as [F1 T1']. exact (IH _ _ F1 T1').
  - destruct Hs as [-> | ->].
    + destruct (lsrk1_tan t dt w M HM T) as [F1 T1']. exact (IH _ _ F1 T1').
    + destruct (lsrk5_tan t dt w M HM T) as [F1 T1']. exact (IH _ _ F1 T1').
Qed.
Lemma poly_one (f : place -> R) steps p : fold_left (fun f (s : R * R) => opolyx L [1%R] (snd s) f) steps f p = f p.
Proof.
  revert f. induction steps as [|s l IH]; intros f; [reflexivity|]. cbn [fold_left]. rewrite IH. cbn [opolyx]. ring.
Qed.

(** Executions from a family of memories. *)
Lemma run_family st steps w (M M' : R -> mem RA) : fam M -> tan St M rest w -> (forall x, exec D (stepper_run S st steps) (M x) (OK (M' x))) ->
  fam M' /\ tan St M' rest (fold_left (fun f (s : R * R) => opolyx L (glist st) (snd s) f) steps w).
Proof.
  intros HM T Hx.
  assert (E : forall x, meq (M' x) (run_fn S st steps (M x))).
  { intros x. eapply exec_fn; [|apply Hx]. apply hs_stepper_run; [exact Hok|]. apply ready_wfm; [exact Hok|]. apply HM. }
  assert (FM : fam M').
  { assert (G : fam (fun x => run_fn S st steps (M x))) by (apply (fam_step (run_fn S st steps)); [destruct st; intros; [apply cst_rk4_run|apply cst_lsrk_run]|exact HM]).
    intros x. destruct (G x) as [A B]. split; [eapply ready_meq; [apply meq_sym, E|exact A]|eapply cst_meq; [apply E|exact B]]. }
  split; [exact FM|].
  assert (C : supported st \/ exists n, st = LSRK n /\ n <> 1 /\ n <> 5).
  { destruct st as [|n]; [left; exact I|]. assert (C : (n = 1 \/ n = 5) \/ (n <> 1 /\ n <> 5)) by lia. destruct C; [left; exact H1|right; eauto]. }
  destruct C as [C|(n & -> & C1 & C5)].
  - destruct (run_tan st steps C w M HM T) as [_ T1']. intros p Hp. eapply T1_ext; [|exact (T1' p Hp)].
    intros x. destruct (E x) as [_ E2]. destruct p; cbn [value_at]; symmetry; apply E2.
  - assert (G : glist (LSRK n) = [1%R]) by (cbn [glist]; destruct (Z.eqb_spec n 5); [lia|]; destruct (Z.eqb_spec n 1); [lia|]; reflexivity).
    rewrite G. intros p Hp. rewrite poly_one. eapply T1_ext; [|exact (T p Hp)]. intros x.
    destruct (C43_unsupported_stage_count_does_nothing_proof S Hok n steps (M x) C1 C5 (proj1 (HM x))) as [A _].
    destruct (A _ (Hx x)) as (m' & EM & Q). injection EM as <-.
    destruct p as [c k|e k]; destruct Hp as [Hc Hk]; destruct (Q k Hk) as (Q1 & Q2 & _); cbn [value_at]; [now apply Q1|now apply Q2].
Qed.
End LinRun.
