(** A step of RK4 from the exact solution of the discrete equations has an error of order five. *)
From Coq Require Import ZArith Reals List Bool Lia Lra.
From Verif Require Import Arith Arrays Prog Conc Launch Mesh AuxVars Tend Model Hex RSum Spec MeshProof MeshMem MeshR KernBase Ready StepFn StepVal StepRun StepThms RealTend FieldInv Vort Sim SimThms Driver DriverFn Lip Diff TimeStep TimeConv.
Import ListNotations.
Open Scope Z_scope.

Definition fof (v : plc -> R) : fields RA := mkFields (A:=RA) (fun c k => v (PH c k)) (fun e k => v (PV e k)) (fun l c k => v (PT l c k)).
Lemma val_fof v p : val (fof v) p = v p.
Proof. destruct p; reflexivity. Qed.

Section Phi.
Context (S : setup RA) (Hok : setup_ok S) (Hdc : (0 < (dc (mesh_of_setup S) : R))%R) (m0 : mem RA) (Hr : ready S m0).
Local Notation f := (ff S m0).
Definition kf (s : R) (y : fields RA) : fields RA := fof (f s y).
Lemma kf_tend s y : tendency_of S s y (kf s y).
Proof.
  destruct (tendency_ex S Hok s y) as [k K]. intros q m Hq Rm Hy Hz. destruct (K q m Hq Rm Hy Hz) as [A1 A2]. split; [|exact A2].
  intros o Ho. destruct (A1 o Ho) as (m' & -> & Hk). exists m'. split; [reflexivity|]. apply holds_val. intros p Hp. unfold kf. rewrite val_fof. unfold ff.
  rewrite <- (tend_gp S Hok Hdc m0 Hr s y k K p Hp). apply (proj1 (holds_val S Tend m' k) Hk p Hp).
Qed.
(** The states at which RK4 evaluates the tendency, and its result. *)
Definition z2 (t h : R) (y : fields RA) : fields RA := fof (fun p => val y p + h * (1 / 2) * f t y p)%R.
Definition z3 (t h : R) (y : fields RA) : fields RA := fof (fun p => val y p + h * (1 / 2) * f (t + 1 / 2 * h) (z2 t h y) p)%R.
Definition z4 (t h : R) (y : fields RA) : fields RA := fof (fun p => val y p + h * f (t + 1 / 2 * h) (z3 t h y) p)%R.
Definition phi (t h : R) (y : fields RA) (p : plc) : R :=
  (val y p + h * (1 / 6) * f t y p + h * (1 / 3) * f (t + 1 / 2 * h) (z2 t h y) p + h * (1 / 3) * f (t + 1 / 2 * h) (z3 t h y) p + h * (1 / 6) * f (t + 1 * h) (z4 t h y) p)%R.
Lemma rk4_phi (t h : R) y m : unforced S -> ready S m -> disabled_zero S Tend m -> holds S St m y ->
  let m' := rk4_fn S t h m in ready S m' /\ disabled_zero S Tend m' /\ holds S St m' (fof (phi t h y)).
Proof.
  intros U Rm Zm Hy.
  assert (E2 : add (A:=RA) h (rk4_a 0) y (kf t y) = z2 t h y) by (destruct y; reflexivity).
  assert (E3 : add (A:=RA) h (rk4_a 1) y (kf (t + 1 / 2 * h)%R (z2 t h y)) = z3 t h y) by (destruct y; reflexivity).
  assert (E4 : forall p, val (add (A:=RA) h (rk4_a 2) y (kf (t + 1 / 2 * h)%R (z3 t h y))) p = val (z4 t h y) p).
  { intros p. unfold add, z4. rewrite val_fmap2, val_fof. unfold kf. rewrite val_fof. cbn. ring. }
  assert (E4' : tendency_of S (t + rk4_c (A:=RA) 2 * h)%R (add (A:=RA) h (rk4_a 2) y (kf (t + 1 / 2 * h)%R (z3 t h y))) (kf (t + 1 * h)%R (z4 t h y))).
  { intros q m1 Hq R1 H1 Z1. apply (kf_tend (t + 1 * h)%R (z4 t h y)); auto. apply holds_val. intros p Hp. rewrite <- E4. apply (proj1 (holds_val S q m1 _) H1 p Hp). }
  destruct (rk4_holds S Hok t h m y (kf t y) (kf (t + 1 / 2 * h)%R (z2 t h y)) (kf (t + 1 / 2 * h)%R (z3 t h y)) (kf (t + 1 * h)%R (z4 t h y)) U Rm Hy Zm) as (A1 & A2 & A3); auto using kf_tend.
Qed.
End Phi.

Section Taylor.
Context (T : R).
Lemma rise (F G : R -> R) n x b : (0 <= x)%R -> (0 <= b)%R -> F 0%R = 0%R -> (forall s, (0 <= s <= x)%R -> derivable_pt_lim F s (G s)) -> (forall s, (0 <= s <= x)%R -> (Rabs (G s) <= b * s ^ n)%R) -> (Rabs (F x) <= b * x ^ (Datatypes.S n))%R.
Proof.
  intros Hx Hb F0 HD HG. destruct (Req_dec x 0) as [->|Hne].
  - rewrite F0, Rabs_R0. cbn [pow]. rewrite Rmult_0_l, Rmult_0_r. lra.
  - destruct (MVT_cor2 F G 0 x ltac:(lra) HD) as (c & E & Hc). rewrite F0, !Rminus_0_r in E. rewrite E, Rabs_mult, (Rabs_pos_eq x) by lra. specialize (HG c ltac:(lra)).
    cbn [pow]. replace (b * (x * x ^ n))%R with (b * x ^ n * x)%R by ring. apply Rmult_le_compat_r; [lra|]. eapply Rle_trans; [exact HG|]. apply Rmult_le_compat_l; [lra|]. apply pow_incr. lra.
Qed.
Lemma shift_der (F G : R -> R) t s : (0 <= t)%R -> (0 <= s)%R -> (t + s <= T)%R -> (forall u, (0 <= u <= T)%R -> derivable_pt_lim F u (G u)) -> derivable_pt_lim (fun s => F (t + s)%R) s (G (t + s)%R).
Proof.
  intros Ht Hs HT H. replace (G (t + s)%R) with (G (t + s) * (0 + 1))%R by ring. apply (derivable_pt_lim_comp (fun s => t + s)%R F).
  - apply (derivable_pt_lim_plus (fun _ => t) (fun s => s)); [apply derivable_pt_lim_const|apply derivable_pt_lim_id].
  - apply H. lra.
Qed.
End Taylor.

(** Taylor's formula with remainder, for a function with bounded highest derivative. *)
Lemma taylor1 T K d0 d1 t x : (0 <= K)%R -> (forall t, (0 <= t <= T)%R -> derivable_pt_lim d0 t (d1 t)) -> (forall t, (0 <= t <= T)%R -> (Rabs (d1 t) <= K)%R) -> (0 <= t)%R -> (0 <= x)%R -> (t + x <= T)%R ->
  (Rabs (d0 (t + x) - d0 t) <= K * x ^ 1)%R.
Proof.
  intros HK H0 HB Ht Hx HT. apply (rise (fun x => d0 (t + x) - d0 t)%R (fun x => d1 (t + x)%R) 0); auto; [rewrite Rplus_0_r; ring| |].
  - intros s Hs. replace (d1 (t + s)%R) with (d1 (t + s) - 0)%R by ring. apply (derivable_pt_lim_minus (fun x => d0 (t + x)%R) (fun _ => d0 t)); [|apply derivable_pt_lim_const]. apply (shift_der T); auto; lra.
  - intros s Hs. cbn [pow]. rewrite Rmult_1_r. apply HB. lra.
Qed.
Lemma pow_der n s : derivable_pt_lim (fun x => x ^ n)%R s (INR n * s ^ pred n)%R.
Proof. apply derivable_pt_lim_pow. Qed.
Lemma poly_der a n s : derivable_pt_lim (fun x => a * x ^ n)%R s (a * (INR n * s ^ pred n))%R.
Proof. apply (derivable_pt_lim_scal (fun x => x ^ n)%R). apply pow_der. Qed.
Lemma taylor2 T K d0 d1 d2 t x : (0 <= K)%R -> (forall t, (0 <= t <= T)%R -> derivable_pt_lim d0 t (d1 t)) -> (forall t, (0 <= t <= T)%R -> derivable_pt_lim d1 t (d2 t)) -> (forall t, (0 <= t <= T)%R -> (Rabs (d2 t) <= K)%R) -> (0 <= t)%R -> (0 <= x)%R -> (t + x <= T)%R ->
  (Rabs (d0 (t + x) - (d0 t * x ^ 0 + d1 t * x ^ 1)) <= K * x ^ 2)%R.
Proof.
  intros HK H0 H1 HB Ht Hx HT. apply (rise (fun x => d0 (t + x) - (d0 t * x ^ 0 + d1 t * x ^ 1))%R (fun x => d1 (t + x) - d1 t)%R 1); auto; [rewrite Rplus_0_r; ring| |].
  - intros s Hs. replace (d1 (t + s) - d1 t)%R with (d1 (t + s) - (d0 t * (INR 0 * s ^ pred 0) + d1 t * (INR 1 * s ^ pred 1)))%R by (cbn; ring).
    apply (derivable_pt_lim_minus (fun x => d0 (t + x)%R)); [apply (shift_der T); auto; lra|]. apply derivable_pt_lim_plus; apply poly_der.
  - intros s Hs. apply (taylor1 T K d1 d2); auto; lra.
Qed.
Lemma taylor3 T K d0 d1 d2 d3 t x : (0 <= K)%R -> (forall t, (0 <= t <= T)%R -> derivable_pt_lim d0 t (d1 t)) -> (forall t, (0 <= t <= T)%R -> derivable_pt_lim d1 t (d2 t)) -> (forall t, (0 <= t <= T)%R -> derivable_pt_lim d2 t (d3 t)) ->
  (forall t, (0 <= t <= T)%R -> (Rabs (d3 t) <= K)%R) -> (0 <= t)%R -> (0 <= x)%R -> (t + x <= T)%R ->
  (Rabs (d0 (t + x) - (d0 t * x ^ 0 + d1 t * x ^ 1 + d2 t / 2 * x ^ 2)) <= K * x ^ 3)%R.
Proof.
  intros HK H0 H1 H2 HB Ht Hx HT. apply (rise (fun x => d0 (t + x) - (d0 t * x ^ 0 + d1 t * x ^ 1 + d2 t / 2 * x ^ 2))%R (fun x => d1 (t + x) - (d1 t * x ^ 0 + d2 t * x ^ 1))%R 2); auto; [rewrite Rplus_0_r; ring| |].
  - intros s Hs. replace (d1 (t + s) - (d1 t * s ^ 0 + d2 t * s ^ 1))%R with (d1 (t + s) - (d0 t * (INR 0 * s ^ pred 0) + d1 t * (INR 1 * s ^ pred 1) + d2 t / 2 * (INR 2 * s ^ pred 2)))%R by (cbn; field).
    apply (derivable_pt_lim_minus (fun x => d0 (t + x)%R)); [apply (shift_der T); auto; lra|]. apply (derivable_pt_lim_plus (fun s => d0 t * s ^ 0 + d1 t * s ^ 1)%R); [apply derivable_pt_lim_plus|]; apply poly_der.
  - intros s Hs. apply (taylor2 T K d1 d2 d3); auto; lra.
Qed.
Lemma taylor4 T K d0 d1 d2 d3 d4 t x : (0 <= K)%R -> (forall t, (0 <= t <= T)%R -> derivable_pt_lim d0 t (d1 t)) -> (forall t, (0 <= t <= T)%R -> derivable_pt_lim d1 t (d2 t)) -> (forall t, (0 <= t <= T)%R -> derivable_pt_lim d2 t (d3 t)) -> (forall t, (0 <= t <= T)%R -> derivable_pt_lim d3 t (d4 t)) ->
  (forall t, (0 <= t <= T)%R -> (Rabs (d4 t) <= K)%R) -> (0 <= t)%R -> (0 <= x)%R -> (t + x <= T)%R ->
  (Rabs (d0 (t + x) - (d0 t * x ^ 0 + d1 t * x ^ 1 + d2 t / 2 * x ^ 2 + d3 t / 6 * x ^ 3)) <= K * x ^ 4)%R.
Proof.
  intros HK H0 H1 H2 H3 HB Ht Hx HT. apply (rise (fun x => d0 (t + x) - (d0 t * x ^ 0 + d1 t * x ^ 1 + d2 t / 2 * x ^ 2 + d3 t / 6 * x ^ 3))%R (fun x => d1 (t + x) - (d1 t * x ^ 0 + d2 t * x ^ 1 + d3 t / 2 * x ^ 2))%R 3); auto; [rewrite Rplus_0_r; ring| |].
  - intros s Hs. replace (d1 (t + s) - (d1 t * s ^ 0 + d2 t * s ^ 1 + d3 t / 2 * s ^ 2))%R with (d1 (t + s) - (d0 t * (INR 0 * s ^ pred 0) + d1 t * (INR 1 * s ^ pred 1) + d2 t / 2 * (INR 2 * s ^ pred 2) + d3 t / 6 * (INR 3 * s ^ pred 3)))%R by (cbn; field).
    apply (derivable_pt_lim_minus (fun x => d0 (t + x)%R)); [apply (shift_der T); auto; lra|]. apply (derivable_pt_lim_plus (fun s => d0 t * s ^ 0 + d1 t * s ^ 1 + d2 t / 2 * s ^ 2)%R); [|apply poly_der].
    apply (derivable_pt_lim_plus (fun s => d0 t * s ^ 0 + d1 t * s ^ 1)%R); [apply derivable_pt_lim_plus|]; apply poly_der.
  - intros s Hs. apply (taylor3 T K d1 d2 d3 d4); auto; lra.
Qed.
Lemma taylor5 T K d0 d1 d2 d3 d4 d5 t x : (0 <= K)%R -> (forall t, (0 <= t <= T)%R -> derivable_pt_lim d0 t (d1 t)) -> (forall t, (0 <= t <= T)%R -> derivable_pt_lim d1 t (d2 t)) -> (forall t, (0 <= t <= T)%R -> derivable_pt_lim d2 t (d3 t)) -> (forall t, (0 <= t <= T)%R -> derivable_pt_lim d3 t (d4 t)) -> (forall t, (0 <= t <= T)%R -> derivable_pt_lim d4 t (d5 t)) ->
  (forall t, (0 <= t <= T)%R -> (Rabs (d5 t) <= K)%R) -> (0 <= t)%R -> (0 <= x)%R -> (t + x <= T)%R ->
  (Rabs (d0 (t + x) - (d0 t * x ^ 0 + d1 t * x ^ 1 + d2 t / 2 * x ^ 2 + d3 t / 6 * x ^ 3 + d4 t / 24 * x ^ 4)) <= K * x ^ 5)%R.
Proof.
  intros HK H0 H1 H2 H3 H4 HB Ht Hx HT. apply (rise (fun x => d0 (t + x) - (d0 t * x ^ 0 + d1 t * x ^ 1 + d2 t / 2 * x ^ 2 + d3 t / 6 * x ^ 3 + d4 t / 24 * x ^ 4))%R (fun x => d1 (t + x) - (d1 t * x ^ 0 + d2 t * x ^ 1 + d3 t / 2 * x ^ 2 + d4 t / 6 * x ^ 3))%R 4); auto; [rewrite Rplus_0_r; ring| |].
  - intros s Hs. replace (d1 (t + s) - (d1 t * s ^ 0 + d2 t * s ^ 1 + d3 t / 2 * s ^ 2 + d4 t / 6 * s ^ 3))%R with (d1 (t + s) - (d0 t * (INR 0 * s ^ pred 0) + d1 t * (INR 1 * s ^ pred 1) + d2 t / 2 * (INR 2 * s ^ pred 2) + d3 t / 6 * (INR 3 * s ^ pred 3) + d4 t / 24 * (INR 4 * s ^ pred 4)))%R by (cbn; field).
    apply (derivable_pt_lim_minus (fun x => d0 (t + x)%R)); [apply (shift_der T); auto; lra|]. apply (derivable_pt_lim_plus (fun s => d0 t * s ^ 0 + d1 t * s ^ 1 + d2 t / 2 * s ^ 2 + d3 t / 6 * s ^ 3)%R); [|apply poly_der].
    apply (derivable_pt_lim_plus (fun s => d0 t * s ^ 0 + d1 t * s ^ 1 + d2 t / 2 * s ^ 2)%R); [|apply poly_der].
    apply (derivable_pt_lim_plus (fun s => d0 t * s ^ 0 + d1 t * s ^ 1)%R); [apply derivable_pt_lim_plus|]; apply poly_der.
  - intros s Hs. apply (taylor4 T K d1 d2 d3 d4 d5); auto; lra.
Qed.
