(** The error of one step of RK4 from the exact solution: expansion of the stages. *)
From Coq Require Import ZArith Reals List Bool Lia Lra.
From Verif Require Import Arith Arrays Prog Conc Launch Mesh AuxVars Tend Model Hex RSum Spec MeshProof MeshMem MeshR KernBase Ready StepFn StepVal StepRun StepThms RealTend FieldInv Vort Sim SimThms Driver DriverFn Lip Diff TimeStep TimeConv Order4.
Import ListNotations.
Open Scope Z_scope.

Section Local.
Context (S : setup RA) (m0 : mem RA) (T : R) (Y : R -> fields RA) (d1 d2 d3 d4 d5 : plc -> R -> R) (K : R) (HK : (0 <= K)%R).
Local Notation f := (ff S m0).
Local Notation "'I' t" := (0 <= t <= T)%R (at level 40, only parsing).
Context (D0 : forall p, vplc S p -> forall t, (0 <= t <= T)%R -> derivable_pt_lim (fun s => val (Y s) p) t (d1 p t))
  (D1 : forall p, vplc S p -> forall t, (0 <= t <= T)%R -> derivable_pt_lim (d1 p) t (d2 p t)) (D2 : forall p, vplc S p -> forall t, (0 <= t <= T)%R -> derivable_pt_lim (d2 p) t (d3 p t))
  (D3 : forall p, vplc S p -> forall t, (0 <= t <= T)%R -> derivable_pt_lim (d3 p) t (d4 p t)) (D4 : forall p, vplc S p -> forall t, (0 <= t <= T)%R -> derivable_pt_lim (d4 p) t (d5 p t))
  (KB : forall p, vplc S p -> forall t, (0 <= t <= T)%R -> (Rabs (d1 p t) <= K /\ Rabs (d2 p t) <= K /\ Rabs (d3 p t) <= K /\ Rabs (d4 p t) <= K /\ Rabs (d5 p t) <= K)%R)
  (EQ : forall p, vplc S p -> forall t, (0 <= t <= T)%R -> d1 p t = f t (Y t) p).
Context (B de r : R) (Hr0 : (0 < r)%R) (Tb : forall t z, (0 <= t <= T)%R -> close S r z (Y t) -> box S B de z).
Context (J : plc -> fields RA -> vec -> R) (M : R) (HM : (0 <= M)%R) (DJ : forall p, vplc S p -> DLM S B de M (gp S m0 p) (J p)).

Definition bigO (n : nat) (F : R -> R -> plc -> R) : Prop := exists C h0, (0 <= C)%R /\ (0 < h0 <= 1)%R /\
  forall t h p, (0 <= t)%R -> (0 <= h <= h0)%R -> (t + h <= T)%R -> vplc S p -> (Rabs (F t h p) <= C * h ^ n)%R.
Lemma bigO_ext n F G : bigO n F -> (forall t h p, (0 <= t)%R -> (0 <= h)%R -> (t + h <= T)%R -> vplc S p -> G t h p = F t h p) -> bigO n G.
Proof. intros (C & h0 & HC & Hh & A) E. exists C, h0. split; [exact HC|]. split; [exact Hh|]. intros t h p Ht Hh' HT Hp. rewrite E by (assumption || lra). now apply A. Qed.
Lemma hn_pos n h : (0 <= h)%R -> (0 <= h ^ n)%R. Proof. apply pow_le. Qed.
Lemma bigO_plus n F G : bigO n F -> bigO n G -> bigO n (fun t h p => F t h p + G t h p)%R.
Proof.
  intros (C & h0 & HC & Hh & A) (C' & h0' & HC' & Hh' & A'). exists (C + C')%R, (Rmin h0 h0'). pose proof (Rmin_l h0 h0'). pose proof (Rmin_r h0 h0').
  assert (0 < Rmin h0 h0')%R by (apply Rmin_glb_lt; lra). split; [lra|]. split; [lra|]. intros t h p Ht Hq HT Hp. specialize (A t h p Ht ltac:(lra) HT Hp). specialize (A' t h p Ht ltac:(lra) HT Hp).
  eapply Rle_trans; [apply Rabs_triang|]. lra.
Qed.
Lemma bigO_scal a n F : bigO n F -> bigO n (fun t h p => a * F t h p)%R.
Proof.
  intros (C & h0 & HC & Hh & A). exists (Rabs a * C)%R, h0. pose proof (Rabs_pos a). split; [apply Rmult_le_pos; assumption|]. split; [exact Hh|]. intros t h p Ht Hq HT Hp. specialize (A t h p Ht Hq HT Hp).
  rewrite Rabs_mult, Rmult_assoc. now apply Rmult_le_compat_l.
Qed.
Lemma bigO_mulh n F : bigO n F -> bigO (Datatypes.S n) (fun t h p => h * F t h p)%R.
Proof.
  intros (C & h0 & HC & Hh & A). exists C, h0. split; [exact HC|]. split; [exact Hh|]. intros t h p Ht Hq HT Hp. specialize (A t h p Ht Hq HT Hp).
  rewrite Rabs_mult, (Rabs_pos_eq h) by lra. cbn [pow]. replace (C * (h * h ^ n))%R with (h * (C * h ^ n))%R by ring. apply Rmult_le_compat_l; lra.
Qed.
Lemma bigO_weak n F : bigO (Datatypes.S n) F -> bigO n F.
Proof.
  intros (C & h0 & HC & Hh & A). exists C, h0. split; [exact HC|]. split; [exact Hh|]. intros t h p Ht Hq HT Hp. specialize (A t h p Ht Hq HT Hp). eapply Rle_trans; [exact A|]. apply Rmult_le_compat_l; [exact HC|].
  cbn [pow]. pose proof (hn_pos n h ltac:(lra)). nra.
Qed.
Lemma bigO_bd b F : (0 <= b)%R -> (forall t h p, (0 <= t)%R -> (0 <= h)%R -> (t + h <= T)%R -> vplc S p -> (Rabs (F t h p) <= b)%R) -> bigO 0 F.
Proof. intros Hb H. exists b, 1%R. split; [exact Hb|]. split; [lra|]. intros t h p Ht Hq HT Hp. cbn [pow]. rewrite Rmult_1_r. apply H; lra || assumption. Qed.
Lemma tc_range t h c : (0 <= c <= 1)%R -> (0 <= t)%R -> (0 <= h)%R -> (t + h <= T)%R -> (0 <= c * h <= h)%R /\ (0 <= t + c * h <= T)%R.
Proof. intros Hc Ht Hh HT. assert (0 <= c * h)%R by (apply Rmult_le_pos; lra). assert (c * h <= 1 * h)%R by (apply Rmult_le_compat_r; lra). lra. Qed.
Lemma boxY t : (0 <= t <= T)%R -> box S B de (Y t).
Proof using Tb Hr0. intros Ht. apply (Tb t); [exact Ht|]. intros p _. rewrite Rminus_diag_eq, Rabs_R0 by reflexivity. lra. Qed.
Lemma stage c n (Z : R -> R -> fields RA) : (0 <= c <= 1)%R -> bigO (Datatypes.S n) (fun t h p => val (Z t h) p - val (Y (t + c * h)) p)%R ->
  bigO (Datatypes.S n + Datatypes.S n) (fun t h p => f (t + c * h) (Z t h) p - (d1 p (t + c * h) + J p (Y (t + c * h)%R) (vsub (Z t h) (Y (t + c * h)%R))))%R.
Proof using Tb Hr0 DJ HM EQ.
  intros Hc (C & h0 & HC & Hh & A). set (h1 := Rmin h0 (r / (C + 1))). assert (Hr1 : (0 < r / (C + 1))%R) by (apply Rdiv_lt_0_compat; lra). pose proof (Rmin_l h0 (r / (C + 1))). pose proof (Rmin_r h0 (r / (C + 1))).
  assert (P1 : (0 < h1)%R) by (apply Rmin_glb_lt; lra). exists (M * (C * C))%R, h1. split; [apply Rmult_le_pos; [exact HM|nra]|]. split; [unfold h1 in *; lra|].
  intros t h p Ht Hq HT Hp. fold h1 in H, H0. destruct (tc_range t h c Hc Ht ltac:(lra) HT) as [R1 R2]. set (s := (t + c * h)%R) in *.
  assert (Cl : close S (C * h ^ Datatypes.S n) (Z t h) (Y s)) by (intros q Hq'; apply A; assumption || lra).
  assert (P2 : (0 <= C * h ^ Datatypes.S n)%R) by (apply Rmult_le_pos; [exact HC|apply hn_pos; lra]).
  assert (Bz : box S B de (Z t h)).
  { apply (Tb s); [exact R2|]. intros q Hq'. eapply Rle_trans; [apply Cl, Hq'|]. cbn [pow]. assert (h ^ n <= 1)%R by (rewrite <- (pow1 n); apply pow_incr; lra). pose proof (hn_pos n h ltac:(lra)).
    assert (C * (h * h ^ n) <= C * (h * 1))%R by (apply Rmult_le_compat_l; [exact HC|]; apply Rmult_le_compat_l; lra).
    assert ((C + 1) * h <= (C + 1) * (r / (C + 1)))%R by (apply Rmult_le_compat_l; lra). replace ((C + 1) * (r / (C + 1)))%R with r in * by (field; lra). lra. }
  destruct (DJ p Hp) as (_ & _ & A3 & _). specialize (A3 (Y s) (Z t h) _ (boxY s R2) Bz P2 Cl). rewrite EQ by assumption. unfold ff.
  replace (gp S m0 p (Z t h) + fp S m0 p s - (gp S m0 p (Y s) + fp S m0 p s + J p (Y s) (vsub (Z t h) (Y s))))%R with (gp S m0 p (Z t h) - gp S m0 p (Y s) - J p (Y s) (vsub (Z t h) (Y s)))%R by ring.
  eapply Rle_trans; [exact A3|]. rewrite pow_add. lra.
Qed.
Lemma J_bigO c n v : (0 <= c <= 1)%R -> bigO n v -> bigO n (fun t h p => J p (Y (t + c * h)%R) (v t h)).
Proof using Tb Hr0 DJ HM.
  intros Hc (C & h0 & HC & Hh & A). exists (M * C)%R, h0. split; [apply Rmult_le_pos; assumption|]. split; [exact Hh|]. intros t h p Ht Hq HT Hp. destruct (tc_range t h c Hc Ht ltac:(lra) HT) as [R1 R2].
  destruct (DJ p Hp) as (_ & _ & _ & A4 & _). rewrite Rmult_assoc. apply A4; [now apply boxY|apply Rmult_le_pos; [exact HC|apply hn_pos; lra]|]. intros q Hq'. now apply A.
Qed.
Lemma J_move c n v : (0 <= c <= 1)%R -> bigO n v -> bigO (Datatypes.S n) (fun t h p => J p (Y (t + c * h)%R) (v t h) - J p (Y t) (v t h))%R.
Proof using Tb Hr0 DJ HM D0 KB HK.
  intros Hc (C & h0 & HC & Hh & A). exists (M * (K * C))%R, h0. split; [apply Rmult_le_pos; [exact HM|now apply Rmult_le_pos]|]. split; [exact Hh|]. intros t h p Ht Hq HT Hp. destruct (tc_range t h c Hc Ht ltac:(lra) HT) as [R1 R2].
  destruct (DJ p Hp) as (_ & _ & _ & _ & A5 & _). assert (P : (0 <= C * h ^ n)%R) by (apply Rmult_le_pos; [exact HC|apply hn_pos; lra]). assert (P2 : (0 <= K * h)%R) by (apply Rmult_le_pos; lra).
  assert (Cl : close S (K * h) (Y (t + c * h)%R) (Y t)).
  { intros q Hq'. pose proof (taylor1 T K (fun s => val (Y s) q) (d1 q) t (c * h) HK (D0 q Hq') (fun s Hs => proj1 (KB q Hq' s Hs)) Ht ltac:(lra) ltac:(lra)) as X. cbn [pow] in X. rewrite Rmult_1_r in X. eapply Rle_trans; [exact X|]. apply Rmult_le_compat_l; lra. }
  eapply Rle_trans; [apply (A5 (Y (t + c * h)%R) (Y t) (v t h) (K * h)%R (C * h ^ n)%R)|]; auto using boxY; [apply boxY; lra|intros q Hq'; now apply A|]. cbn [pow]. lra.
Qed.
Lemma J_lin p y a b u v : vplc S p -> J p y (fun q => a * u q + b * v q)%R = (a * J p y u + b * J p y v)%R.
Proof using DJ. intros Hp. destruct (DJ p Hp) as (_ & _ & _ & _ & _ & A6). apply A6. Qed.
Lemma J_ext p y u v : vplc S p -> box S B de y -> (forall q, vplc S q -> u q = v q) -> J p y u = J p y v.
Proof using DJ HM.
  intros Hp Hy E. pose proof (J_lin p y 1 (-1) u v Hp) as L. destruct (DJ p Hp) as (_ & _ & _ & A4 & _).
  assert (V : vb S 0 (fun q => 1 * u q + -1 * v q)%R). { intros q Hq. rewrite E by exact Hq. replace (1 * v q + -1 * v q)%R with 0%R by ring. rewrite Rabs_R0. lra. }
  specialize (A4 y _ 0%R Hy ltac:(lra) V). rewrite L, Rmult_0_r in A4. pose proof (Rabs_pos (1 * J p y u + -1 * J p y v)) as Q. assert (Z : Rabs (1 * J p y u + -1 * J p y v)%R = 0%R) by lra.
  destruct (Req_dec (1 * J p y u + -1 * J p y v) 0) as [E0|N]; [lra|]. now apply Rabs_no_R0 in N.
Qed.
Lemma chp K' c h n : (0 <= K')%R -> (0 <= c <= 1)%R -> (0 <= h)%R -> (K' * (c * h) ^ n <= K' * h ^ n)%R.
Proof. intros HK' Hc Hh. apply Rmult_le_compat_l; [exact HK'|]. apply pow_incr. assert (0 <= c * h)%R by (apply Rmult_le_pos; lra). assert (c * h <= 1 * h)%R by (apply Rmult_le_compat_r; lra). lra. Qed.
Ltac tay L := intros Hc; exists K, 1%R; split; [exact HK|]; split; [lra|]; intros t h p Ht Hq HT Hp; destruct (tc_range t h _ Hc Ht ltac:(lra) HT) as [R1 R2];
  (eapply Rle_trans; [|apply chp; [exact HK|exact Hc|lra]]); apply (L p); auto; try lra; intros s Hs; destruct (KB p Hp s Hs) as (? & ? & ? & ? & ?); assumption.
Lemma ty4 c : (0 <= c <= 1)%R -> bigO 4 (fun t h p => val (Y (t + c * h)) p - (val (Y t) p * (c * h) ^ 0 + d1 p t * (c * h) ^ 1 + d2 p t / 2 * (c * h) ^ 2 + d3 p t / 6 * (c * h) ^ 3))%R.
Proof using D0 D1 D2 D3 KB HK. tay (fun p => taylor4 T K (fun s => val (Y s) p) (d1 p) (d2 p) (d3 p) (d4 p)). Qed.
Lemma ty5 c : (0 <= c <= 1)%R -> bigO 5 (fun t h p => val (Y (t + c * h)) p - (val (Y t) p * (c * h) ^ 0 + d1 p t * (c * h) ^ 1 + d2 p t / 2 * (c * h) ^ 2 + d3 p t / 6 * (c * h) ^ 3 + d4 p t / 24 * (c * h) ^ 4))%R.
Proof using D0 D1 D2 D3 D4 KB HK. tay (fun p => taylor5 T K (fun s => val (Y s) p) (d1 p) (d2 p) (d3 p) (d4 p) (d5 p)). Qed.
Lemma tg3 c : (0 <= c <= 1)%R -> bigO 3 (fun t h p => d1 p (t + c * h) - (d1 p t * (c * h) ^ 0 + d2 p t * (c * h) ^ 1 + d3 p t / 2 * (c * h) ^ 2))%R.
Proof using D1 D2 D3 KB HK. tay (fun p => taylor3 T K (d1 p) (d2 p) (d3 p) (d4 p)). Qed.
Lemma tg4 c : (0 <= c <= 1)%R -> bigO 4 (fun t h p => d1 p (t + c * h) - (d1 p t * (c * h) ^ 0 + d2 p t * (c * h) ^ 1 + d3 p t / 2 * (c * h) ^ 2 + d4 p t / 6 * (c * h) ^ 3))%R.
Proof using D1 D2 D3 D4 KB HK. tay (fun p => taylor4 T K (d1 p) (d2 p) (d3 p) (d4 p) (d5 p)). Qed.
Lemma b2 : bigO 0 (fun t _ p => d2 p t). Proof using KB HK. apply (bigO_bd K); [exact HK|]. intros t h p Ht Hh HT Hp. apply KB; [exact Hp|lra]. Qed.
Lemma b3 : bigO 0 (fun t _ p => d3 p t). Proof using KB HK. apply (bigO_bd K); [exact HK|]. intros t h p Ht Hh HT Hp. apply KB; [exact Hp|lra]. Qed.
(** The derivative of the tendency at the start of the step. *)
Definition J0 (t : R) (v : vec) (p : plc) : R := J p (Y t) v.
Lemma J0_bigO n v : bigO n v -> bigO n (fun t h p => J0 t (v t h) p).
Proof using Tb Hr0 DJ HM. intros H. apply (bigO_ext _ _ _ (J_bigO 0 n v ltac:(lra) H)). intros t h p _ _ _ _. unfold J0. rewrite Rmult_0_l, Rplus_0_r. reflexivity. Qed.
Definition e2 (t : R) (p : plc) : R := J0 t (fun q => d2 q t) p.
Lemma bJ : bigO 0 (fun t _ p => e2 t p).
Proof using Tb Hr0 DJ HM KB HK. apply (J0_bigO 0 (fun t _ p => d2 p t)). exact b2. Qed.
Definition W2 (t h : R) : vec := vsub (z2 S m0 t h (Y t)) (Y (t + 1 / 2 * h)%R).
Definition W3 (t h : R) : vec := vsub (z3 S m0 t h (Y t)) (Y (t + 1 / 2 * h)%R).
Definition W4 (t h : R) : vec := vsub (z4 S m0 t h (Y t)) (Y (t + 1 * h)%R).
Lemma half : (0 <= 1 / 2 <= 1)%R. Proof. lra. Qed.
Lemma one : (0 <= 1 <= 1)%R. Proof. lra. Qed.
Ltac up := unfold W2, W3, W4, vsub, z2, z3, z4; rewrite ?val_fof.
Lemma W2_exp : bigO 4 (fun t h p => W2 t h p - (- (1 / 8) * (h * (h * d2 p t)) - 1 / 48 * (h * (h * (h * d3 p t)))))%R.
Proof using D0 D1 D2 D3 KB HK EQ.
  apply (bigO_ext _ _ _ (bigO_scal (-1) _ _ (ty4 _ half))). intros t h p Ht Hh HT Hp. up. rewrite <- EQ by (assumption || lra). cbn [pow]. field.
Qed.
Lemma W2_O2 : bigO 2 W2.
Proof using D0 D1 D2 D3 KB HK EQ.
  apply (bigO_ext 2 (fun t h p => (W2 t h p - (- (1 / 8) * (h * (h * d2 p t)) - 1 / 48 * (h * (h * (h * d3 p t))))) + ((- (1 / 8)) * (h * (h * d2 p t)) + (- (1 / 48)) * (h * (h * (h * d3 p t)))))%R); [|intros; ring].
  apply bigO_plus; [apply bigO_weak, bigO_weak, W2_exp|]. apply bigO_plus; apply bigO_scal; [|apply bigO_weak]; repeat apply bigO_mulh; [exact b2|exact b3].
Qed.
(** A stage value to third order from the expansion of the stage to third order. *)
Lemma k_exp (Z : R -> R -> fields RA) (W : R -> R -> vec) a : (forall t h, W t h = vsub (Z t h) (Y (t + 1 / 2 * h)%R)) -> bigO 2 W -> bigO 3 (fun t h p => W t h p - a * (h * (h * d2 p t)))%R ->
  bigO 3 (fun t h p => f (t + 1 / 2 * h) (Z t h) p - (d1 p t + 1 / 2 * (h * d2 p t) + 1 / 8 * (h * (h * d3 p t)) + a * (h * (h * e2 t p))))%R.
Proof using Tb Hr0 DJ HM EQ KB HK D0 D1 D2 D3.
  intros EW O2 O3.
  assert (St : bigO 4 (fun t h p => f (t + 1 / 2 * h) (Z t h) p - (d1 p (t + 1 / 2 * h) + J p (Y (t + 1 / 2 * h)%R) (W t h)))%R).
  { apply (bigO_ext _ _ _ (stage (1 / 2) 1 Z half (bigO_ext _ _ (fun t h p => val (Z t h) p - val (Y (t + 1 / 2 * h)) p)%R O2 (fun t h p _ _ _ _ => f_equal (fun v => v p) (eq_sym (EW t h)))))). intros. now rewrite EW. }
  pose proof (bigO_weak _ _ St) as St3. pose proof (J_move (1 / 2) 2 W half O2) as Mv. pose proof (J0_bigO 3 _ O3) as J3. pose proof (tg3 _ half) as Tg.
  apply (bigO_ext _ _ _ (bigO_plus _ _ _ (bigO_plus _ _ _ (bigO_plus _ _ _ St3 Mv) J3) Tg)). intros t h p Ht Hh HT Hp. cbn beta.
  assert (E : J0 t (fun q => W t h q - a * (h * (h * d2 q t)))%R p = (J p (Y t) (W t h) - a * (h * (h * e2 t p)))%R).
  { unfold J0, e2, J0. rewrite (J_ext p (Y t) _ (fun q => 1 * W t h q + (- (a * (h * h))) * d2 q t)%R Hp (boxY t ltac:(lra))) by (intros; ring). rewrite J_lin by exact Hp. ring. }
  rewrite E. cbn [pow]. field.
Qed.
Lemma k2_exp : bigO 3 (fun t h p => f (t + 1 / 2 * h) (z2 S m0 t h (Y t)) p - (d1 p t + 1 / 2 * (h * d2 p t) + 1 / 8 * (h * (h * d3 p t)) + - (1 / 8) * (h * (h * e2 t p))))%R.
Proof using Tb Hr0 DJ HM EQ KB HK D0 D1 D2 D3.
  apply (k_exp (fun t h => z2 S m0 t h (Y t)) W2); [reflexivity|exact W2_O2|].
  apply (bigO_ext _ _ _ (bigO_plus _ _ _ (bigO_weak _ _ W2_exp) (bigO_scal (- (1 / 48)) _ _ (bigO_mulh _ _ (bigO_mulh _ _ (bigO_mulh _ _ b3)))))). intros. ring.
Qed.
Lemma W3_exp : bigO 4 (fun t h p => W3 t h p - (1 / 8 * (h * (h * d2 p t)) + 1 / 24 * (h * (h * (h * d3 p t))) - 1 / 16 * (h * (h * (h * e2 t p)))))%R.
Proof using Tb Hr0 DJ HM EQ KB HK D0 D1 D2 D3.
  apply (bigO_ext _ _ _ (bigO_plus _ _ _ (bigO_scal (1 / 2) _ _ (bigO_mulh _ _ k2_exp)) (bigO_scal (-1) _ _ (ty4 _ half)))). intros t h p Ht Hh HT Hp. unfold W3, vsub, z3. rewrite val_fof. cbn [pow]. field.
Qed.
Lemma W3_O3 : bigO 3 (fun t h p => W3 t h p - 1 / 8 * (h * (h * d2 p t)))%R.
Proof using Tb Hr0 DJ HM EQ KB HK D0 D1 D2 D3.
  apply (bigO_ext _ _ _ (bigO_plus _ _ _ (bigO_weak _ _ W3_exp) (bigO_plus _ _ _ (bigO_scal (1 / 24) _ _ (bigO_mulh _ _ (bigO_mulh _ _ (bigO_mulh _ _ b3)))) (bigO_scal (- (1 / 16)) _ _ (bigO_mulh _ _ (bigO_mulh _ _ (bigO_mulh _ _ bJ))))))). intros. ring.
Qed.
Lemma W3_O2 : bigO 2 W3.
Proof using Tb Hr0 DJ HM EQ KB HK D0 D1 D2 D3.
  apply (bigO_ext _ _ _ (bigO_plus _ _ _ (bigO_weak _ _ W3_O3) (bigO_scal (1 / 8) _ _ (bigO_mulh _ _ (bigO_mulh _ _ b2))))). intros. ring.
Qed.
Lemma k3_exp : bigO 3 (fun t h p => f (t + 1 / 2 * h) (z3 S m0 t h (Y t)) p - (d1 p t + 1 / 2 * (h * d2 p t) + 1 / 8 * (h * (h * d3 p t)) + 1 / 8 * (h * (h * e2 t p))))%R.
Proof using Tb Hr0 DJ HM EQ KB HK D0 D1 D2 D3. apply (k_exp (fun t h => z3 S m0 t h (Y t)) W3); [reflexivity|exact W3_O2|exact W3_O3]. Qed.
Lemma W4_exp : bigO 4 (fun t h p => W4 t h p - (- (1 / 24) * (h * (h * (h * d3 p t))) + 1 / 8 * (h * (h * (h * e2 t p)))))%R.
Proof using Tb Hr0 DJ HM EQ KB HK D0 D1 D2 D3.
  apply (bigO_ext _ _ _ (bigO_plus _ _ _ (bigO_mulh _ _ k3_exp) (bigO_scal (-1) _ _ (ty4 _ one)))). intros t h p Ht Hh HT Hp. unfold W4, vsub, z4. rewrite val_fof. cbn [pow]. field.
Qed.
Lemma W4_O3 : bigO 3 W4.
Proof using Tb Hr0 DJ HM EQ KB HK D0 D1 D2 D3.
  apply (bigO_ext _ _ _ (bigO_plus _ _ _ (bigO_weak _ _ W4_exp) (bigO_plus _ _ _ (bigO_scal (- (1 / 24)) _ _ (bigO_mulh _ _ (bigO_mulh _ _ (bigO_mulh _ _ b3)))) (bigO_scal (1 / 8) _ _ (bigO_mulh _ _ (bigO_mulh _ _ (bigO_mulh _ _ bJ))))))). intros. ring.
Qed.
Lemma V_O3 : bigO 3 (fun t h p => 2 * W2 t h p + 2 * W3 t h p)%R.
Proof using Tb Hr0 DJ HM EQ KB HK D0 D1 D2 D3.
  apply (bigO_ext _ _ _ (bigO_plus _ _ _ (bigO_plus _ _ _ (bigO_scal 2 _ _ (bigO_weak _ _ W2_exp)) (bigO_scal 2 _ _ (bigO_weak _ _ W3_exp))) (bigO_plus _ _ _ (bigO_scal (1 / 24) _ _ (bigO_mulh _ _ (bigO_mulh _ _ (bigO_mulh _ _ b3)))) (bigO_scal (- (1 / 8)) _ _ (bigO_mulh _ _ (bigO_mulh _ _ (bigO_mulh _ _ bJ))))))). intros. field.
Qed.
Lemma VW_O4 : bigO 4 (fun t h p => 1 * (2 * W2 t h p + 2 * W3 t h p) + 1 * W4 t h p)%R.
Proof using Tb Hr0 DJ HM EQ KB HK D0 D1 D2 D3.
  apply (bigO_ext _ _ _ (bigO_plus _ _ _ (bigO_plus _ _ _ (bigO_scal 2 _ _ W2_exp) (bigO_scal 2 _ _ W3_exp)) W4_exp)). intros. field.
Qed.
Lemma sum_exp : bigO 4 (fun t h p => f t (Y t) p + 2 * f (t + 1 / 2 * h) (z2 S m0 t h (Y t)) p + 2 * f (t + 1 / 2 * h) (z3 S m0 t h (Y t)) p + f (t + 1 * h) (z4 S m0 t h (Y t)) p
  - (d1 p t + 4 * d1 p (t + 1 / 2 * h) + d1 p (t + 1 * h)))%R.
Proof using Tb Hr0 DJ HM EQ KB HK D0 D1 D2 D3.
  pose proof (stage (1 / 2) 1 (fun t h => z2 S m0 t h (Y t)) half W2_O2) as K2. pose proof (stage (1 / 2) 1 (fun t h => z3 S m0 t h (Y t)) half W3_O2) as K3.
  pose proof (bigO_weak _ _ (bigO_weak _ _ (stage 1 2 (fun t h => z4 S m0 t h (Y t)) one W4_O3))) as K4.
  pose proof (J_move (1 / 2) 3 _ half V_O3) as M1. pose proof (J_move 1 3 _ one W4_O3) as M2. pose proof (J0_bigO 4 _ VW_O4) as M3.
  apply (bigO_ext _ _ _ (bigO_plus _ _ _ (bigO_plus _ _ _ (bigO_plus _ _ _ (bigO_scal 2 _ _ K2) (bigO_scal 2 _ _ K3)) K4) (bigO_plus _ _ _ (bigO_plus _ _ _ M1 M2) M3))). intros t h p Ht Hh HT Hp. cbn beta.
  rewrite (EQ p Hp t) by lra. unfold J0. rewrite !J_lin by exact Hp. fold (W2 t h) (W3 t h) (W4 t h). ring.
Qed.
(** The local error is of order five. *)
Theorem local_error : bigO 5 (fun t h p => phi S m0 t h (Y t) p - val (Y (t + 1 * h)) p)%R.
Proof using Tb Hr0 DJ HM EQ KB HK D0 D1 D2 D3 D4.
  apply (bigO_ext _ _ _ (bigO_plus _ _ _ (bigO_plus _ _ _ (bigO_scal (1 / 6) _ _ (bigO_mulh _ _ sum_exp)) (bigO_plus _ _ _ (bigO_scal (2 / 3) _ _ (bigO_mulh _ _ (tg4 _ half))) (bigO_scal (1 / 6) _ _ (bigO_mulh _ _ (tg4 _ one))))) (bigO_scal (-1) _ _ (ty5 _ one)))).
  intros t h p Ht Hh HT Hp. unfold phi. cbn [pow]. field.
Qed.
End Local.
