(** The discrete equations have solutions: Picard iteration. *)
From Coq Require Import ZArith Reals List Bool Lia Lra.
From Verif Require Import Arith Arrays Prog Conc Launch Mesh AuxVars Tend Model Hex RSum Spec MeshProof MeshMem MeshR KernBase Ready StepFn StepVal StepRun StepThms RealTend FieldInv Vort Sim SimThms Driver DriverFn Lip Diff TimeStep TimeConv Order4 Smooth.
Import ListNotations.
Open Scope R_scope.

(** Continuous functions have antiderivatives. *)
Definition clamp (T t : R) : R := Rmax 0 (Rmin t T).
Lemma clamp_in T t : 0 <= T -> 0 <= clamp T t <= T.
Proof. intros. unfold clamp, Rmax, Rmin. repeat destruct Rle_dec; lra. Qed.
Lemma clamp_id T t : 0 <= t <= T -> clamp T t = t.
Proof. intros. unfold clamp, Rmax, Rmin. repeat destruct Rle_dec; lra. Qed.
Lemma clamp_lip T t s : 0 <= T -> Rabs (clamp T t - clamp T s) <= Rabs (t - s).
Proof. intros. unfold clamp, Rmax, Rmin. repeat destruct Rle_dec; split_Rabs; lra. Qed.
Lemma lip_cont (g : R -> R) M t : 0 <= M -> (forall s s', Rabs (g s - g s') <= M * Rabs (s - s')) -> continuity_pt g t.
Proof.
  intros HM H e He. assert (P : 0 < M + 1) by lra. exists (e / (M + 1)). split; [now apply Rdiv_lt_0_compat|]. intros x [_ Hx]. cbn in *. unfold R_dist in *.
  eapply Rle_lt_trans; [apply H|]. assert ((M + 1) * Rabs (x - t) < (M + 1) * (e / (M + 1))) by (apply Rmult_lt_compat_l; lra). replace ((M + 1) * (e / (M + 1))) with e in * by (field; lra). pose proof (Rabs_pos (x - t)). lra.
Qed.
Lemma antider T (g : R -> R) : 0 < T -> (forall t, continuity_pt g t) -> {G : R -> R | G 0 = 0 /\ forall t, 0 <= t <= T -> derivable_pt_lim G t (g t)}.
Proof.
  intros HT H. pose (G := primitive (Rlt_le _ _ HT) (FTC_P1 (Rlt_le _ _ HT) (fun x _ => H x))). exists (fun t => G t - G 0). split; [ring|]. intros t Ht.
  replace (g t) with (g t - 0) by ring. apply (derivable_pt_lim_minus G (fun _ => G 0)); [apply RiemannInt_P28; exact Ht|apply derivable_pt_lim_const].
Qed.
Lemma der_lip T (G g : R -> R) M : (forall t, 0 <= t <= T -> derivable_pt_lim G t (g t)) -> (forall t, 0 <= t <= T -> Rabs (g t) <= M) ->
  forall t s, 0 <= t <= T -> 0 <= s <= T -> Rabs (G t - G s) <= M * Rabs (t - s).
Proof.
  intros D B. assert (W : forall a b, 0 <= a -> a < b -> b <= T -> Rabs (G b - G a) <= M * Rabs (b - a)).
  { intros a b Ha Hab Hb. destruct (MVT_cor2 G g a b Hab) as (c & E & Hc); [intros c Hc; apply D; lra|]. rewrite E, Rabs_mult. apply Rmult_le_compat_r; [apply Rabs_pos|apply B; lra]. }
  intros t s Ht Hs. destruct (Rtotal_order t s) as [L | [-> | L]].
  - rewrite Rabs_minus_sym, (Rabs_minus_sym t). apply W; lra.
  - rewrite (Rminus_diag_eq (G s) (G s) eq_refl), (Rminus_diag_eq s s eq_refl), Rabs_R0. lra.
  - apply W; lra.
Qed.
Lemma lim_le u l a e n : Un_cv u l -> (forall k, (n <= k)%nat -> Rabs (u k - a) <= e) -> Rabs (l - a) <= e.
Proof.
  intros C H. apply le_epsilon. intros d Hd. destruct (C d Hd) as (N & HN). specialize (HN (Nat.max n N) ltac:(lia)). specialize (H (Nat.max n N) ltac:(lia)). unfold R_dist in HN. split_Rabs; lra.
Qed.
Lemma half_small e c : 0 < e -> 0 <= c -> exists n, c * (/ 2) ^ n <= e.
Proof.
  intros He Hc. destruct (pow_lt_1_zero (/ 2)) with (y := e / (c + 1)) as (N & HN); [rewrite Rabs_pos_eq; lra|apply Rdiv_lt_0_compat; lra|].
  exists N. specialize (HN N ltac:(lia)). rewrite Rabs_pos_eq in HN by (apply pow_le; lra).
  assert ((c + 1) * (/ 2) ^ N < (c + 1) * (e / (c + 1))) by (apply Rmult_lt_compat_l; lra). replace ((c + 1) * (e / (c + 1))) with e in * by (field; lra). assert (0 <= (/ 2) ^ N) by (apply pow_le; lra). lra.
Qed.
Lemma eq_small a b c : 0 <= c -> (forall n, Rabs (a - b) <= c * (/ 2) ^ n) -> a = b.
Proof.
  intros Hc H. destruct (Req_dec a b) as [E | E]; [exact E|exfalso]. assert (P : 0 < Rabs (a - b)) by (apply Rabs_pos_lt; lra).
  destruct (half_small (Rabs (a - b) / 2) c ltac:(lra) Hc) as (n & Hn). specialize (H n). lra.
Qed.

Section Picard.
Context (S : setup RA) (f : R -> fields RA -> plc -> R) (bx : fields RA -> Prop) (T M r : R) (HT : 0 < T) (HM : 0 <= M) (Hr : 0 <= r) (y0 : fields RA).
Context (Tb : forall z, close S r z y0 -> bx z) (FM : forall t y p, 0 <= t <= T -> bx y -> vplc S p -> Rabs (f t y p) <= M)
  (FL : forall t t' y z p d, 0 <= t <= T -> 0 <= t' <= T -> bx y -> bx z -> vplc S p -> 0 <= d -> close S d y z -> Rabs (f t y p - f t' z p) <= M * (Rabs (t - t') + d)).
Context (MT : M * T <= r) (MT2 : M * T <= / 2).
Definition good (y : R -> fields RA) : Prop := (forall p, vplc S p -> val (y 0) p = val y0 p) /\ forall t s p, 0 <= t <= T -> 0 <= s <= T -> vplc S p -> Rabs (val (y t) p - val (y s) p) <= M * Rabs (t - s).
Lemma good_bx y t : good y -> 0 <= t <= T -> bx (y t).
Proof.
  intros (G0 & G1) Ht. apply Tb. intros p Hp. rewrite <- (G0 p Hp). eapply Rle_trans; [apply G1; try assumption; lra|]. rewrite Rminus_0_r, Rabs_pos_eq by lra. assert (M * t <= M * T) by (apply Rmult_le_compat_l; lra). lra.
Qed.
Definition rhs (y : R -> fields RA) (p : plc) (t : R) : R := f (clamp T t) (y (clamp T t)) p.
Lemma rhs_cont y p : good y -> vplc S p -> forall t, continuity_pt (rhs y p) t.
Proof.
  intros G Hp t. apply (lip_cont _ (M * (1 + M))); [apply Rmult_le_pos; lra|]. intros s s'. pose proof (clamp_in T s ltac:(lra)) as C1. pose proof (clamp_in T s' ltac:(lra)) as C2.
  pose proof (Rabs_pos (clamp T s - clamp T s')) as P0. pose proof (clamp_lip T s s' ltac:(lra)) as P1. set (q := Rabs (clamp T s - clamp T s')) in *.
  eapply Rle_trans; [apply (FL _ _ _ _ _ (M * q)); try assumption; [now apply good_bx|now apply good_bx|now apply Rmult_le_pos|]|].
  { intros p' Hp'. now apply (proj2 G). }
  fold q. replace (M * (q + M * q)) with (M * (1 + M) * q) by ring. apply Rmult_le_compat_l; [apply Rmult_le_pos; lra|exact P1].
Qed.
Definition next_ok (y z : R -> fields RA) : Prop := good z /\ forall t p, 0 <= t <= T -> vplc S p -> derivable_pt_lim (fun s => val (z s) p) t (f t (y t) p).
Lemma next (y : R -> fields RA) : good y -> {z : R -> fields RA | next_ok y z}.
Proof.
  intros G.
  pose (Gp := fun p => match vplc_dec S p with left Hp => proj1_sig (antider T (rhs y p) HT (rhs_cont y p G Hp)) | right _ => fun _ => 0 end).
  assert (E : forall p, vplc S p -> Gp p 0 = 0 /\ forall t, 0 <= t <= T -> derivable_pt_lim (Gp p) t (f t (y t) p)).
  { intros p Hp. unfold Gp. destruct (vplc_dec S p) as [Hp'|]; [|contradiction]. destruct (antider T (rhs y p) HT (rhs_cont y p G Hp')) as (g & g0 & gd). cbn [proj1_sig]. split; [exact g0|]. intros t Ht. specialize (gd t Ht). unfold rhs in gd. now rewrite clamp_id in gd by exact Ht. }
  exists (fun t => fof (fun p => val y0 p + Gp p t)). 
  assert (D : forall t p, 0 <= t <= T -> vplc S p -> derivable_pt_lim (fun s => val (fof (fun p => val y0 p + Gp p s)) p) t (f t (y t) p)).
  { intros t p Ht Hp. apply (der_ext (fun s => val y0 p + Gp p s)); [intros; now rewrite val_fof|]. replace (f t (y t) p) with (0 + f t (y t) p) by ring. apply (derivable_pt_lim_plus (fun _ => val y0 p) (Gp p)); [apply derivable_pt_lim_const|now apply E]. }
  split; [|exact D]. split.
  - intros p Hp. rewrite val_fof, (proj1 (E p Hp)). ring.
  - intros t s p Ht Hs Hp. apply (der_lip T (fun s => val (fof (fun p => val y0 p + Gp p s)) p) (fun t => f t (y t) p)); try assumption; [intros; now apply D|]. intros u Hu. apply FM; try assumption. now apply good_bx.
Qed.
Lemma next_half y y' z z' d : good y -> good y' -> next_ok y z -> next_ok y' z' -> 0 <= d -> (forall t, 0 <= t <= T -> close S d (y t) (y' t)) -> forall t, 0 <= t <= T -> close S (d * / 2) (z t) (z' t).
Proof.
  intros G G' (Z & D) (Z' & D') Hd C t Ht p Hp.
  pose proof (der_lip T (fun s => val (z s) p - val (z' s) p) (fun s => f s (y s) p - f s (y' s) p) (M * d)) as X.
  replace (val (z t) p - val (z' t) p) with ((val (z t) p - val (z' t) p) - (val (z 0) p - val (z' 0) p)) by (rewrite (proj1 Z p Hp), (proj1 Z' p Hp); ring).
  eapply Rle_trans; [apply X; [| |exact Ht|lra]|].
  - intros s Hs. apply (derivable_pt_lim_minus (fun s => val (z s) p) (fun s => val (z' s) p)); [now apply D|now apply D'].
  - intros s Hs. eapply Rle_trans; [apply (FL s s _ _ p d); try assumption; [now apply good_bx|now apply good_bx|now apply C]|]. rewrite (Rminus_diag_eq s s eq_refl), Rabs_R0. lra.
  - rewrite Rminus_0_r, Rabs_pos_eq by lra. replace (M * d * t) with (d * (M * t)) by ring. apply Rmult_le_compat_l; [exact Hd|]. assert (M * t <= M * T) by (apply Rmult_le_compat_l; lra). lra.
Qed.
Lemma good_const : good (fun _ => y0).
Proof. split; [reflexivity|]. intros. rewrite Rminus_diag_eq, Rabs_R0 by reflexivity. apply Rmult_le_pos; [exact HM|apply Rabs_pos]. Qed.
Fixpoint iter (n : nat) : {y : R -> fields RA | good y} :=
  match n with O => exist _ _ good_const | Datatypes.S k => let (y, G) := iter k in let (z, Z) := next y G in exist _ z (proj1 Z) end.
Definition it (n : nat) : R -> fields RA := proj1_sig (iter n).
Lemma it_good n : good (it n).
Proof. exact (proj2_sig (iter n)). Qed.
Lemma it_next n : next_ok (it n) (it (Datatypes.S n)).
Proof. unfold it. cbn [iter]. destruct (iter n) as (y & G). cbn [proj1_sig]. destruct (next y G) as (z & Z). exact Z. Qed.
Lemma it_step n t : 0 <= t <= T -> close S (r * (/ 2) ^ n) (it (Datatypes.S n) t) (it n t).
Proof.
  revert t. induction n as [|n IH]; intros t Ht.
  - intros p Hp. rewrite pow_O, Rmult_1_r. pose proof (it_good 1) as (G0 & G1). change (val (it 0 t) p) with (val y0 p). rewrite <- (G0 p Hp). eapply Rle_trans; [apply G1; try assumption; lra|]. rewrite Rminus_0_r, Rabs_pos_eq by lra. assert (M * t <= M * T) by (apply Rmult_le_compat_l; lra). lra.
  - replace (r * (/ 2) ^ Datatypes.S n) with (r * (/ 2) ^ n * / 2) by (cbn [pow]; ring).
    apply (next_half (it (Datatypes.S n)) (it n)); auto using it_good, it_next. apply Rmult_le_pos; [exact Hr|apply pow_le; lra].
Qed.
Lemma it_tail n k t : 0 <= t <= T -> close S (2 * r * (/ 2) ^ n - 2 * r * (/ 2) ^ (n + k)) (it (n + k) t) (it n t).
Proof.
  intros Ht. induction k as [|k IH]; intros p Hp.
  - rewrite Nat.add_0_r, !Rminus_diag_eq, Rabs_R0 by reflexivity. lra.
  - specialize (IH p Hp). rewrite Nat.add_succ_r. pose proof (it_step (n + k) t Ht p Hp) as X. cbn [pow]. replace (val (it (Datatypes.S (n + k)) t) p - val (it n t) p) with ((val (it (Datatypes.S (n + k)) t) p - val (it (n + k) t) p) + (val (it (n + k) t) p - val (it n t) p)) by ring.
    eapply Rle_trans; [apply Rabs_triang|]. lra.
Qed.
Lemma it_near n k t p : 0 <= t <= T -> vplc S p -> (n <= k)%nat -> Rabs (val (it k t) p - val (it n t) p) <= 2 * r * (/ 2) ^ n.
Proof.
  intros Ht Hp Hk. replace k with (n + (k - n))%nat by lia. pose proof (it_tail n (k - n) t Ht p Hp) as X. assert (0 <= (/ 2) ^ (n + (k - n))) by (apply pow_le; lra). assert (0 <= r * (/ 2) ^ (n + (k - n))) by (apply Rmult_le_pos; lra). lra.
Qed.
Lemma it_cauchy t p : 0 <= t <= T -> vplc S p -> Cauchy_crit (fun n => val (it n t) p).
Proof.
  intros Ht Hp e He. destruct (half_small (e / 4) (2 * r) ltac:(lra) ltac:(lra)) as (n & Hn). exists n. intros i j Hi Hj. unfold R_dist.
  pose proof (it_near n i t p Ht Hp ltac:(lia)). pose proof (it_near n j t p Ht Hp ltac:(lia)). split_Rabs; lra.
Qed.
Definition lim (t : R) : fields RA := fof (fun p => match vplc_dec S p with left Hp => proj1_sig (R_complete _ (it_cauchy (clamp T t) p (clamp_in T t (Rlt_le _ _ HT)) Hp)) | right _ => 0 end).
Lemma lim_near n t p : 0 <= t <= T -> vplc S p -> Rabs (val (lim t) p - val (it n t) p) <= 2 * r * (/ 2) ^ n.
Proof.
  intros Ht Hp. unfold lim. rewrite val_fof. destruct (vplc_dec S p) as [Hp'|]; [|contradiction]. destruct (R_complete _ _) as (l & Hl). cbn [proj1_sig]. rewrite clamp_id in Hl by exact Ht.
  apply (lim_le (fun n => val (it n t) p) l _ _ n Hl). intros k Hk. now apply it_near.
Qed.
Lemma lim_good : good lim.
Proof.
  split.
  - intros p Hp. apply (eq_small _ _ (2 * r)); [lra|]. intros n. rewrite <- (proj1 (it_good n) p Hp). apply lim_near; [lra|exact Hp].
  - intros t s p Ht Hs Hp. apply le_epsilon. intros e He. destruct (half_small (e / 2) (2 * r) ltac:(lra) ltac:(lra)) as (n & Hn).
    pose proof (lim_near n t p Ht Hp) as A1. pose proof (lim_near n s p Hs Hp) as A2. pose proof (proj2 (it_good n) t s p Ht Hs Hp) as A3. split_Rabs; lra.
Qed.
Theorem picard : exists Y : R -> fields RA, (forall p, vplc S p -> val (Y 0) p = val y0 p) /\ (forall t, 0 <= t <= T -> close S r (Y t) y0) /\
  forall t p, 0 <= t <= T -> vplc S p -> derivable_pt_lim (fun s => val (Y s) p) t (f t (Y t) p).
Proof.
  destruct (next lim lim_good) as (Z & HZ). exists Z. pose proof HZ as ((Z0 & Z1) & ZD). split; [exact Z0|]. split.
  - intros t Ht p Hp. rewrite <- (Z0 p Hp). eapply Rle_trans; [apply Z1; try assumption; lra|]. rewrite Rminus_0_r, Rabs_pos_eq by lra. assert (M * t <= M * T) by (apply Rmult_le_compat_l; lra). lra.
  - assert (E : forall t p, 0 <= t <= T -> vplc S p -> val (lim t) p = val (Z t) p).
    { intros t p Ht Hp. apply (eq_small _ _ (2 * r)); [lra|]. intros n. pose proof (lim_near (Datatypes.S n) t p Ht Hp) as A1. 
      assert (P : 0 <= 2 * r * (/ 2) ^ n) by (apply Rmult_le_pos; [lra|apply pow_le; lra]).
      pose proof (next_half lim (it n) Z (it (Datatypes.S n)) (2 * r * (/ 2) ^ n) lim_good (it_good n) HZ (it_next n) P) as A2.
      specialize (A2 (fun s Hs q Hq => lim_near n s q Hs Hq) t Ht p Hp). cbn [pow] in A1. split_Rabs; lra. }
    intros t p Ht Hp. replace (f t (Z t) p) with (f t (lim t) p); [now apply ZD|].
    apply Rminus_diag_uniq. assert (X : Rabs (f t (lim t) p - f t (Z t) p) <= M * (Rabs (t - t) + 0)).
    { apply FL; try assumption; [apply good_bx; [apply lim_good|exact Ht]|apply good_bx; [exact (proj1 HZ)|exact Ht]|lra|]. intros q Hq. rewrite (E t q Ht Hq), Rminus_diag_eq, Rabs_R0 by reflexivity. lra. }
    rewrite (Rminus_diag_eq t t eq_refl), Rabs_R0, Rplus_0_l, Rmult_0_r in X. split_Rabs; lra.
Qed.
End Picard.
