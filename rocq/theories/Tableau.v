(** Runge-Kutta tableaux: sums over stages, and the tableau equivalent to the five-stage low storage scheme
    with an evaluation of its order conditions in interval arithmetic. *)
From Coq Require Import ZArith Reals Lia Lra Bool.
Open Scope R_scope.

(** Sums over the stages. *)
Definition s4 (f : Z -> R) : R := (f 0%Z + f 1%Z + f 2%Z + f 3%Z)%R.
Definition s5 (f : Z -> R) : R := (f 0%Z + f 1%Z + f 2%Z + f 3%Z + f 4%Z)%R.

(** ** The tableau equivalent to the five-stage low storage scheme *)
Definition tab_a (i : Z) : R := match i with 0%Z => 0 | 1%Z => -567301805773 / 1357537059087 | 2%Z => -2404267990393 / 2016746695238
  | 3%Z => -3550918686646 / 2091501179385 | _ => -1275806237668 / 842570457699 end.
Definition tab_b (i : Z) : R := match i with 0%Z => 1432997174477 / 9575080441755 | 1%Z => 5161836677717 / 13612068292357
  | 2%Z => 1720146321549 / 2090206949498 | 3%Z => 3134564353537 / 4481467310338 | _ => 2277821191437 / 14882151754819 end.
Definition tab_c (i : Z) : R := match i with 0%Z => 0 | 1%Z => 1432997174477 / 9575080441755 | 2%Z => 2526269341429 / 6820363962896
  | 3%Z => 2006345519317 / 3224310063776 | _ => 2802321613138 / 2924317926251 end.
(** Row [i]: the weights of the tendencies of stages 0..4 in the state before stage [i]. *)
Definition tabA (a b : Z -> R) (i j : Z) : R :=
  let on p x := if (p <=? i)%Z then x else 0 in
  match j with
  | 0%Z => on 1%Z (b 0%Z) + on 2%Z (b 1%Z * a 1%Z) + on 3%Z (b 2%Z * a 1%Z * a 2%Z) + on 4%Z (b 3%Z * a 1%Z * a 2%Z * a 3%Z) + on 5%Z (b 4%Z * a 1%Z * a 2%Z * a 3%Z * a 4%Z)
  | 1%Z => on 2%Z (b 1%Z) + on 3%Z (b 2%Z * a 2%Z) + on 4%Z (b 3%Z * a 2%Z * a 3%Z) + on 5%Z (b 4%Z * a 2%Z * a 3%Z * a 4%Z)
  | 2%Z => on 3%Z (b 2%Z) + on 4%Z (b 3%Z * a 3%Z) + on 5%Z (b 4%Z * a 3%Z * a 4%Z)
  | 3%Z => on 4%Z (b 3%Z) + on 5%Z (b 4%Z * a 4%Z)
  | 4%Z => on 5%Z (b 4%Z)
  | _ => 0
  end.

(** ** Intervals with integer bounds in units of 2^-110 *)
Definition unit : Z := (2 ^ 110)%Z.
Definition inI (i : Z * Z) (x : R) : Prop := IZR (fst i) <= x * IZR unit <= IZR (snd i).
Definition ratI (n d : Z) : Z * Z := ((n * unit) / d, (n * unit) / d + 1)%Z.
Definition addI (i j : Z * Z) : Z * Z := (fst i + fst j, snd i + snd j)%Z.
Definition mulI (i j : Z * Z) : Z * Z :=
  let p := (fst i * fst j)%Z in let q := (fst i * snd j)%Z in let r := (snd i * fst j)%Z in let s := (snd i * snd j)%Z in
  (Z.min (Z.min p q) (Z.min r s) / unit, Z.max (Z.max p q) (Z.max r s) / unit + 1)%Z.

Lemma unit_pos : (0 < unit)%Z.
Proof. reflexivity. Qed.
Lemma unitR_pos : 0 < IZR unit.
Proof. apply (IZR_lt 0). apply unit_pos. Qed.
Lemma div_lo z d : (0 < d)%Z -> IZR (z / d) * IZR d <= IZR z.
Proof. intros H. rewrite <- mult_IZR. apply IZR_le. pose proof (Z.mul_div_le z d H). lia. Qed.
Lemma div_hi z d : (0 < d)%Z -> IZR z <= IZR (z / d + 1) * IZR d.
Proof. intros H. rewrite <- mult_IZR. apply IZR_le. pose proof (Z.mul_succ_div_gt z d H). lia. Qed.
Lemma rat_in n d : (0 <? d)%Z = true -> inI (ratI n d) (IZR n / IZR d).
Proof.
  intros H. apply Z.ltb_lt in H. assert (0 < IZR d) by now apply (IZR_lt 0). unfold inI, ratI. cbn [fst snd].
  assert (E : IZR n / IZR d * IZR unit = IZR (n * unit) / IZR d) by (rewrite mult_IZR; field; lra). rewrite E.
  pose proof (div_lo (n * unit) d H). pose proof (div_hi (n * unit) d H).
  split; apply (Rmult_le_reg_r (IZR d)); try assumption; unfold Rdiv; rewrite Rmult_assoc, Rinv_l, Rmult_1_r by lra; lra.
Qed.
Lemma zero_in : inI (0, 0)%Z 0.
Proof. unfold inI. cbn [fst snd]. lra. Qed.
Lemma add_in i j x y : inI i x -> inI j y -> inI (addI i j) (x + y).
Proof. unfold inI, addI. cbn [fst snd]. rewrite !plus_IZR. intros. lra. Qed.
Lemma mul_bounds a b c d x y : a <= x <= b -> c <= y <= d ->
  Rmin (Rmin (a * c) (a * d)) (Rmin (b * c) (b * d)) <= x * y <= Rmax (Rmax (a * c) (a * d)) (Rmax (b * c) (b * d)).
Proof.
  intros H1 H2.
  assert (L : forall u v w z, u <= w <= v -> Rmin (u * z) (v * z) <= w * z <= Rmax (u * z) (v * z)).
  { intros u v w z H. destruct (Rle_or_lt 0 z) as [Hz|Hz].
    - assert (u * z <= w * z) by (apply Rmult_le_compat_r; lra). assert (w * z <= v * z) by (apply Rmult_le_compat_r; lra).
      split; [eapply Rle_trans; [apply Rmin_l|lra]|eapply Rle_trans; [|apply Rmax_r]; lra].
    - assert (v * z <= w * z) by (rewrite (Rmult_comm v), (Rmult_comm w); apply Rmult_le_compat_neg_l; lra).
      assert (w * z <= u * z) by (rewrite (Rmult_comm u), (Rmult_comm w); apply Rmult_le_compat_neg_l; lra).
      split; [eapply Rle_trans; [apply Rmin_r|lra]|eapply Rle_trans; [|apply Rmax_l]; lra]. }
  pose proof (L a b x y H1) as [A1 A2]. pose proof (L c d y a H2) as [B1 B2]. pose proof (L c d y b H2) as [C1 C2].
  rewrite !(Rmult_comm _ a) in B1, B2. rewrite !(Rmult_comm _ b) in C1, C2.
  split.
  - eapply Rle_trans; [|exact A1]. apply Rmin_glb; [eapply Rle_trans; [apply Rmin_l|]|eapply Rle_trans; [apply Rmin_r|]]; assumption.
  - eapply Rle_trans; [exact A2|]. apply Rmax_lub; [eapply Rle_trans; [|apply Rmax_l]|eapply Rle_trans; [|apply Rmax_r]]; assumption.
Qed.
Lemma min_IZR a b : IZR (Z.min a b) = Rmin (IZR a) (IZR b).
Proof.
  destruct (Z.le_ge_cases a b); [rewrite Z.min_l, Rmin_left|rewrite Z.min_r, Rmin_right]; auto using IZR_le; apply IZR_le; lia.
Qed.
Lemma max_IZR a b : IZR (Z.max a b) = Rmax (IZR a) (IZR b).
Proof.
  destruct (Z.le_ge_cases a b); [rewrite Z.max_r, Rmax_right|rewrite Z.max_l, Rmax_left]; auto using IZR_le; apply IZR_le; lia.
Qed.
Lemma mul_in i j x y : inI i x -> inI j y -> inI (mulI i j) (x * y).
Proof.
  unfold inI. intros H1 H2. pose proof (mul_bounds _ _ _ _ _ _ H1 H2) as [B1 B2]. unfold mulI. cbn [fst snd].
  rewrite <- !mult_IZR, <- !min_IZR in B1. rewrite <- !mult_IZR, <- !max_IZR in B2.
  match type of B1 with IZR ?z <= _ => pose proof (div_lo z unit unit_pos) end.
  match type of B2 with _ <= IZR ?z => pose proof (div_hi z unit unit_pos) end.
  pose proof unitR_pos as U. split; apply (Rmult_le_reg_r (IZR unit) _ _ U); lra.
Qed.
Lemma sq_in i x : inI i x -> inI (mulI i i) (x ^ 2).
Proof. intros H. replace (x ^ 2) with (x * x) by ring. now apply mul_in. Qed.
Lemma cube_in i x : inI i x -> inI (mulI (mulI i i) i) (x ^ 3).
Proof. intros H. replace (x ^ 3) with (x * x * x) by ring. now apply mul_in; [apply mul_in|]. Qed.
Lemma conv_in i j x : inI i x -> i = j -> inI j x.
Proof. now intros H <-. Qed.

(** [iv x] proves [inI literal x] from hypotheses about the leaves. *)
Ltac iv_term x :=
  lazymatch goal with
  | H : inI _ x |- _ => H
  | _ => lazymatch x with
    | s5 ?f => let a := eval cbv beta in (f 0%Z + f 1%Z + f 2%Z + f 3%Z + f 4%Z) in iv_term a
    | ?a + ?b => let p := iv_term a in let q := iv_term b in constr:(add_in _ _ _ _ p q)
    | ?a ^ 2 => let p := iv_term a in constr:(sq_in _ _ p)
    | ?a ^ 3 => let p := iv_term a in constr:(cube_in _ _ p)
    | ?a * ?b => let p := iv_term a in let q := iv_term b in constr:(mul_in _ _ _ _ p q)
    | 0 => constr:(zero_in)
    end
  end.
Ltac iv x := let t := iv_term x in
  let T := type of t in
  lazymatch T with inI ?i ?y => let v := eval vm_compute in i in
    let H := fresh "I" in assert (H : inI v x) by (exact_no_check (conv_in i v x t (eq_refl v <: i = v))) end.
Lemma close_in i x (n d : Z) : inI i x -> (0 < d)%Z -> let e := (10 ^ 25)%Z in
  (n * unit * e - unit * d <=? fst i * d * e)%Z && (snd i * d * e <=? n * unit * e + unit * d)%Z = true ->
  Rabs (x - IZR n / IZR d) <= 1 / 10 ^ 25.
Proof.
  intros [H1 H2] Hd e H. apply andb_true_iff in H. destruct H as [A B]. apply Z.leb_le, IZR_le in A, B.
  rewrite minus_IZR, !mult_IZR in A. rewrite plus_IZR, !mult_IZR in B. pose proof unitR_pos as U.
  assert (D : 0 < IZR d) by now apply (IZR_lt 0).
  assert (Ee : 10 ^ 25 = IZR e) by (rewrite pow_IZR; reflexivity). rewrite Ee.
  assert (Ep : 0 < IZR e) by (apply (IZR_lt 0); reflexivity). clearbody e. generalize dependent unit. intros u H1 H2 A B U.
  set (X := x) in *. clearbody X.
  assert (A' : IZR n * IZR e - IZR d <= X * IZR d * IZR e).
  { apply (Rmult_le_reg_r (IZR u)); [assumption|]. apply Rle_trans with (IZR (fst i) * IZR d * IZR e); [lra|].
    replace (X * IZR d * IZR e * IZR u) with (X * IZR u * (IZR d * IZR e)) by ring. rewrite (Rmult_assoc (IZR (fst i))). apply Rmult_le_compat_r; [|assumption].
    apply Rlt_le, Rmult_lt_0_compat; assumption. }
  assert (B' : X * IZR d * IZR e <= IZR n * IZR e + IZR d).
  { apply (Rmult_le_reg_r (IZR u)); [assumption|]. apply Rle_trans with (IZR (snd i) * IZR d * IZR e); [|lra].
    replace (X * IZR d * IZR e * IZR u) with (X * IZR u * (IZR d * IZR e)) by ring. rewrite (Rmult_assoc (IZR (snd i))). apply Rmult_le_compat_r; [|assumption].
    apply Rlt_le, Rmult_lt_0_compat; assumption. }
  assert (DE : 0 < IZR d * IZR e) by (apply Rmult_lt_0_compat; assumption).
  apply Rabs_le. split; apply (Rmult_le_reg_r (IZR d * IZR e)); try assumption.
  - replace (- (1 / IZR e) * (IZR d * IZR e)) with (- IZR d) by (field; lra).
    replace ((X - IZR n / IZR d) * (IZR d * IZR e)) with (X * IZR d * IZR e - IZR n * IZR e) by (field; lra). lra.
  - replace (1 / IZR e * (IZR d * IZR e)) with (IZR d) by (field; lra).
    replace ((X - IZR n / IZR d) * (IZR d * IZR e)) with (X * IZR d * IZR e - IZR n * IZR e) by (field; lra). lra.
Qed.


(** The entries of the tableau. *)
Ltac ent i j :=
  let y := eval cbv [tabA Z.leb Z.compare Pos.compare Pos.compare_cont] in (tabA tab_a tab_b i j) in
  iv y; lazymatch goal with H : inI ?v y |- _ => change (inI v (tabA tab_a tab_b i j)) in H end.
Lemma tab_entries (G : (Z -> Z -> R) -> (Z -> R) -> Prop) :
  (forall A c,
    inI (0, 0)%Z (A 0%Z 0%Z) ->
    inI (0, 0)%Z (A 0%Z 1%Z) ->
    inI (0, 0)%Z (A 0%Z 2%Z) ->
    inI (0, 0)%Z (A 0%Z 3%Z) ->
    inI (0, 0)%Z (A 0%Z 4%Z) ->
    inI (194268517444498001035123936361735, 194268517444498001035123936361736)%Z (A 1%Z 0%Z) ->
    inI (0, 0)%Z (A 1%Z 1%Z) ->
    inI (0, 0)%Z (A 1%Z 2%Z) ->
    inI (0, 0)%Z (A 1%Z 3%Z) ->
    inI (0, 0)%Z (A 1%Z 4%Z) ->
    inI (-11435197397880092091228943642868, -11435197397880092091228943642866)%Z (A 2%Z 0%Z) ->
    inI (492243129227993359560746032315486, 492243129227993359560746032315487)%Z (A 2%Z 1%Z) ->
    inI (0, 0)%Z (A 2%Z 2%Z) ->
    inI (0, 0)%Z (A 2%Z 3%Z) ->
    inI (0, 0)%Z (A 2%Z 4%Z) ->
    inI (520758367685434213403616830669881, 520758367685434213403616830669887)%Z (A 3%Z 0%Z) ->
    inI (-781280910103759427675501016402335, -781280910103759427675501016402331)%Z (A 3%Z 1%Z) ->
    inI (1068256703450365480730250436491651, 1068256703450365480730250436491652)%Z (A 3%Z 2%Z) ->
    inI (0, 0)%Z (A 3%Z 3%Z) ->
    inI (0, 0)%Z (A 3%Z 4%Z) ->
    inI (-247191883078961692653812065269960, -247191883078961692653812065269944)%Z (A 4%Z 0%Z) ->
    inI (1056402161479792430939260778007193, 1056402161479792430939260778007204)%Z (A 4%Z 1%Z) ->
    inI (-473227555509111779742796457948808, -473227555509111779742796457948804)%Z (A 4%Z 2%Z) ->
    inI (907938601281344888215420437520958, 907938601281344888215420437520959)%Z (A 4%Z 3%Z) ->
    inI (0, 0)%Z (A 4%Z 4%Z) ->
    inI (7261671785246144446973488733409, 7261671785246144446973488733433)%Z (A 5%Z 0%Z) ->
    inI (447502053936666373575665491972212, 447502053936666373575665491972234)%Z (A 5%Z 1%Z) ->
    inI (37529683086796439699697254176955, 37529683086796439699697254176964)%Z (A 5%Z 2%Z) ->
    inI (607101138874742519263138026469061, 607101138874742519263138026469064)%Z (A 5%Z 3%Z) ->
    inI (198679666950255430147149869147729, 198679666950255430147149869147730)%Z (A 5%Z 4%Z) ->
    inI (0, 0)%Z (c 0%Z) ->
    inI (194268517444498001035123936361735, 194268517444498001035123936361736)%Z (c 1%Z) ->
    inI (480807931830113267469517078465944, 480807931830113267469517078465945)%Z (c 2%Z) ->
    inI (807734161032040266458366137919882, 807734161032040266458366137919883)%Z (c 3%Z) ->
    inI (1243921324173063846758072655228693, 1243921324173063846758072655228694)%Z (c 4%Z) ->
    G A c) -> G (tabA tab_a tab_b) tab_c.
Proof.
  intros H.
  pose proof (rat_in (-567301805773) 1357537059087 eq_refl : inI _ (tab_a 1)) as a1.
  pose proof (rat_in (-2404267990393) 2016746695238 eq_refl : inI _ (tab_a 2)) as a2.
  pose proof (rat_in (-3550918686646) 2091501179385 eq_refl : inI _ (tab_a 3)) as a3.
  pose proof (rat_in (-1275806237668) 842570457699 eq_refl : inI _ (tab_a 4)) as a4.
  pose proof (rat_in 1432997174477 9575080441755 eq_refl : inI _ (tab_b 0)) as b0.
  pose proof (rat_in 5161836677717 13612068292357 eq_refl : inI _ (tab_b 1)) as b1.
  pose proof (rat_in 1720146321549 2090206949498 eq_refl : inI _ (tab_b 2)) as b2.
  pose proof (rat_in 3134564353537 4481467310338 eq_refl : inI _ (tab_b 3)) as b3.
  pose proof (rat_in 2277821191437 14882151754819 eq_refl : inI _ (tab_b 4)) as b4.
  assert (c0 : inI (0, 0)%Z (tab_c 0)) by exact zero_in.
  pose proof (rat_in 1432997174477 9575080441755 eq_refl : inI _ (tab_c 1)) as c1.
  pose proof (rat_in 2526269341429 6820363962896 eq_refl : inI _ (tab_c 2)) as c2.
  pose proof (rat_in 2006345519317 3224310063776 eq_refl : inI _ (tab_c 3)) as c3.
  pose proof (rat_in 2802321613138 2924317926251 eq_refl : inI _ (tab_c 4)) as c4.
  ent 0%Z 0%Z.
  ent 0%Z 1%Z.
  ent 0%Z 2%Z.
  ent 0%Z 3%Z.
  ent 0%Z 4%Z.
  ent 1%Z 0%Z.
  ent 1%Z 1%Z.
  ent 1%Z 2%Z.
  ent 1%Z 3%Z.
  ent 1%Z 4%Z.
  ent 2%Z 0%Z.
  ent 2%Z 1%Z.
  ent 2%Z 2%Z.
  ent 2%Z 3%Z.
  ent 2%Z 4%Z.
  ent 3%Z 0%Z.
  ent 3%Z 1%Z.
  ent 3%Z 2%Z.
  ent 3%Z 3%Z.
  ent 3%Z 4%Z.
  ent 4%Z 0%Z.
  ent 4%Z 1%Z.
  ent 4%Z 2%Z.
  ent 4%Z 3%Z.
  ent 4%Z 4%Z.
  ent 5%Z 0%Z.
  ent 5%Z 1%Z.
  ent 5%Z 2%Z.
  ent 5%Z 3%Z.
  ent 5%Z 4%Z.
  apply H; match goal with
    | K : inI _ ?x |- inI _ ?x => exact (conv_in _ _ _ K eq_refl)
    end.
Qed.

Lemma diff_in i j x y : inI i x -> inI j y -> let e := (10 ^ 25)%Z in
  ((snd i - fst j) * e <=? unit)%Z && ((snd j - fst i) * e <=? unit)%Z = true -> Rabs (x - y) <= 1 / 10 ^ 25.
Proof.
  intros [H1 H2] [H3 H4] e H. apply andb_true_iff in H. destruct H as [A B]. apply Z.leb_le, IZR_le in A, B.
  rewrite mult_IZR, minus_IZR in A, B. pose proof unitR_pos as U.
  assert (Ee : 10 ^ 25 = IZR e) by (rewrite pow_IZR; reflexivity). rewrite Ee.
  assert (Ep : 0 < IZR e) by (apply (IZR_lt 0); reflexivity). clearbody e. generalize dependent unit. intros u H1 H2 H3 H4 A B U.
  assert (L : forall p q P Q, P <= p * IZR u -> q * IZR u <= Q -> (Q - P) * IZR e <= IZR u -> q - p <= 1 / IZR e).
  { intros p q P Q K1 K2 K3. apply (Rmult_le_reg_r (IZR e)); [assumption|]. replace (1 / IZR e * IZR e) with 1 by (field; lra).
    apply (Rmult_le_reg_r (IZR u)); [assumption|]. apply Rle_trans with ((Q - P) * IZR e); [|lra].
    replace ((q - p) * IZR e * IZR u) with ((q * IZR u - p * IZR u) * IZR e) by ring. apply Rmult_le_compat_r; lra. }
  pose proof (L y x _ _ H3 H2 A). pose proof (L x y _ _ H1 H4 B).
  apply Rabs_le. lra.
Qed.

Lemma tab_rows : forall i, (0 <= i < 5)%Z -> Rabs (tab_c i - s5 (tabA tab_a tab_b i)) <= 1 / 10 ^ 25.
Proof.
  apply (tab_entries (fun A c => forall i, (0 <= i < 5)%Z -> Rabs (c i - s5 (A i)) <= 1 / 10 ^ 25)).
  intros A c. intros. assert (C : (i = 0 \/ i = 1 \/ i = 2 \/ i = 3 \/ i = 4)%Z) by lia.
  destruct C as [->|[->|[->|[->| ->]]]].
  - iv (s5 (A 0%Z)). eapply diff_in; [eassumption|eassumption|vm_compute; reflexivity].
  - iv (s5 (A 1%Z)). eapply diff_in; [eassumption|eassumption|vm_compute; reflexivity].
  - iv (s5 (A 2%Z)). eapply diff_in; [eassumption|eassumption|vm_compute; reflexivity].
  - iv (s5 (A 3%Z)). eapply diff_in; [eassumption|eassumption|vm_compute; reflexivity].
  - iv (s5 (A 4%Z)). eapply diff_in; [eassumption|eassumption|vm_compute; reflexivity].
Qed.

Ltac close n d := match goal with |- Rabs (?x - _) <= _ => iv x end;
  match goal with K : inI _ ?x |- Rabs (?x - _) <= _ => apply (close_in _ _ n d K); [reflexivity|vm_compute; reflexivity] end.
Lemma tab_order : let b := tabA tab_a tab_b 5 in let a := tabA tab_a tab_b in let eps := 1 / 10 ^ 25 in
  Rabs (s5 b - 1) <= eps /\ Rabs (s5 (fun i => b i * s5 (a i)) - 1 / 2) <= eps /\
   Rabs (s5 (fun i => b i * s5 (a i) ^ 2) - 1 / 3) <= eps /\ Rabs (s5 (fun i => b i * s5 (fun j => a i j * s5 (a j))) - 1 / 6) <= eps /\
   Rabs (s5 (fun i => b i * s5 (a i) ^ 3) - 1 / 4) <= eps /\ Rabs (s5 (fun i => b i * s5 (a i) * s5 (fun j => a i j * s5 (a j))) - 1 / 8) <= eps /\
   Rabs (s5 (fun i => b i * s5 (fun j => a i j * s5 (a j) ^ 2)) - 1 / 12) <= eps /\
   Rabs (s5 (fun i => b i * s5 (fun j => a i j * s5 (fun l => a j l * s5 (a l)))) - 1 / 24) <= eps.
Proof.
  cbv zeta.
  apply (tab_entries (fun a c => 
    Rabs (s5 (a 5%Z) - 1) <= 1 / 10 ^ 25 /\ Rabs (s5 (fun i => a 5%Z i * s5 (a i)) - 1 / 2) <= 1 / 10 ^ 25 /\
   Rabs (s5 (fun i => a 5%Z i * s5 (a i) ^ 2) - 1 / 3) <= 1 / 10 ^ 25 /\ Rabs (s5 (fun i => a 5%Z i * s5 (fun j => a i j * s5 (a j))) - 1 / 6) <= 1 / 10 ^ 25 /\
   Rabs (s5 (fun i => a 5%Z i * s5 (a i) ^ 3) - 1 / 4) <= 1 / 10 ^ 25 /\ Rabs (s5 (fun i => a 5%Z i * s5 (a i) * s5 (fun j => a i j * s5 (a j))) - 1 / 8) <= 1 / 10 ^ 25 /\
   Rabs (s5 (fun i => a 5%Z i * s5 (fun j => a i j * s5 (a j) ^ 2)) - 1 / 12) <= 1 / 10 ^ 25 /\
   Rabs (s5 (fun i => a 5%Z i * s5 (fun j => a i j * s5 (fun l => a j l * s5 (a l)))) - 1 / 24) <= 1 / 10 ^ 25)).
  intros A c. intros.
  iv (s5 (A 0%Z)). iv (s5 (A 1%Z)). iv (s5 (A 2%Z)). iv (s5 (A 3%Z)). iv (s5 (A 4%Z)).
  iv (s5 (fun j => A 0%Z j * s5 (A j))). iv (s5 (fun j => A 1%Z j * s5 (A j))). iv (s5 (fun j => A 2%Z j * s5 (A j))).
  iv (s5 (fun j => A 3%Z j * s5 (A j))). iv (s5 (fun j => A 4%Z j * s5 (A j))).
  repeat split.
  - replace 1 with (1 / 1) at 1 by field. close 1%Z 1%Z.
  - close 1%Z 2%Z.
  - close 1%Z 3%Z.
  - close 1%Z 6%Z.
  - close 1%Z 4%Z.
  - close 1%Z 8%Z.
  - close 1%Z 12%Z.
  - close 1%Z 24%Z.
Qed.
