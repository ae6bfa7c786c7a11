(** The errors reported by the operator test in exact arithmetic. *)
From Coq Require Import ZArith Reals List Bool Lia Lra Permutation.
From Verif Require Import Arith Arrays Prog Conc Launch Mesh Model Hex RSum Spec MeshProof MeshMem MeshFacts MeshR RealOps Over KernBase TendFn StepFn Stencil Accur Sample ConsistThms Diag DecayNum OpTest OpTestFn OpNum OpNum2 OpRun.
Import ListNotations.
Open Scope Z_scope.

Lemma fabs_R (x : R) : fabs (A:=RA) x = Rabs x.
Proof. unfold fabs. cbn [flt RA fofZ fopp]. destruct (Rlt_dec x 0); [rewrite Rabs_left; auto|rewrite Rabs_right; lra]. Qed.
Section OpErr.
Context (cf : config) (n : Z).
Local Notation h := (op_mesh (A:=RA) n).
Local Notation D := (dims_of cf h 0).
Context (Hok : mesh_ok cf h) (Hn : 48 <= n) (Hev : Z.even n = true).
Local Notation NC := (n * n).
Context (m : mem RA) (Hm : hexmem h (d_nlayers D) m).
Local Notation d := (dc h : R).
Local Notation T := (2 * PI * d)%R.

Lemma N0 : (48 <= IZR n)%R. Proof. now apply IZR_le. Qed.
Lemma dR : d = (1 / IZR n)%R. Proof. reflexivity. Qed.
Lemma d_pos : (0 < d)%R. Proof. rewrite dR. pose proof N0. apply Rdiv_lt_0_compat; lra. Qed.
Lemma nd : (IZR n * d = 1)%R. Proof. rewrite dR. pose proof N0. field. lra. Qed.
Lemma d_small : (d <= 1 / 48)%R.
Proof. rewrite dR. pose proof N0. apply Rmult_le_compat_l; [lra|]. apply Rinv_le_contravar; lra. Qed.
Lemma T_pos : (0 < T)%R. Proof. pose proof d_pos as P. pose proof PI_bounds. apply Rmult_lt_0_compat; [lra|exact P]. Qed.
Lemma T_sq : (T * T <= 18 / 1000)%R.
Proof.
  pose proof T_pos as P. pose proof d_small. pose proof d_pos. pose proof PI_bounds as [U0 U].
  assert (B : (T <= 2 * (31417 / 10000) * (1 / 48))%R) by (apply Rmult_le_compat; [lra|apply Rlt_le; assumption|lra|assumption]).
  eapply Rle_trans; [apply Rmult_le_compat; [apply Rlt_le, P|apply Rlt_le, P|exact B|exact B]|]. lra.
Qed.
Lemma Lx1 : (Lx h : R) = 1%R.
Proof. unfold Lx, period_x. cbn [fmul fofZ RA nx op_mesh hex3 dc]. apply nd. Qed.
Lemma Ly1 : (Ly h : R) = (sqrt 3 / 2)%R.
Proof. unfold Ly, period_y. cbn [fmul fdiv fofZ fsqrt RA ny op_mesh hex3 dc]. pose proof nd as E. rewrite dR in E. cbn [fdiv fofZ RA]. cbn [F RA] in *. rewrite E. lra. Qed.
Local Notation axR := (ax h : R -> R).
Local Notation byR := (by_ h : R -> R).
Lemma ax_R x : axR x = (2 * PI * x)%R.
Proof. unfold ax. rewrite Lx1. cbn [fmul fdiv fpi fofZ RA]. field. Qed.
Lemma by_R y : byR y = (4 * PI / sqrt 3 * y)%R.
Proof. unfold by_. rewrite Ly1. cbn [fmul fdiv fpi fofZ RA]. pose proof sqrt3_pos. field. lra. Qed.
Lemma Hax x s : axR (x + s)%R = (axR x + 2 * PI * s)%R. Proof. rewrite !ax_R. ring. Qed.
Lemma Hby y s : byR (y + s)%R = (byR y + 4 * PI / sqrt 3 * s)%R. Proof. rewrite !by_R. ring. Qed.
Lemma per_f (f : R -> R -> R) : (forall x y, f (x + 2 * PI)%R y = f x y /\ f x (y + 2 * PI)%R = f x y) ->
  periodic (period_x h) (period_y h) (fun x y => f (axR x) (byR y)).
Proof.
  intros H x y. change (period_x h) with (Lx h). change (period_y h) with (Ly h). rewrite Lx1, Ly1, Hax, Hby. pose proof sqrt3_pos.
  replace (4 * PI / sqrt 3 * (sqrt 3 / 2))%R with (2 * PI)%R by (field; lra). rewrite Rmult_1_r. apply H.
Qed.
Lemma per_phi : periodic (period_x h) (period_y h) (tphi axR byR).
Proof. apply (per_f (fun x y => sin x * sin y)%R). intros. rewrite !sin_plus, !sin_2PI, !cos_2PI; split; ring. Qed.
Lemma per_vx : periodic (period_x h) (period_y h) (tvx axR byR).
Proof. apply (per_f (fun x y => sin x * cos y)%R). intros. rewrite !sin_plus, !cos_plus, !sin_2PI, !cos_2PI; split; ring. Qed.
Lemma per_vy : periodic (period_x h) (period_y h) (tvy axR byR).
Proof. apply (per_f (fun x y => cos x * sin y)%R). intros. rewrite !sin_plus, !cos_plus, !sin_2PI, !cos_2PI; split; ring. Qed.
Let HX2 : 2 <= nx h. Proof. cbn. lia. Qed.
Let Hev' : Z.even (ny h) = true := Hev.

Lemma val_grad e : 0 <= e < 3 * NC -> e_grad h m e = Rabs (gex axR byR (e mod 3) (hxe h e) (hye h e) - Gr d (tphi axR byR) (e mod 3) (hxe h e) (hye h e)).
Proof.
  intros He. unfold e_grad. rewrite fabs_R. f_equal.
  assert (E1 : v_grad h m e = Gr d (tphi axR byR) (e mod 3) (hxe h e) (hye h e)).
  { apply (smp_grad cf h 0 Hok m Hm Hev' (tphi axR byR) (v_phi h m) per_phi); [|exact He].
    apply (smp_cells cf h 0 m Hm Hev'). intros c Hc. reflexivity. }
  assert (E2 : v_gradx h m e = gex axR byR (e mod 3) (hxe h e) (hye h e)).
  { unfold v_gradx. cbn [fadd fmul fcos fsin RA]. rewrite (cos_edge cf h 0 m Hm Hev'), (sin_edge cf h 0 m Hm Hev'), (hm_xe _ _ _ Hm), (hm_ye _ _ _ Hm) by exact He.
    unfold gex, o_gx, o_gy. rewrite Lx1, Ly1. cbn [fadd fmul fdiv fcos fsin fpi fofZ RA]. pose proof sqrt3_pos. cbn [F RA] in *. field. lra. }
  rewrite E1, E2. reflexivity.
Qed.
Lemma smp_n : smpE h (nvec (tvx axR byR) (tvy axR byR)) (v_n h m).
Proof. apply (smp_edges cf h 0 m Hm Hev'). intros e He. reflexivity. Qed.
Lemma per_n q : periodic (period_x h) (period_y h) (nvec (tvx axR byR) (tvy axR byR) q).
Proof. apply per_nvec; [apply per_vx|apply per_vy]. Qed.
Lemma val_div c : 0 <= c < NC -> e_div h m c = Rabs (2 * PI * (1 + 2 / sqrt 3) * cos (axR (hxc h c)) * cos (byR (hyc h c)) - Ou d (nvec (tvx axR byR) (tvy axR byR)) (hxc h c) (hyc h c)).
Proof.
  intros Hc. unfold e_div. rewrite fabs_R. f_equal.
  assert (E1 : v_div h m c = Ou d (nvec (tvx axR byR) (tvy axR byR)) (hxc h c) (hyc h c)).
  { rewrite <- (smp_outflow cf h 0 Hok d_pos m Hm Hev' HX2 _ (v_n h m) per_n smp_n c Hc).
    unfold v_div, outflow. cbn [fdiv fadd fmul fofZ RA]. cbn [F RA] in *.
    rewrite (iterZ_rsum _ _ (fun j => mr m EdgeSignOnCell [c; j] * mr m DvEdge [mi m EdgesOnCell [c; j]] * v_n h m (mi m EdgesOnCell [c; j]))%R).
    - rewrite Rplus_0_l. reflexivity.
    - intros j a. cbv zeta. cbn [F RA]. ring. }
  rewrite E1. unfold o_div. rewrite Lx1, Ly1, (hm_xc _ _ _ Hm), (hm_yc _ _ _ Hm) by exact Hc. cbn [fadd fsub fmul fdiv fcos fsin fpi fofZ RA]. pose proof sqrt3_pos. cbn [F RA] in *. field. lra.
Qed.
Lemma val_curl v : 0 <= v < 2 * NC -> e_curl h m v = Rabs (2 * PI * (-1 + 2 / sqrt 3) * sin (axR (hxv h v)) * sin (byR (hyv h v)) - Vo d (nvec (tvx axR byR) (tvy axR byR)) (v mod 2) (hxv h v) (hyv h v)).
Proof.
  intros Hv. unfold e_curl. rewrite fabs_R. f_equal.
  assert (E1 : v_curl h m v = Vo d (nvec (tvx axR byR) (tvy axR byR)) (v mod 2) (hxv h v) (hyv h v)).
  { rewrite <- (smp_vort cf h 0 Hok d_pos m Hm Hev' _ (v_n h m) per_n smp_n v Hv).
    unfold v_curl, vort, circ. cbn [fdiv fadd fmul fofZ RA]. cbn [F RA] in *.
    rewrite (iterZ_rsum _ _ (fun j => mr m EdgeSignOnVertex [v; j] * mr m DcEdge [mi m EdgesOnVertex [v; j]] * v_n h m (mi m EdgesOnVertex [v; j]))%R).
    - rewrite Rplus_0_l. reflexivity.
    - intros j a. cbv zeta. cbn [F RA]. ring. }
  rewrite E1. unfold o_curl. rewrite Lx1, Ly1, (hm_xv _ _ _ Hm), (hm_yv _ _ _ Hm) by exact Hv. cbn [fadd fsub fmul fdiv fcos fsin fpi fofZ RA]. pose proof sqrt3_pos. cbn [F RA] in *. field. lra.
Qed.
Lemma val_recon e : 0 <= e < 3 * NC -> e_recon h m e = Rabs (tvec (tvx axR byR) (tvy axR byR) (e mod 3) (hxe h e) (hye h e) - Re d (nvec (tvx axR byR) (tvy axR byR)) (e mod 3) (hxe h e) (hye h e)).
Proof.
  intros He. unfold e_recon. rewrite fabs_R. f_equal.
  assert (E1 : v_recon h m e = Re d (nvec (tvx axR byR) (tvy axR byR)) (e mod 3) (hxe h e) (hye h e)).
  { rewrite <- (smp_recon cf h 0 Hok m Hm Hev' _ (v_n h m) per_n smp_n e He).
    unfold v_recon, recon. cbn [fdiv fadd fmul fofZ RA]. cbn [F RA] in *.
    rewrite (iterZ_rsum _ _ (fun j => mr m WeightsOnEdge [e; j] * v_n h m (mi m EdgesOnEdge [e; j]))%R).
    - rewrite Rplus_0_l. reflexivity.
    - intros j a. reflexivity. }
  rewrite E1. unfold v_t, tvec. cbn [fadd fsub fmul fdiv fopp fcos fsin fpi fofZ RA].
  rewrite (cos_edge cf h 0 m Hm Hev'), (sin_edge cf h 0 m Hm Hev'), (hm_xe _ _ _ Hm), (hm_ye _ _ _ Hm) by exact He. reflexivity.
Qed.

(** ** Where the points are *)
Lemma TN : (T * IZR n = 2 * PI)%R. Proof. pose proof nd as E. replace (2 * PI * d * IZR n)%R with (2 * PI * (IZR n * d))%R by ring. rewrite E. ring. Qed.
Lemma at_cell i r : 0 <= i < n -> let c := cix n i r in
  byR (hyc h c) = (T * IZR (r + 1))%R /\ axR (hxc h c) = (if Z.even r then T * (IZR i + 1 / 2) else T * (IZR i + 1))%R.
Proof.
  intros Hi. cbv zeta. rewrite hyc_R, hxc_R, (rowof_cix n), (colof_cix n) by (exact Hi || lia). rewrite ax_R, by_R. pose proof sqrt3_pos. split.
  - field. lra.
  - destruct (Z.even r); rewrite ?plus_IZR; field.
Qed.
Lemma cell_in i r : 0 <= i < n -> 0 <= r < n -> 0 <= cix n i r < NC. Proof. intros Hi Hr. unfold cix. nia. Qed.
Lemma odd_row : Z.even (n - 1) = false.
Proof. replace (n - 1) with (Z.pred n) by lia. rewrite Z.even_pred, <- Z.negb_even, Hev. reflexivity. Qed.
Lemma even_n : exists k, n = 2 * k. Proof. destruct (proj1 (Z.even_spec n) Hev) as [k E]. now exists k. Qed.

(** Quarter of the period. *)
Lemma quarter : exists o, (o = 0 \/ o = 1 / 2)%R /\ (T * IZR ((n + 2) / 4) = PI / 2 + o * T)%R.
Proof.
  destruct even_n as [k E]. destruct (Z.even k) eqn:P; [apply Z.even_spec in P; destruct P as [j P]; exists 0%R|
    assert (P' : Z.Odd k) by (apply Z.odd_spec; rewrite <- Z.negb_even, P; reflexivity); destruct P' as [j P']; exists (1 / 2)%R].
  - split; [now left|]. pose proof TN as H. generalize dependent T. intros t H. assert (En : n = 4 * j) by lia. replace ((n + 2) / 4) with j by (rewrite En; apply (Z.div_unique _ _ _ 2); lia).
    assert (Hj : IZR n = (4 * IZR j)%R) by (rewrite En, mult_IZR; reflexivity). rewrite Hj in H. lra.
  - split; [now right|]. pose proof TN as H. generalize dependent T. intros t H. assert (En : n = 4 * j + 2) by lia. replace ((n + 2) / 4) with (j + 1) by (rewrite En; apply (Z.div_unique _ _ _ 0); lia).
    assert (Hj : IZR n = (4 * IZR j + 2)%R) by (rewrite En, plus_IZR, mult_IZR; reflexivity). rewrite Hj in H. rewrite plus_IZR. lra.
Qed.
Lemma quarter' : exists o, (o = 0 \/ o = 1 / 2)%R /\ (T * IZR (n / 4) = PI / 2 - o * T)%R.
Proof.
  destruct even_n as [k E]. destruct (Z.even k) eqn:P; [apply Z.even_spec in P; destruct P as [j P]; exists 0%R|
    assert (P' : Z.Odd k) by (apply Z.odd_spec; rewrite <- Z.negb_even, P; reflexivity); destruct P' as [j P']; exists (1 / 2)%R].
  - split; [now left|]. pose proof TN as H. generalize dependent T. intros t H. assert (En : n = 4 * j) by lia. replace (n / 4) with j by (rewrite En; apply (Z.div_unique _ _ _ 0); lia).
    assert (Hj : IZR n = (4 * IZR j)%R) by (rewrite En, mult_IZR; reflexivity). rewrite Hj in H. lra.
  - split; [now right|]. pose proof TN as H. generalize dependent T. intros t H. assert (En : n = 4 * j + 2) by lia. replace (n / 4) with j by (rewrite En; apply (Z.div_unique _ _ _ 2); lia).
    assert (Hj : IZR n = (4 * IZR j + 2)%R) by (rewrite En, plus_IZR, mult_IZR; reflexivity). rewrite Hj in H. lra.
Qed.
Lemma near o c : (o * o <= c -> 1 - c * (18 / 1000) / 2 <= cos (o * T))%R.
Proof.
  intros Ho. destruct (cos_bounds (o * T)) as [[H _] _]. eapply Rle_trans; [|exact H].
  assert (o * T * (o * T) <= c * (18 / 1000))%R; [|lra]. replace (o * T * (o * T))%R with (o * o * (T * T))%R by ring.
  pose proof T_sq. apply Rmult_le_compat; auto; [apply Rle_0_sqr|apply Rle_0_sqr].
Qed.
Lemma near_sin o z : (z = PI / 2 + o * T \/ z = PI / 2 + o * T + 2 * PI \/ z + 2 * PI = PI / 2 + o * T)%R -> sin z = cos (o * T)%R.
Proof.
  assert (E : sin (PI / 2 + o * T)%R = cos (o * T)%R) by (rewrite sin_plus, sin_PI2, cos_PI2; ring).
  intros [-> | [-> | H]]; [exact E| |].
  - rewrite sin_plus, sin_2PI, cos_2PI, E. ring.
  - rewrite <- E, <- H. rewrite sin_plus, sin_2PI, cos_2PI. ring.
Qed.
Lemma near_cos o z : (z = o * T \/ z = o * T + 2 * PI)%R -> cos z = cos (o * T)%R.
Proof. intros [-> | ->]; [reflexivity|]. rewrite cos_plus, sin_2PI, cos_2PI. ring. Qed.

(** ** The errors *)
Definition Cg : R := (7 / 12 * PI ^ 3)%R.
Definition Cd : R := ((21 + 14 * sqrt 3) / 36 * PI ^ 3)%R.
Definition Cc : R := ((12 + sqrt 3) / 18 * PI ^ 2)%R.
Definition Cr : R := ((69 + 4 * sqrt 3) / 72 * PI ^ 2)%R.
Local Notation N2 := (IZR n * IZR n)%R.
Lemma divd (x c k : R) : (x * d <= k -> k = c * d -> x <= c)%R.
Proof. intros H E. pose proof d_pos as P. apply (Rmult_le_reg_r d); [exact P|]. rewrite <- E. exact H. Qed.
Lemma divd' (x c k : R) : (k <= x * d -> k = c * d -> c <= x)%R.
Proof. intros H E. pose proof d_pos as P. apply (Rmult_le_reg_r d); [exact P|]. rewrite <- E. exact H. Qed.
Lemma Cg_d : (7 / 96 * (T * T * T) = Cg / N2 * d)%R.
Proof. unfold Cg. rewrite dR. pose proof N0. field. lra. Qed.
Lemma absd (x : R) : (Rabs x * d = Rabs (x * d))%R.
Proof. rewrite Rabs_mult, (Rabs_right d); [reflexivity|]. pose proof d_pos. lra. Qed.

Lemma grad_up e : 0 <= e < 3 * NC -> (e_grad h m e <= Cg / N2)%R.
Proof.
  intros He. rewrite val_grad by exact He. refine (divd _ _ _ _ Cg_d). rewrite absd, (grad_err d axR byR d_pos Hax Hby) by apply q3.
  change (?x - sin ?x)%R with (sn x). unfold Rminus at 1. rewrite <- Ropp_mult_distr_l_reverse.
  eapply Rle_trans; [apply lin2; apply sin_le1|]. rewrite Rabs_Ropp.
  apply (grad_bound T T_pos T_sq (e mod 3)); [apply q3|reflexivity|reflexivity].
Qed.
Lemma k_range : 0 <= (n + 2) / 4 - 1 < n.
Proof. assert (12 <= (n + 2) / 4) by (apply Z.div_le_lower_bound; lia). assert ((n + 2) / 4 < n) by (apply Z.div_lt_upper_bound; lia). lia. Qed.
Lemma grad_low : exists e, 0 <= e < 3 * NC /\ (97 / 100 * (Cg / N2) <= e_grad h m e)%R.
Proof.
  set (c := cix n ((n + 2) / 4 - 1) (n - 1)). exists (3 * c + 1).
  assert (Hc : 0 <= c < NC) by (apply cell_in; [apply k_range|lia]). split; [lia|].
  rewrite val_grad by lia. assert (Em : (3 * c + 1) mod 3 = 1) by (apply mod3; lia). rewrite Em.
  refine (divd' _ _ (97 / 100 * (7 / 96 * (T * T * T)))%R _ _); [|rewrite Cg_d; ring].
  rewrite absd, (grad_err d axR byR d_pos Hax Hby) by lia. eapply Rle_trans; [|apply Rle_abs].
  destruct (at_cell ((n + 2) / 4 - 1) (n - 1) k_range) as [EY EX]. fold c in EX, EY. rewrite odd_row in EX.
  rewrite (hxe_q h Hev' c 1), (hye_q h Hev' c 1) by lia.
  assert (AX : axR (hxc h c - d / 2 * cq 1)%R = (axR (hxc h c) - T / 4)%R) by (unfold Rminus at 1; rewrite Hax; unfold cq; cbn [Z.eqb Pos.eqb]; field).
  assert (AY : byR (hyc h c - d / 2 * sq 1)%R = (byR (hyc h c) - T / 2)%R).
  { unfold Rminus at 1; rewrite Hby; unfold sq; cbn [Z.eqb Pos.eqb]. pose proof sqrt3_pos. field. lra. }
  rewrite AX, AY, EX, EY. replace (n - 1 + 1) with n by lia. rewrite TN, minus_IZR. destruct quarter as (o & Ho & Hq).
  replace (T * (IZR ((n + 2) / 4) - 1 + 1))%R with (T * IZR ((n + 2) / 4))%R by ring. rewrite Hq.
  match goal with |- (_ <= _ * sin ?z1 - _ * sin ?z2)%R => rewrite (near_sin (o - 3 / 4) z1), (near_sin (o + 1 / 4) z2) by first [right; left; field | right; right; field] end.
  apply (grad_attained T T_pos T_sq); (eapply Rle_trans; [|apply (near _ (9 / 16)); destruct Ho as [-> | ->]; lra]); lra.
Qed.

Lemma Cd_d : ((21 + 14 * sqrt 3) / 384 * (T * T * T) * 4 / 3 = Cd / N2 * d)%R.
Proof. unfold Cd. rewrite dR. pose proof N0. field. lra. Qed.
Lemma div_form c : 0 <= c < NC -> (e_div h m c * d = 4 / 3 * cD T * Rabs (cos (axR (hxc h c)) * cos (byR (hyc h c))))%R.
Proof.
  intros Hc. rewrite val_div by exact Hc. rewrite absd, (div_err d axR byR d_pos Hax Hby).
  destruct (div_bound T T_pos T_sq) as [_ P]. pose proof d_pos as Pd.
  replace (4 / (3 * d) * (sn (T / 2) + w1 * sn (3 * T / 4) + w2 * sn (T / 4)) * (cos (axR (hxc h c)) * cos (byR (hyc h c))) * d)%R
    with (4 / 3 * cD T * (cos (axR (hxc h c)) * cos (byR (hyc h c))))%R by (unfold cD; field; lra).
  rewrite Rabs_mult, (Rabs_right (4 / 3 * cD T)) by lra. reflexivity.
Qed.
Lemma div_up c : 0 <= c < NC -> (e_div h m c <= Cd / N2)%R.
Proof.
  intros Hc. refine (divd _ _ _ _ Cd_d). rewrite div_form by exact Hc. destruct (div_bound T T_pos T_sq) as [[_ U] P].
  eapply Rle_trans; [apply Rmult_le_compat_l; [lra|apply cos_le1']|]. lra.
Qed.
Lemma div_low : exists c, 0 <= c < NC /\ (97 / 100 * (Cd / N2) <= e_div h m c)%R.
Proof.
  set (c := cix n (n - 1) (n - 1)). exists c. assert (Hc : 0 <= c < NC) by (apply cell_in; lia). split; [exact Hc|].
  refine (divd' _ _ (97 / 100 * ((21 + 14 * sqrt 3) / 384 * (T * T * T) * 4 / 3))%R _ _); [|rewrite Cd_d; ring].
  rewrite div_form by exact Hc. destruct (div_bound T T_pos T_sq) as [[L _] P].
  assert (Hi : 0 <= n - 1 < n) by lia. destruct (at_cell (n - 1) (n - 1) Hi) as [EY EX]. fold c in EX, EY. rewrite odd_row in EX.
  rewrite EX, EY. replace (n - 1 + 1) with n by lia. rewrite minus_IZR. replace (T * (IZR n - 1 + 1))%R with (T * IZR n)%R by ring. rewrite TN, cos_2PI.
  rewrite Rmult_1_r, Rabs_R1. lra.
Qed.

Lemma Cc_d : ((1 + 4 * sqrt 3) / 96 * (T * T) * (4 / sqrt 3) = Cc / IZR n * d)%R.
Proof.
  unfold Cc. rewrite dR. pose proof N0. pose proof sqrt3_pos as P. pose proof sqrt3_sq as Q. generalize dependent (sqrt 3). intros r P Q. field [Q]. split; lra.
Qed.
Lemma curl_form v : 0 <= v < 2 * NC -> (e_curl h m v * d =
  4 / sqrt 3 * Rabs (sin (axR (hxv h v)) * (sg (v mod 2) * bP T * cos (byR (hyv h v)) + bQ T * sin (byR (hyv h v)))))%R.
Proof.
  intros Hv. rewrite val_curl by exact Hv. pose proof (Z.mod_pos_bound v 2 eq_refl) as Hm2. rewrite absd, (curl_err d axR byR d_pos Hax Hby) by exact Hm2.
  pose proof d_pos as Pd. pose proof sqrt3_pos as P3.
  assert (P4 : (0 < 4 / sqrt 3)%R) by (apply Rdiv_lt_0_compat; lra).
  rewrite <- (Rabs_right (4 / sqrt 3)) at 1 by lra. rewrite <- Rabs_mult. f_equal. unfold cP, cQ, bP, bQ. field. split; lra.
Qed.
Lemma sg_abs p : Rabs (sg p) = 1%R. Proof. unfold sg. destruct (p =? 0); [apply Rabs_R1|]. rewrite Rabs_left; lra. Qed.
Lemma curl_up v : 0 <= v < 2 * NC -> (e_curl h m v <= 101 / 100 * (Cc / IZR n))%R.
Proof.
  intros Hv. refine (divd _ _ (101 / 100 * ((1 + 4 * sqrt 3) / 96 * (T * T)) * (4 / sqrt 3))%R _ _); [|rewrite Rmult_assoc, Cc_d; ring].
  rewrite curl_form by exact Hv. rewrite Rmult_comm. apply Rmult_le_compat_r; [|apply (curl_bound T T_pos T_sq); auto using sg_abs, sin_le1, cos_le1].
  pose proof sqrt3_pos. apply Rlt_le, Rdiv_lt_0_compat; lra.
Qed.
Lemma curl_low : exists v, 0 <= v < 2 * NC /\ (98 / 100 * (Cc / IZR n) <= e_curl h m v)%R.
Proof.
  set (c := cix n ((n + 2) / 4 - 1) (n - 1)). exists (2 * c). assert (Hc : 0 <= c < NC) by (apply cell_in; [apply k_range|lia]). split; [lia|].
  refine (divd' _ _ (98 / 100 * ((1 + 4 * sqrt 3) / 96 * (T * T)) * (4 / sqrt 3))%R _ _); [|rewrite Rmult_assoc, Cc_d; ring].
  rewrite curl_form, mod2' by lia. rewrite (Rmult_comm (4 / sqrt 3)). apply Rmult_le_compat_r; [pose proof sqrt3_pos; apply Rlt_le, Rdiv_lt_0_compat; lra|].
  eapply Rle_trans; [|apply Rle_abs]. change (sg 0) with 1%R.
  destruct (at_cell ((n + 2) / 4 - 1) (n - 1) k_range) as [EY EX]. fold c in EX, EY. rewrite odd_row in EX. destruct (vpos_e h c Hc) as [-> ->].
  assert (AX : axR (hxc h c - d / 2)%R = (axR (hxc h c) - T / 2)%R) by (unfold Rminus at 1; rewrite Hax; field).
  assert (AY : byR (hyc h c + d * sqrt 3 / 6)%R = (byR (hyc h c) + T / 3)%R).
  { rewrite Hby. pose proof sqrt3_pos. field. lra. }
  rewrite AX, AY, EX, EY. replace (n - 1 + 1) with n by lia. rewrite TN, minus_IZR. destruct quarter as (o & Ho & Hq).
  replace (T * (IZR ((n + 2) / 4) - 1 + 1))%R with (T * IZR ((n + 2) / 4))%R by ring. rewrite Hq.
  match goal with |- (_ <= sin ?z1 * (1 * _ * cos ?z2 + _))%R => rewrite (near_sin (o - 1 / 2) z1) by (left; field); rewrite (near_cos (1 / 3) z2) by (right; field) end.
  apply (curl_attained T T_pos T_sq); [split|..].
  - eapply Rle_trans; [|apply (near _ (1 / 4)); destruct Ho as [-> | ->]; lra]. lra.
  - apply COS_bound.
  - eapply Rle_trans; [|apply (near _ (1 / 9)); lra]. lra.
  - apply sin_le1.
Qed.

Lemma Cr_d : cR T = (Cr / N2)%R.
Proof. unfold cR, Cr. rewrite dR. pose proof N0. field. lra. Qed.
Lemma recon_up e : 0 <= e < 3 * NC -> (e_recon h m e <= Cr / N2)%R.
Proof.
  intros He. rewrite val_recon by exact He. rewrite (recon_err d axR byR Hax Hby) by apply q3. rewrite <- Cr_d.
  eapply Rle_trans; [apply lin2; apply sin_le1|]. destruct (recon_bound T T_pos T_sq) as [[L U] V].
  assert (P : (0 <= cR T)%R). { unfold cR. pose proof s3_bounds. pose proof (Rle_0_sqr T) as Sq. unfold Rsqr in Sq. apply Rmult_le_pos; [lra|exact Sq]. }
  change (bKa T) with (Ka d) in V. change (bKb T) with (Kb d) in V. change (bK0 T) with (K0 d) in L, U.
  unfold Kt1, Kt2. destruct (e mod 3 =? 0); [|destruct (e mod 3 =? 1)].
  - rewrite Rabs_Ropp, Rabs_right; lra.
  - exact V.
  - rewrite Rplus_comm. exact V.
Qed.
Lemma recon_low : exists e, 0 <= e < 3 * NC /\ (97 / 100 * (Cr / N2) <= e_recon h m e)%R.
Proof.
  assert (Hi : 0 <= 0 < n) by lia. assert (Hr : 0 <= n / 4 - 1 < n).
  { assert (12 <= n / 4) by (apply Z.div_le_lower_bound; lia). assert (n / 4 < n) by (apply Z.div_lt_upper_bound; lia). lia. }
  set (c := cix n 0 (n / 4 - 1)). exists (3 * c). assert (Hc : 0 <= c < NC) by (apply cell_in; assumption). split; [lia|].
  rewrite val_recon, mod3' by lia. rewrite (recon_err d axR byR Hax Hby) by lia. rewrite <- Cr_d.
  destruct (at_cell 0 (n / 4 - 1) Hi) as [EY EX]. fold c in EX, EY. rewrite (hxe_0 h Hev'), (hye_0 h Hev').
  unfold Kt1, Kt2. cbn [Z.eqb]. change (K0 d) with (bK0 T). destruct (recon_bound T T_pos T_sq) as [[L U] V].
  set (X := axR (hxc h c - d / 2 * cq 0)%R). set (Y := byR (hyc h c - d / 2 * sq 0)%R).
  replace (bK0 T * sin (X + Y) + - bK0 T * sin (X - Y))%R with (2 * bK0 T * (cos X * sin Y))%R by (rewrite sin_plus, sin_minus; ring).
  eapply Rle_trans; [|apply Rle_abs].
  assert (P : (0 <= cR T)%R). { unfold cR. pose proof s3_bounds. pose proof (Rle_0_sqr T) as Sq. unfold Rsqr in Sq. apply Rmult_le_pos; [lra|exact Sq]. }
  assert (AX : exists o, (o = 0 \/ o = 1 / 2)%R /\ X = (o * T)%R).
  { destruct (Z.even (n / 4 - 1)); [exists 0%R; split; [now left|]|exists (1 / 2)%R; split; [now right|]];
    (unfold X, Rminus; rewrite Hax, EX; unfold cq; cbn [Z.eqb]; field). }
  assert (AY : exists o, (o = 0 \/ o = 1 / 2)%R /\ Y = (PI / 2 + - o * T)%R).
  { destruct quarter' as (o & Ho & Hq). exists o. split; [exact Ho|]. unfold Y, Rminus. rewrite Hby, EY. replace (n / 4 - 1 + 1) with (n / 4) by lia. rewrite Hq.
    unfold sq. cbn [Z.eqb]. pose proof sqrt3_pos. field. lra. }
  destruct AX as (o & Ho & ->), AY as (o' & Ho' & ->). rewrite (near_sin (- o') (PI / 2 + - o' * T)) by (left; reflexivity).
  assert (C1 : (997 / 1000 <= cos (o * T))%R) by (eapply Rle_trans; [|apply (near _ (1 / 4)); destruct Ho as [-> | ->]; lra]; lra).
  assert (C2 : (997 / 1000 <= cos (- o' * T))%R) by (eapply Rle_trans; [|apply (near _ (1 / 4)); destruct Ho' as [-> | ->]; lra]; lra).
  assert (C3 : (997 / 1000 * (997 / 1000) <= cos (o * T) * cos (- o' * T))%R) by (apply Rmult_le_compat; lra).
  assert (C4 : (997 / 1000 * cR T * (997 / 1000 * (997 / 1000)) <= 2 * bK0 T * (cos (o * T) * cos (- o' * T)))%R) by (apply Rmult_le_compat; lra).
  lra.
Qed.
End OpErr.
