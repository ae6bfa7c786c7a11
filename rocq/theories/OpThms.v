(** Proofs of the theorems about test/operator_convergence.cpp. *)
From Coq Require Import ZArith Reals List Bool Lia Lra.
From Verif Require Import Arith Arrays Prog Conc Launch Mesh Model Hex RSum Spec MeshProof MeshMem MeshR OpTest TestRun OpTestFn OpNum OpNum2 OpRun OpErr DecayNum2.
Import ListNotations.
Open Scope Z_scope.

Lemma max_of_some {A} cf (h : hexargs A) a n m r : rext (dims_of cf h 0) a = [n] -> max_of cf h a n m r -> exists e, r = Some e.
Proof.
  intros Hx H. eapply max_some; [|exact H]. intros i Hi. cbn [validb]. rewrite Hx. apply inb1. now apply in_zseq.
Qed.

Section Val.
Context (cf : config) (n : Z).
Local Notation h := (op_mesh (A:=RA) n).
Context (Hok : mesh_ok cf h) (Hn : 48 <= n) (Hev : Z.even n = true).
Context (M : mem RA) (HM : op_post cf h M).
Let Np : (0 < IZR n)%R. Proof. apply IZR_lt. lia. Qed.
Let p3 : (1 < sqrt 3)%R. Proof. pose proof s3_bounds. lra. Qed.
Lemma c_pos2 c : (0 <= c -> 0 <= c / (IZR n * IZR n))%R.
Proof. intros H. apply Rmult_le_pos; [exact H|]. apply Rlt_le, Rinv_0_lt_compat. now apply Rmult_lt_0_compat. Qed.
Lemma c_pos1 c : (0 <= c -> 0 <= c / IZR n)%R.
Proof. intros H. apply Rmult_le_pos; [exact H|]. apply Rlt_le, Rinv_0_lt_compat. exact Np. Qed.
Lemma pi_pos k : (0 < PI ^ k)%R. Proof. apply pow_lt, PI_RGT_0. Qed.
Ltac cp := apply Rmult_le_pos; [lra|apply Rlt_le, pi_pos].
Lemma r_grad : exists e : R, (97 / 100 * (Cg / (IZR n * IZR n)) <= e <= Cg / (IZR n * IZR n))%R /\ forall r, error_gradient cf h M r <-> r = Some e.
Proof.
  destruct HM as (m0 & Hm & _ & V & _). destruct (grad_low cf n Hok Hn Hev m0 Hm) as (i & Hi & L).
  destruct (max_of_val cf h (EdgeField 2) (d_nedges (dims_of cf h 0)) M (e_grad h m0) (Cg / (IZR n * IZR n)) i) as (e & [E1 E2] & E); auto.
  - apply c_pos2. unfold Cg. cp.
  - intros j Hj. now apply (grad_up cf n Hok Hn Hev m0 Hm).
  - exists e. split; [|exact E]. split; [|exact E2]. eapply Rle_trans; [exact L|exact E1].
Qed.
Lemma r_div : exists e : R, (97 / 100 * (Cd / (IZR n * IZR n)) <= e <= Cd / (IZR n * IZR n))%R /\ forall r, error_divergence cf h M r <-> r = Some e.
Proof.
  destruct HM as (m0 & Hm & _ & _ & V & _). destruct (div_low cf n Hok Hn Hev m0 Hm) as (i & Hi & L).
  destruct (max_of_val cf h (CellField 5) (d_ncells (dims_of cf h 0)) M (e_div h m0) (Cd / (IZR n * IZR n)) i) as (e & [E1 E2] & E); auto.
  - apply c_pos2. unfold Cd. cp.
  - intros j Hj. now apply (div_up cf n Hok Hn Hev m0 Hm).
  - exists e. split; [|exact E]. split; [|exact E2]. eapply Rle_trans; [exact L|exact E1].
Qed.
Lemma r_curl : exists e : R, (98 / 100 * (Cc / IZR n) <= e <= 101 / 100 * (Cc / IZR n))%R /\ forall r, error_curl cf h M r <-> r = Some e.
Proof.
  destruct HM as (m0 & Hm & _ & _ & _ & V & _). destruct (curl_low cf n Hok Hn Hev m0 Hm) as (i & Hi & L).
  destruct (max_of_val cf h (VertexField 8) (d_nvertices (dims_of cf h 0)) M (e_curl h m0) (101 / 100 * (Cc / IZR n)) i) as (e & [E1 E2] & E); auto.
  - apply Rmult_le_pos; [lra|]. apply c_pos1. unfold Cc. cp.
  - intros j Hj. now apply (curl_up cf n Hok Hn Hev m0 Hm).
  - exists e. split; [|exact E]. split; [|exact E2]. eapply Rle_trans; [exact L|exact E1].
Qed.
Lemma r_recon : exists e : R, (97 / 100 * (Cr / (IZR n * IZR n)) <= e <= Cr / (IZR n * IZR n))%R /\ forall r, error_reconstruction cf h M r <-> r = Some e.
Proof.
  destruct HM as (m0 & Hm & _ & _ & _ & _ & V). destruct (recon_low cf n Hok Hn Hev m0 Hm) as (i & Hi & L).
  destruct (max_of_val cf h (EdgeField 11) (d_nedges (dims_of cf h 0)) M (e_recon h m0) (Cr / (IZR n * IZR n)) i) as (e & [E1 E2] & E); auto.
  - apply c_pos2. unfold Cr. cp.
  - intros j Hj. now apply (recon_up cf n Hok Hn Hev m0 Hm).
  - exists e. split; [|exact E]. split; [|exact E2]. eapply Rle_trans; [exact L|exact E1].
Qed.
End Val.

Lemma rate2 c N e e' : (0 < c -> 0 < N -> 97 / 100 * (c / (N * N)) <= e <= c / (N * N) -> 97 / 100 * (c / ((2 * N) * (2 * N))) <= e' <= c / ((2 * N) * (2 * N)) ->
  0 < e /\ 0 < e' /\ check_rate (log2 (e / e')) 2 (5 / 100))%R.
Proof.
  intros Hc HN H H'. replace (c / (2 * N * (2 * N)))%R with (c / (N * N) / 4)%R in H' by (field; lra).
  assert (Q : (0 < c / (N * N))%R) by (apply Rdiv_lt_0_compat; [exact Hc|now apply Rmult_lt_0_compat]). set (q := (c / (N * N))%R) in *. clearbody q.
  split; [lra|]. split; [lra|]. unfold check_rate, log2. apply rate_near. assert (P : (0 < e')%R) by lra.
  split; apply (Rmult_le_reg_r e'); try exact P; unfold Rdiv; rewrite (Rmult_assoc e), Rinv_l by lra; lra.
Qed.
Lemma rate1 c N e e' : (0 < c -> 0 < N -> 98 / 100 * (c / N) <= e <= 101 / 100 * (c / N) -> 98 / 100 * (c / (2 * N)) <= e' <= 101 / 100 * (c / (2 * N)) ->
  0 < e /\ 0 < e' /\ check_rate (log2 (e / e')) 1 (5 / 100))%R.
Proof.
  intros Hc HN H H'. replace (c / (2 * N))%R with (c / N / 2)%R in H' by (field; lra).
  assert (Q : (0 < c / N)%R) by now apply Rdiv_lt_0_compat. set (q := (c / N)%R) in *. clearbody q.
  split; [lra|]. split; [lra|]. unfold check_rate, log2. assert (P : (0 < e')%R) by lra. assert (P1 : (0 < e / e')%R) by (apply Rdiv_lt_0_compat; lra).
  assert (L2 : (0 < ln 2)%R) by (rewrite <- ln_1; apply ln_increasing; lra).
  replace (ln (e / e') / ln 2 - 1)%R with (ln (2 * (e / e')) / ln 2 - 2)%R by (rewrite ln_mult by lra; field; lra).
  apply rate_near.
  split; apply (Rmult_le_reg_r e'); try exact P; unfold Rdiv; rewrite (Rmult_assoc 2), (Rmult_assoc e), Rinv_l by lra; lra.
Qed.

Lemma C76_operator_test_is_safe_proof :
  forall (A : Arith) (cf : config) (h : hexargs A), mesh_ok cf h ->
  always (dims_of cf h 0) (op_level cf h) (mzero A) (fun m' =>
    forall err, In err [error_gradient cf h; error_divergence cf h; error_curl cf h; error_reconstruction cf h] ->
    (exists r, err m' r) /\ forall r, err m' r -> exists e, r = Some e) /\
  deterministic (dims_of cf h 0) (op_level cf h) (mzero A).
Proof.
  intros A cf h Hok. pose proof (op_hsafe cf h Hok) as H. split; [|eapply hsafe_deterministic; exact H].
  apply hsafe_always in H. destruct H as [H1 H2]. split; [|exact H2]. intros o Ho. destruct (H1 o Ho) as (m' & -> & _). exists m'. split; [reflexivity|].
  intros err Hin. cbn [In] in Hin.
  destruct Hin as [<-|[<-|[<-|[<-|[]]]]]; (split; [apply max_ex|intros r; apply max_of_some; reflexivity]).
Qed.

Lemma C76_operator_errors_proof :
  forall (cf : config) (n : Z), mesh_ok cf (op_mesh (A:=RA) n) -> 48 <= n -> Z.even n = true ->
  let h := op_mesh (A:=RA) n in
  let value (err : mem RA -> option R -> Prop) m' (lo hi c : R) := exists e : R, (lo * c <= e <= hi * c)%R /\ forall r, err m' r <-> r = Some e in
  always (dims_of cf h 0) (op_level cf h) (mzero RA) (fun m' =>
    value (error_gradient cf h) m' (97 / 100)%R 1%R (7 / 12 * PI ^ 3 / (IZR n * IZR n))%R /\
    value (error_divergence cf h) m' (97 / 100)%R 1%R ((21 + 14 * sqrt 3) / 36 * PI ^ 3 / (IZR n * IZR n))%R /\
    value (error_curl cf h) m' (98 / 100)%R (101 / 100)%R ((12 + sqrt 3) / 18 * PI ^ 2 / IZR n)%R /\
    value (error_reconstruction cf h) m' (97 / 100)%R 1%R ((69 + 4 * sqrt 3) / 72 * PI ^ 2 / (IZR n * IZR n))%R).
Proof.
  intros cf n Hok Hn Hev h value. pose proof (op_hsafe cf h Hok) as H. apply hsafe_always in H. destruct H as [H1 H2]. split; [|exact H2].
  intros o Ho. destruct (H1 o Ho) as (m' & -> & HM). exists m'. split; [reflexivity|]. unfold value.
  rewrite !Rmult_1_l. split; [|split; [|split]].
  - exact (r_grad cf n Hok Hn Hev m' HM).
  - exact (r_div cf n Hok Hn Hev m' HM).
  - exact (r_curl cf n Hok Hn Hev m' HM).
  - exact (r_recon cf n Hok Hn Hev m' HM).
Qed.

Lemma C76_operator_test_passes_proof :
  forall (cf : config) (n : Z), let h := op_mesh (A:=RA) n in let h' := op_mesh (A:=RA) (2 * n) in mesh_ok cf h -> mesh_ok cf h' -> 48 <= n -> Z.even n = true ->
  forall m m', exec (dims_of cf h 0) (op_level cf h) (mzero RA) (OK m) -> exec (dims_of cf h' 0) (op_level cf h') (mzero RA) (OK m') ->
  let passes (err err' : mem RA -> option R -> Prop) (expected : R) := forall r r', err m r -> err' m' r' ->
    exists e e' : R, r = Some e /\ r' = Some e' /\ (0 < e)%R /\ (0 < e')%R /\ check_rate (log2 (e / e')) expected (5 / 100) in
  passes (error_gradient cf h) (error_gradient cf h') 2%R /\
  passes (error_divergence cf h) (error_divergence cf h') 2%R /\
  passes (error_curl cf h) (error_curl cf h') 1%R /\
  passes (error_reconstruction cf h) (error_reconstruction cf h') 2%R.
Proof.
  intros cf n h h' Hok Hok' Hn Hev m m' X X' passes.
  assert (Hn' : 48 <= 2 * n) by lia. assert (Hev' : Z.even (2 * n) = true) by (rewrite Z.even_mul; reflexivity).
  pose proof (op_hsafe cf h Hok) as S. apply hsafe_always in S. destruct (proj1 S _ X) as (? & E & HM). injection E as <-. clear S.
  pose proof (op_hsafe cf h' Hok') as S. apply hsafe_always in S. destruct (proj1 S _ X') as (? & E & HM'). injection E as <-. clear S.
  assert (Np : (0 < IZR n)%R) by (apply IZR_lt; lia). pose proof s3_bounds as [S3 _]. pose proof (pi_pos 3) as P3. pose proof (pi_pos 2) as P2.
  unfold passes. split; [|split; [|split]]; intros r r' Hr Hr'.
  - destruct (r_grad cf n Hok Hn Hev m HM) as (e & B & E). destruct (r_grad cf (2 * n) Hok' Hn' Hev' m' HM') as (e' & B' & E').
    exists e, e'. split; [now apply E|]. split; [now apply E'|]. rewrite mult_IZR in B'. apply (rate2 Cg (IZR n)); auto. unfold Cg. lra.
  - destruct (r_div cf n Hok Hn Hev m HM) as (e & B & E). destruct (r_div cf (2 * n) Hok' Hn' Hev' m' HM') as (e' & B' & E').
    exists e, e'. split; [now apply E|]. split; [now apply E'|]. rewrite mult_IZR in B'. apply (rate2 Cd (IZR n)); auto. unfold Cd. apply Rmult_lt_0_compat; lra.
  - destruct (r_curl cf n Hok Hn Hev m HM) as (e & B & E). destruct (r_curl cf (2 * n) Hok' Hn' Hev' m' HM') as (e' & B' & E').
    exists e, e'. split; [now apply E|]. split; [now apply E'|]. rewrite mult_IZR in B'. apply (rate1 Cc (IZR n)); auto. unfold Cc. apply Rmult_lt_0_compat; lra.
  - destruct (r_recon cf n Hok Hn Hev m HM) as (e & B & E). destruct (r_recon cf (2 * n) Hok' Hn' Hev' m' HM') as (e' & B' & E').
    exists e, e'. split; [now apply E|]. split; [now apply E'|]. rewrite mult_IZR in B'. apply (rate2 Cr (IZR n)); auto. unfold Cr. apply Rmult_lt_0_compat; lra.
Qed.

