(** Proofs of the properties of [PropsFlags.v]. *)
From Coq Require Import ZArith Reals List Bool Lia Relation_Operators.
From Verif Require Import Arith Arrays Prog Conc Mesh AuxVars Tend Model Doomed.
Import ListNotations.
Open Scope Z_scope.

Section Both.
Context {A : Arith} (S : setup A).
Hypothesis Hn : no_simd (cfg_of S) = true.
Hypothesis Hk : ksimd (cfg_of S) = true.
Hypothesis Hl : 1 < lanes (cfg_of S).
Hypothesis Hx : 1 <= nx (mesh_of_setup S).
Hypothesis Hy : 1 <= ny (mesh_of_setup S).
Hypothesis Hz : 1 <= nlayers (mesh_of_setup S) <= INT_MAX.

Lemma both_vl : vector_length (cfg_of S) = 1. Proof. unfold vector_length. now rewrite Hn. Qed.
Lemma both_nl : d_nlayers (sdims S) = nlayers (mesh_of_setup S) /\ d_nlayers_vec (sdims S) = nlayers (mesh_of_setup S).
Proof. unfold sdims, dims_of. cbn. rewrite both_vl. unfold zceil. rewrite Z.div_1_r. lia. Qed.
Lemma both_nv : 1 <= d_nvertices (sdims S). Proof. unfold sdims, dims_of. cbn [d_nvertices]. nia. Qed.

Lemma last_doomed s : doomed (sdims S) (compute_vort_vertex (cfg_of S) (sdims S) s (d_nvertices (sdims S) - 1) (d_nlayers_vec (sdims S) - 1) : prog A unit).
Proof.
  destruct both_nl as [E1 E2]. pose proof both_nv as N.
  assert (Ev : forall a pre k, nofail (vload (A:=A) (cfg_of S) (sdims S) a pre k) (fun _ => True)) by (intros; apply nofail_for; intros; exact (fun _ => I)).
  unfold compute_vort_vertex. rewrite Hk. unfold compute_vort_vertex_simd. rewrite both_vl.
  eapply (doomed_bind_r _ _ _ (fun k => k = d_nlayers (sdims S) - 1)).
  { unfold imul, chk. replace (in_int _) with true; [cbn [nofail]; lia|]. symmetry. unfold in_int, INT_MIN, INT_MAX in *. apply andb_true_intro. rewrite !Z.leb_le. lia. }
  intros k ->. eapply (doomed_bind_r _ _ _ (fun _ => True)); [exact (fun _ => I)|]. intros at_ _. cbv zeta.
  eapply (doomed_bind_r _ _ _ (fun _ => True)).
  { apply nofail_for. intros j rt.
    eapply nofail_bind with (P := fun _ => True); [exact (fun _ => I)|]. intros jedge _.
    eapply nofail_bind with (P := fun _ => True); [exact (fun _ => I)|]. intros jcell _.
    eapply nofail_bind with (P := fun _ => True); [apply Ev|]. intros vn _.
    eapply nofail_bind with (P := fun _ => True); [apply Ev|]. intros h _.
    cbn. auto. }
  intros rt _. apply doomed_bind_l. unfold vstore, for_u, for_.
  replace (Z.to_nat (lanes (cfg_of S))) with (Datatypes.S (Datatypes.S (Z.to_nat (lanes (cfg_of S) - 2)))) by lia.
  cbn [forN bind str]. right. cbn [forN bind str]. left.
  unfold lane_ix. replace (d_nlayers (sdims S) - 1 + (0 + 1)) with (1 * d_nlayers (sdims S)) by lia.
  rewrite Z.div_mul, Z.mod_mul by lia. cbn [validb rext inb].
  replace (_ <? _) with false; [now rewrite andb_false_r|]. symmetry. apply Z.ltb_ge. lia.
Qed.

Lemma vertex_doomed s : has_doomed (sdims S) (compute_vertex_auxiliarys (A:=A) (cfg_of S) (sdims S) s).
Proof.
  destruct both_nl as [E1 E2]. pose proof both_nv as N.
  exists [d_nvertices (sdims S) - 1; d_nlayers_vec (sdims S) - 1]. eexists. split; [|exact (last_doomed s)].
  apply in_par. split; [reflexivity|]. apply inb2. lia.
Qed.
Lemma in_tendency t s time md : In (compute_vertex_auxiliarys (cfg_of S) (sdims S) s) (compute_tendency S t s time md).
Proof. now left. Qed.
End Both.

Lemma C17_both_flags_out_of_bounds_proof :
  forall (A : Arith) (S : setup A), no_simd (cfg_of S) = true -> ksimd (cfg_of S) = true -> 1 < lanes (cfg_of S) ->
  1 <= nx (mesh_of_setup S) -> 1 <= ny (mesh_of_setup S) -> 1 <= nlayers (mesh_of_setup S) <= INT_MAX ->
  forall (t s : sid) (time : F A) (md : add_mode) (m : mem A),
  let prog := compute_tendency S t s time md in
  (forall o, exec (sdims S) prog m o -> o = UB) /\ exec (sdims S) prog m UB /\
  exists first rest threads m' i p w l, prog = first :: rest /\
    clos_refl_trans_1n _ (pstep (sdims S)) (first, m) (threads, m') /\ In (i, p) threads /\
    nacc p = Some (w, l) /\ validb (sdims S) l = false.
Proof.
  intros A S H1 H2 H3 H4 H5 H6 t s time md m prog.
  pose proof (vertex_doomed S H1 H2 H3 H4 H5 H6 s) as HD.
  destruct (exec_doomed (sdims S) prog _ m (in_tendency S t s time md) HD) as [G1 G2].
  split; [exact G1|]. split; [exact G2|].
  destruct HD as (i & p & Hin & Hp). destruct (in_split _ _ Hin) as (l1 & l2 & E).
  destruct (doomed_reaches (sdims S) l1 i p l2 m Hp) as (q & m' & w & l & R & N & V).
  eexists _, _, _, m', i, q, w, l. split; [reflexivity|]. split; [|split; [|split; [exact N|exact V]]].
  - rewrite <- E in R. exact R.
  - apply in_app_iff. right. now left.
Qed.

Lemma C17_both_flags_steppers_proof :
  forall (A : Arith) (S : setup A), no_simd (cfg_of S) = true -> ksimd (cfg_of S) = true -> 1 < lanes (cfg_of S) ->
  1 <= nx (mesh_of_setup S) -> 1 <= ny (mesh_of_setup S) -> 1 <= nlayers (mesh_of_setup S) <= INT_MAX ->
  forall (t dt : F A) (m : mem A),
  ((forall o, exec (sdims S) (rk4_step S t dt) m o -> o = UB) /\ exec (sdims S) (rk4_step S t dt) m UB) /\
  (forall n, 1 <= n -> (forall o, exec (sdims S) (lsrk_step S n t dt) m o -> o = UB) /\ exec (sdims S) (lsrk_step S n t dt) m UB).
Proof.
  intros A S H1 H2 H3 H4 H5 H6 t dt m. split; [|intros n Hn].
  - eapply exec_doomed; [|apply (vertex_doomed S H1 H2 H3 H4 H5 H6 St)].
    unfold rk4_step. apply in_app_iff. right. apply in_app_iff. left. apply in_tendency.
  - eapply exec_doomed; [|apply (vertex_doomed S H1 H2 H3 H4 H5 H6 St)].
    unfold lsrk_step. apply in_flat_map. exists 0. split; [apply in_zseq; lia|].
    unfold lsrk_stage. apply in_app_iff. right. apply in_app_iff. left. apply in_tendency.
Qed.

