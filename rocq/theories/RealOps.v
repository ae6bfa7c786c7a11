(** The discrete operators in exact arithmetic, in terms of outflow, circulation and gradients. *)
From Coq Require Import ZArith Reals List Bool Lia Lra.
From Verif Require Import Arith Arrays Prog Conc RSum Spec Formulas.
Import ListNotations.
Open Scope Z_scope.

Lemma iterZ_rsum n (g : Z -> R -> R) (f : Z -> R) x :
  (forall j a, g j a = (a + f j)%R) -> iterZ n g x = (x + rsum n f)%R.
Proof.
  intros Hg. destruct (Z.le_gt_cases 0 n) as [Hn|Hn].
  - revert n Hn. apply natlike_ind; [rewrite iterZ_0, rsum_0; lra|]. intros n Hn IH.
    replace (Z.succ n) with (n + 1) by lia. rewrite iterZ_succ, rsum_succ, IH, Hg by lia. lra.
  - rewrite rsum_neg by lia. unfold iterZ. replace (Z.to_nat n) with 0%nat by lia. cbn. lra.
Qed.

Section RealOps.
Context (a : mem RA).
Local Notation ri b ix := (mi a b ix%Z).
Local Notation rr b ix := (mr a b ix%Z : R).
Implicit Types (s : sid) (x : R).

(** Unfold the arithmetic. *)
Ltac ra := unfold fhalf, fquarter; cbn [fadd fsub fmul fdiv fopp fofZ RA]; apply Rminus_diag_uniq.

Lemma R_hadv s c k x : t_hadv a s c k x = (x - outflow a (fun e => rr FluxHEdge [e; k] * rr (VnEdge s) [e; k]) c)%R.
Proof.
  unfold t_hadv. rewrite (iterZ_rsum _ _ (fun j => let e := ri EdgesOnCell [c; j] in
    - / rr AreaCell [c] * (rr EdgeSignOnCell [c; j] * rr DvEdge [e] * (rr FluxHEdge [e; k] * rr (VnEdge s) [e; k])))%R).
  2:{ intros j y. unfold s_hadv. cbv zeta. ra. unfold Rdiv. ring. }
  cbv zeta. rewrite rsum_scal. unfold outflow. cbv zeta. ra. unfold Rdiv. ring.
Qed.
Lemma R_div s c k : f_div a s c k = outflow a (fun e => rr (VnEdge s) [e; k]) c.
Proof.
  unfold f_div. rewrite (iterZ_rsum _ _ (fun j => let e := ri EdgesOnCell [c; j] in
    / rr AreaCell [c] * (rr EdgeSignOnCell [c; j] * rr DvEdge [e] * rr (VnEdge s) [e; k]))%R).
  2:{ intros j y. unfold s_div. cbv zeta. ra. unfold Rdiv. ring. }
  cbv zeta. rewrite rsum_scal. unfold outflow. cbv zeta. ra. unfold Rdiv. ring.
Qed.
Lemma R_ke s c k : f_ke a s c k =
  (rsum (ri NedgesOnCell [c]) (fun j => let e := ri EdgesOnCell [c; j] in
     rr DvEdge [e] * rr DcEdge [e] * (rr (VnEdge s) [e; k] * rr (VnEdge s) [e; k])) / rr AreaCell [c] / 4)%R.
Proof.
  unfold f_ke. rewrite (iterZ_rsum _ _ (fun j => let e := ri EdgesOnCell [c; j] in
    (/ rr AreaCell [c] * / 4) * (rr DvEdge [e] * rr DcEdge [e] * (rr (VnEdge s) [e; k] * rr (VnEdge s) [e; k])))%R).
  2:{ intros j y. unfold s_ke. cbv zeta. ra. unfold Rdiv. ring. }
  cbv zeta. rewrite rsum_scal. ra. unfold Rdiv. ring.
Qed.
Lemma R_mean s e k : f_mean a s e k =
  ((rr (HCell s) [ri CellsOnEdge [e; 0]; k] + rr (HCell s) [ri CellsOnEdge [e; 1]; k]) / 2)%R.
Proof. unfold f_mean. ra. unfold Rdiv. ring. Qed.
Lemma R_rvort s v k : f_rvort a s v k = (circ a (fun e => rr (VnEdge s) [e; k]) v / rr AreaTriangle [v])%R.
Proof.
  unfold f_rvort. rewrite (iterZ_rsum _ _ (fun j => let e := ri EdgesOnVertex [v; j] in
    / rr AreaTriangle [v] * (rr EdgeSignOnVertex [v; j] * rr DcEdge [e] * rr (VnEdge s) [e; k]))%R).
  2:{ intros j y. unfold s_rvort. cbv zeta. ra. unfold Rdiv. ring. }
  cbv zeta. rewrite rsum_scal. unfold circ. cbv zeta. ra. unfold Rdiv. ring.
Qed.
Lemma R_hvert s v k : f_hvert a s v k =
  (rsum 3 (fun j => rr KiteareasOnVertex [v; j] * rr (HCell s) [ri CellsOnVertex [v; j]; k]) / rr AreaTriangle [v])%R.
Proof.
  unfold f_hvert. rewrite (iterZ_rsum _ _ (fun j =>
    / rr AreaTriangle [v] * (rr KiteareasOnVertex [v; j] * rr (HCell s) [ri CellsOnVertex [v; j]; k]))%R).
  2:{ intros j y. unfold s_hvert. cbv zeta. ra. unfold Rdiv. ring. }
  rewrite rsum_scal. ra. unfold Rdiv. ring.
Qed.
Lemma R_nrv sd s v k : f_nrv a sd s v k = (f_rvort a s v k / f_hvert a s v k)%R.
Proof. unfold f_nrv. destruct sd; ra; unfold Rdiv; ring. Qed.
Lemma R_npv s v k : f_npv a s v k = (rr FVertex [v] / f_hvert a s v k)%R.
Proof. unfold f_npv. ra. unfold Rdiv; ring. Qed.
Lemma R_ntr s l c k : f_ntr a s l c k = (rr (TrCell s) [l; c; k] / rr (HCell s) [c; k])%R.
Proof. unfold f_ntr. ra. unfold Rdiv; ring. Qed.
Lemma R_pv sd s e k x : t_pv a sd s e k x =
  (x + rsum (ri NedgesOnEdge [e]) (fun j => let e' := ri EdgesOnEdge [e; j] in
     rr WeightsOnEdge [e; j] * (rr FluxHEdge [e'; k] * rr (VnEdge s) [e'; k] *
       ((rr NormRvortEdge [e; k] + rr NormPvortEdge [e; k] + (rr NormRvortEdge [e'; k] + rr NormPvortEdge [e'; k])) / 2))))%R.
Proof.
  unfold t_pv. rewrite (iterZ_rsum _ _ (fun j => let e' := ri EdgesOnEdge [e; j] in
     rr WeightsOnEdge [e; j] * (rr FluxHEdge [e'; k] * rr (VnEdge s) [e'; k] *
       ((rr NormRvortEdge [e; k] + rr NormPvortEdge [e; k] + (rr NormRvortEdge [e'; k] + rr NormPvortEdge [e'; k])) / 2)))%R).
  2:{ intros j y. unfold s_pv. cbv zeta. destruct sd; ra; unfold Rdiv; ring. }
  ra. ring.
Qed.
Lemma R_kegrad e k x : t_kegrad a e k x = (x - grad a (fun c => rr KeCell [c; k]) e)%R.
Proof. unfold t_kegrad, grad. ra. unfold Rdiv. ring. Qed.
Lemma R_sshgrad (g : R) s e k x : t_sshgrad a g s e k x = (x - g * grad a (fun c => rr (HCell s) [c; k]) e)%R.
Proof. unfold t_sshgrad, grad. ra. unfold Rdiv. ring. Qed.
Lemma R_vdiff sd (nu : R) e k x : t_vdiff a sd nu e k x =
  (x + nu * rr EdgeMask [e; k] * rr MeshScalingDel2 [e] *
    (grad a (fun c => rr VelDivCell [c; k]) e - rgrad a (fun v => rr RvortVertex [v; k]) e))%R.
Proof. unfold t_vdiff, grad, rgrad. cbv zeta. destruct sd; ra; unfold Rdiv; ring. Qed.
Lemma R_del2 e k : fmax (rr DvEdge [e] : F RA) (fquarter * (rr DcEdge [e] : F RA))%fp = rr DvEdge [e] ->
  f_del2 a e k = (grad a (fun c => rr VelDivCell [c; k]) e - rgrad a (fun v => rr RvortVertex [v; k]) e)%R.
Proof. intros E. unfold f_del2. rewrite E. unfold grad, rgrad. ra; unfold Rdiv; ring. Qed.
Lemma R_del2r v kk : f_del2r a v kk = (circ a (fun e => rr VelDel2Edge [e; kk]) v / rr AreaTriangle [v])%R.
Proof.
  unfold f_del2r. rewrite (iterZ_rsum _ _ (fun j => let e := ri EdgesOnVertex [v; j] in
    / rr AreaTriangle [v] * (rr EdgeSignOnVertex [v; j] * rr DcEdge [e] * rr VelDel2Edge [e; kk]))%R).
  2:{ intros j y. unfold s_del2r. cbv zeta. ra. unfold Rdiv. ring. }
  cbv zeta. rewrite rsum_scal. unfold circ. cbv zeta. ra. unfold Rdiv. ring.
Qed.
Lemma R_del2d c k : f_del2d a c k = outflow a (fun e => rr VelDel2Edge [e; k]) c.
Proof.
  unfold f_del2d. rewrite (iterZ_rsum _ _ (fun j => let e := ri EdgesOnCell [c; j] in
    / rr AreaCell [c] * (rr EdgeSignOnCell [c; j] * rr DvEdge [e] * rr VelDel2Edge [e; k]))%R).
  2:{ intros j y. unfold s_del2d. cbv zeta. ra. unfold Rdiv. ring. }
  cbv zeta. rewrite rsum_scal. unfold outflow. cbv zeta. ra. unfold Rdiv. ring.
Qed.
Lemma R_vhyp (nu : R) e k x : t_vhyp a nu e k x =
  (x - nu * rr EdgeMask [e; k] * rr MeshScalingDel4 [e] *
    (grad a (fun c => rr VelDel2DivCell [c; k]) e - rgrad a (fun v => rr VelDel2RvortVertex [v; k]) e))%R.
Proof. unfold t_vhyp, grad, rgrad. ra; unfold Rdiv; ring. Qed.
Lemma R_trhadv sd hf s l c k x : t_trhadv a sd hf s l c k x =
  (x - outflow a (fun e => rr hf [e; k] * rr (VnEdge s) [e; k] *
     ((rr NormTrCell [l; ri CellsOnEdge [e; 0]; k] + rr NormTrCell [l; ri CellsOnEdge [e; 1]; k]) / 2)) c)%R.
Proof.
  unfold t_trhadv. rewrite (iterZ_rsum _ _ (fun j => let e := ri EdgesOnCell [c; j] in
    - / rr AreaCell [c] * (rr EdgeSignOnCell [c; j] * rr DvEdge [e] * (rr hf [e; k] * rr (VnEdge s) [e; k] *
     ((rr NormTrCell [l; ri CellsOnEdge [e; 0]; k] + rr NormTrCell [l; ri CellsOnEdge [e; 1]; k]) / 2))))%R).
  2:{ intros j y. unfold s_trhadv. cbv zeta. destruct sd; ra; unfold Rdiv; ring. }
  cbv zeta. rewrite rsum_scal. unfold outflow. cbv zeta. ra. unfold Rdiv. ring.
Qed.
Lemma R_trdiff sd (kap : R) hm l c k x : t_trdiff a sd kap hm l c k x =
  (x + kap * outflow a (fun e => rr hm [e; k] * rr MeshScalingDel2 [e] * grad a (fun c => rr NormTrCell [l; c; k]) e) c)%R.
Proof.
  unfold t_trdiff. rewrite (iterZ_rsum _ _ (fun j => let e := ri EdgesOnCell [c; j] in
    (kap * / rr AreaCell [c]) * (rr EdgeSignOnCell [c; j] * rr DvEdge [e] *
      (rr hm [e; k] * rr MeshScalingDel2 [e] * grad a (fun c => rr NormTrCell [l; c; k]) e)))%R).
  2:{ intros j y. unfold s_trdiff, grad. cbv zeta. destruct sd; ra; unfold Rdiv; ring. }
  cbv zeta. rewrite rsum_scal. unfold outflow. cbv zeta. ra. unfold Rdiv. ring.
Qed.
Lemma R_trdel2 hm l c k : f_trdel2 a hm l c k = outflow a (fun e => rr hm [e; k] * grad a (fun c => rr NormTrCell [l; c; k]) e)%R c.
Proof.
  unfold f_trdel2. rewrite (iterZ_rsum _ _ (fun j => let e := ri EdgesOnCell [c; j] in
    (/ rr AreaCell [c]) * (rr EdgeSignOnCell [c; j] * rr DvEdge [e] *
      (rr hm [e; k] * grad a (fun c => rr NormTrCell [l; c; k]) e)))%R).
  2:{ intros j y. unfold s_trdel2, grad. cbv zeta. ra; unfold Rdiv; ring. }
  cbv zeta. rewrite rsum_scal. unfold outflow. cbv zeta. ra. unfold Rdiv. ring.
Qed.
Lemma R_trhyp (kap : R) l c k x : t_trhyp a kap l c k x =
  (x - kap * outflow a (fun e => rr MeshScalingDel4 [e] * grad a (fun c => rr TracerDel2Cell [l; c; k]) e) c)%R.
Proof.
  unfold t_trhyp. rewrite (iterZ_rsum _ _ (fun j => let e := ri EdgesOnCell [c; j] in
    (- kap * / rr AreaCell [c]) * (rr EdgeSignOnCell [c; j] * rr DvEdge [e] *
      (rr MeshScalingDel4 [e] * grad a (fun c => rr TracerDel2Cell [l; c; k]) e)))%R).
  2:{ intros j y. unfold s_trhyp, grad. cbv zeta. ra; unfold Rdiv; ring. }
  cbv zeta. rewrite rsum_scal. unfold outflow. cbv zeta. ra. unfold Rdiv. ring.
Qed.
End RealOps.
