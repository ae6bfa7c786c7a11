(** The memories in which the model is used: the constructors have run, and the state, auxiliary and
    work arrays hold anything. *)
From Coq Require Import ZArith List Bool Lia.
From Verif Require Import Arith Arrays Prog Conc Launch Mesh AuxVars Tend Model Hex MeshProof MeshMem Over Formulas KernBase Terms KernAux KernTend TendFn StepFn.
Import ListNotations.
Open Scope Z_scope.

(** A build and arguments for which the program is meant to work: the mesh is not empty and fits in
    [Int], and with OMEGA_KOKKOS_SIMD the vector length is the number of lanes. *)
Definition setup_ok {A} (S : setup A) : Prop :=
  mesh_ok (cfg_of S) (mesh_of_setup S) /\ 0 <= ntracers (par_of S) /\
  (ksimd (cfg_of S) = true -> lanes (cfg_of S) = vector_length (cfg_of S)).

(** Views written by the constructors of the mesh and of the model only. *)
Definition const_loc (l : loc) : bool :=
  match l with
  | LI _ _ => true
  | LR (HCell _ | VnEdge _ | TrCell _ | RvortVertex | NormRvortVertex | NormPvortVertex | NormRvortEdge
       | NormPvortEdge | KeCell | VelDivCell | MeanHEdge | FluxHEdge | NormTrCell | VelDel2Edge
       | VelDel2RvortVertex | VelDel2DivCell | TracerDel2Cell) _ => false
  | LR _ _ => true
  end.

(** [m0] is a memory the two constructors leave behind, starting from zero-initialised views. *)
Definition constructed {A} (S : setup A) (m0 : mem A) : Prop :=
  exec (sdims S) (mesh_ctor (cfg_of S) (mesh_of_setup S) ++ model_ctor S) (mzero A) (OK m0).

(** [m] is such a memory, except that the other views hold anything. *)
Definition ready {A} (S : setup A) (m : mem A) : Prop :=
  exists m0, constructed S m0 /\ forall l, const_loc l = true -> mget m l = mget m0 l.

Section Ready.
Context {A : Arith} (S : setup A) (Hok : setup_ok S).
Local Notation cf := (cfg_of S).
Local Notation P := (par_of S).
Local Notation h := (mesh_of_setup S).
Local Notation D := (sdims S).
Implicit Types (m : mem A).

Lemma ok_wfd : wfd cf D.
Proof.
  destruct Hok as ((Hx & Hy & H3 & Hl & Hn & Hm) & Ht & Hs).
  assert (1 <= vector_length cf) by (unfold vector_length; destruct (no_simd cf); lia).
  constructor; auto.
  cbn. apply zceil_nonneg; lia.
Qed.
Lemma ok_ntr : 0 <= ntracers P. Proof. apply Hok. Qed.

Lemma ctor_hsafe m0 : meq m0 (mzero A) ->
  hsafe D (mesh_ctor cf h ++ model_ctor S) m0
    (fun m => hexmem h (d_nlayers D) m /\
       (forall v, 0 <= v < d_nvertices D -> mr m FVertex [v] = f0 P) /\
       (forall e, 0 <= e < d_nedges D -> mr m FEdge [e] = f0 P) /\
       forall l, const_loc l = false -> mget m l = mget m0 l).
Proof.
  intros Hz. eapply hsafe_app; [now apply (mesh_ctor_hsafe cf h (ntracers P) (proj1 Hok))|].
  intros m1 [Hm Hf]. cbv beta in *. eapply hsafe_post.
  - unfold model_ctor. eapply (hsafe_seq D [_] [_]); [apply hs_fill|apply hs_fill].
  - cbv beta. intros m [Ei Er].
    assert (Er' : forall a ix, a <> FVertex -> a <> FEdge -> mr m a ix = mr m1 a ix).
    { intros a ix N1 N2. rewrite Er. now rewrite !upd_other by assumption. }
    split; [|split; [|split]].
    + destruct Hm. constructor; intros; first [rewrite Ei | rewrite Er' by discriminate]; eauto.
    + intros v Hv. rewrite Er, upd_other by discriminate. apply upd_same. now apply inb1.
    + intros v Hv. rewrite Er. apply upd_same. now apply inb1.
    + intros l Hl. rewrite <- Hf by (destruct l as [|a ix]; [discriminate|destruct a; try discriminate Hl; reflexivity]).
      destruct l as [a ix|a ix]; [discriminate|]. cbn. f_equal. apply Er'; intros ->; discriminate.
Qed.

Lemma constructed_ex : exists m0, constructed S m0.
Proof. apply (hsafe_always _ _ _ _ (ctor_hsafe (mzero A) (meq_refl _))). Qed.
Lemma constructed_spec m0 : constructed S m0 ->
  hexmem h (d_nlayers D) m0 /\ (forall v, 0 <= v < d_nvertices D -> mr m0 FVertex [v] = f0 P) /\
  (forall e, 0 <= e < d_nedges D -> mr m0 FEdge [e] = f0 P) /\
  forall l, const_loc l = false -> mget m0 l = mget (mzero A) l.
Proof.
  intros H. destruct (hsafe_always _ _ _ _ (ctor_hsafe (mzero A) (meq_refl _))) as [H1 _].
  destruct (H1 _ H) as (m & E & Hm). injection E as <-. exact Hm.
Qed.
Lemma constructed_det m0 m0' : constructed S m0 -> constructed S m0' -> meq m0 m0'.
Proof. intros H H'. exact (hsafe_deterministic _ _ _ _ (ctor_hsafe (mzero A) (meq_refl _)) _ _ H H'). Qed.

Lemma ready_hex m : ready S m -> hexmem h (d_nlayers D) m.
Proof.
  intros (m0 & H0 & Hm). destruct (constructed_spec m0 H0) as (Hh & _).
  destruct Hh. constructor; intros;
    first [rewrite (mget_i m m0) by (apply Hm; reflexivity) | rewrite (mget_r m m0) by (apply Hm; reflexivity)]; eauto.
Qed.
Lemma ready_fv m v : ready S m -> 0 <= v < d_nvertices D -> mr m FVertex [v] = f0 P.
Proof.
  intros (m0 & H0 & Hm) Hv. rewrite (mget_r m m0) by (apply Hm; reflexivity). now apply (constructed_spec m0 H0).
Qed.
Lemma ready_fe m e : ready S m -> 0 <= e < d_nedges D -> mr m FEdge [e] = f0 P.
Proof.
  intros (m0 & H0 & Hm) Hv. rewrite (mget_r m m0) by (apply Hm; reflexivity). now apply (constructed_spec m0 H0).
Qed.
Lemma ready_wfm m : ready S m -> wfm D m.
Proof.
  intros Hr. pose proof (ready_hex m Hr) as Hh.
  destruct Hok as ((Hx & Hy & _) & _).
  constructor; cbn [sdims dims_of d_ncells d_nedges d_nvertices].
  - intros c Hc. rewrite (hm_noc _ _ _ Hh) by assumption. lia.
  - intros c j Hc Hj. rewrite (hm_eoc _ _ _ Hh) by assumption. now apply hE_range.
  - intros c j Hc Hj. rewrite (hm_coe _ _ _ Hh) by assumption. apply hcoe_range; auto.
  - intros c j Hc Hj. rewrite (hm_voe _ _ _ Hh) by assumption. apply hvoe_range; auto.
  - intros e He. rewrite (hm_noe _ _ _ Hh) by assumption. lia.
  - intros e j He. rewrite (hm_noe _ _ _ Hh) by assumption. intros Hj. rewrite (hm_eoe _ _ _ Hh) by lia.
    apply heoe_range; auto; lia.
  - intros v j Hv Hj. rewrite (hm_eov _ _ _ Hh) by assumption. apply heov_range; auto.
  - intros v j Hv Hj. rewrite (hm_cov _ _ _ Hh) by assumption. apply hcov_range; auto.
Qed.
(** The other views can hold anything. *)
Lemma ready_any (f : rarr -> list Z -> F A) : exists m, ready S m /\
  forall a ix, const_loc (LR a ix) = false -> mr m a ix = f a ix.
Proof.
  destruct constructed_ex as (m0 & H0).
  exists (Mem (mi m0) (fun a ix => if const_loc (LR a ix) then mr m0 a ix else f a ix)). split.
  - exists m0. split; [exact H0|]. intros l Hl. destruct l as [a ix|a ix]; [reflexivity|]. unfold mget. cbn [mr].
    now rewrite Hl.
  - intros a ix Ha. cbn [mr]. now rewrite Ha.
Qed.
Lemma ready_meq m m' : meq m m' -> ready S m -> ready S m'.
Proof.
  intros E (m0 & H0 & Hm). exists m0. split; [exact H0|]. intros l Hl. rewrite <- Hm by exact Hl.
  rewrite meq_mget in E. symmetry. apply E.
Qed.
(** A memory that differs from a ready one only in the other views is ready. *)
Lemma ready_frame m m' : (forall l, const_loc l = true -> mget m' l = mget m l) -> ready S m -> ready S m'.
Proof. intros E (m0 & H0 & Hm). exists m0. split; [exact H0|]. intros l Hl. rewrite E by exact Hl. auto. Qed.

(** Programs described by functions. *)
Lemma always_fn Ls (f : mem A -> mem A) m (Q : mem A -> Prop) :
  hsafe D Ls m (fun M => meq M (f m)) -> (forall M, meq M (f m) -> Q M) -> always D Ls m Q.
Proof. intros H HQ. apply hsafe_always. eapply hsafe_post; [exact H|exact HQ]. Qed.
Lemma exec_fn Ls (f : mem A -> mem A) m m' :
  hsafe D Ls m (fun M => meq M (f m)) -> exec D Ls m (OK m') -> meq m' (f m).
Proof.
  intros H Hx. apply hsafe_always in H. destruct H as [H _]. destruct (H _ Hx) as (M & E & HM).
  injection E as <-. exact HM.
Qed.

Lemma rd_tendency t s time md m : ready S m -> s <> t ->
  hsafe D (compute_tendency S t s time md) m (fun M => meq M (tendency_fn S t s time md m)).
Proof. intros Hr Hne. apply hs_tendency; auto using ok_wfd, ok_ntr, ready_wfm. Qed.
Lemma rd_rk4 (t dt : F A) m : ready S m ->
  hsafe D (rk4_step S t dt) m (fun M => meq M (rk4_fn S t dt m)).
Proof. intros Hr. apply hs_rk4; auto using ok_wfd, ok_ntr, ready_wfm. Qed.
Lemma rd_lsrk n (t dt : F A) m : ready S m ->
  hsafe D (lsrk_step S n t dt) m (fun M => meq M (lsrk_fn S n t dt m)).
Proof. intros Hr. apply hs_lsrk; auto using ok_wfd, ok_ntr, ready_wfm. Qed.
End Ready.

(** ** Runs: any number of steps, each with its own time and step size, as in the main loops of the
    drivers (/repo/test/*.cpp, e.g. nonlinear_swe_convergence.cpp l.160-168, double_vortex.cpp l.135-141: [stepper.do_step(t, dt, state)]). *)
Definition rk4_run {A} (S : setup A) (steps : list (F A * F A)) : list (launch A) :=
  flat_map (fun x => rk4_step S (fst x) (snd x)) steps.
Definition lsrk_run {A} (S : setup A) (n : Z) (steps : list (F A * F A)) : list (launch A) :=
  flat_map (fun x => lsrk_step S n (fst x) (snd x)) steps.

Section Runs.
Context {A : Arith} (S : setup A) (Hok : setup_ok S).
Local Notation cf := (cfg_of S).
Local Notation D := (sdims S).
Implicit Types (m : mem A).

Definition rk4_run_fn steps m : mem A := fold_left (fun m x => rk4_fn S (fst x) (snd x) m) steps m.
Definition lsrk_run_fn n steps m : mem A := fold_left (fun m x => lsrk_fn S n (fst x) (snd x) m) steps m.

Lemma wf_rk4_run steps m : wfm D m -> wfm D (rk4_run_fn steps m).
Proof. revert m. induction steps as [|x l IH]; intros m Hm; [exact Hm|]. apply IH. now apply wfm_rk4. Qed.
Lemma wf_lsrk_run n steps m : wfm D m -> wfm D (lsrk_run_fn n steps m).
Proof. revert m. induction steps as [|x l IH]; intros m Hm; [exact Hm|]. apply IH. now apply wfm_lsrk. Qed.

Lemma hs_rk4_run steps m : wfm D m -> hsafe D (rk4_run S steps) m (fun M => meq M (rk4_run_fn steps m)).
Proof.
  revert m. induction steps as [|x l IH]; intros m Hm; [constructor; apply meq_refl|].
  change (hsafe D (rk4_step S (fst x) (snd x) ++ rk4_run S l) m
            (fun M => meq M (rk4_run_fn l (rk4_fn S (fst x) (snd x) m)))).
  eapply hsafe_seq; [apply hs_rk4; auto using ok_wfd, ok_ntr|]. apply IH. now apply wfm_rk4.
Qed.
Lemma hs_lsrk_run n steps m : wfm D m -> hsafe D (lsrk_run S n steps) m (fun M => meq M (lsrk_run_fn n steps m)).
Proof.
  revert m. induction steps as [|x l IH]; intros m Hm; [constructor; apply meq_refl|].
  change (hsafe D (lsrk_step S n (fst x) (snd x) ++ lsrk_run S n l) m
            (fun M => meq M (lsrk_run_fn n l (lsrk_fn S n (fst x) (snd x) m)))).
  eapply hsafe_seq; [apply hs_lsrk; auto using ok_wfd, ok_ntr|]. apply IH. now apply wfm_lsrk.
Qed.

(** ** What is never written *)
Definition cst m m' : Prop := forall l, const_loc l = true -> mget m' l = mget m l.
Lemma cst_refl m : cst m m. Proof. intros l _. reflexivity. Qed.
Lemma cst_trans m1 m2 m3 : cst m1 m2 -> cst m2 m3 -> cst m1 m3.
Proof. intros H1 H2 l Hl. rewrite H2, H1; auto. Qed.
Lemma cst_over m T : (forall a ix, const_loc (LR a ix) = true -> T a ix = None) -> cst m (over m T).
Proof. intros H l Hl. destruct l as [a ix|a ix]; [reflexivity|]. cbn. now rewrite H. Qed.
Lemma cst_upd a m g : const_loc (LR a []) = false -> cst m (upd D a m g).
Proof.
  intros H. apply cst_over. intros b ix Hb. destruct (rarr_eq_dec a b) as [<-|]; [|reflexivity].
  destruct a; discriminate.
Qed.
Lemma cst_if (b : bool) m m1 m2 : cst m m1 -> cst m m2 -> cst m (if b then m1 else m2).
Proof. destruct b; auto. Qed.
(** One write at a time. *)
Lemma cst_upd' m0 a m g : const_loc (LR a []) = false -> cst m0 m -> cst m0 (upd D a m g).
Proof. intros H H0. eapply cst_trans; [exact H0|now apply cst_upd]. Qed.
Ltac cs := repeat first [assumption | apply cst_refl | apply cst_if | (apply cst_upd'; [reflexivity|])].
Lemma cst_aux s m : cst m (aux_fn cf D s m).
Proof.
  unfold aux_fn. cbv zeta. eapply cst_trans; [eapply cst_trans|].
  - apply (cst_over m (lT2 D (S_va cf m s))). intros a ix Ha. unfold lT2. destruct a; try discriminate; reflexivity.
  - match goal with |- cst ?m1 _ => apply (cst_over m1 (cellT D m1 s)) end. intros a ix Ha. destruct a; try discriminate; reflexivity.
  - apply cst_over. intros a ix Ha. unfold lT2. destruct a; try discriminate; reflexivity.
Qed.
Lemma cst_h t s md m : cst m (h_fn S t s md m). Proof. unfold h_fn. cs. Qed.
Lemma cst_hyp m : cst m (hyp_fn S m). Proof. unfold hyp_fn, del2d_fn, del2r_fn, del2_fn. cbv zeta. cs. Qed.
Lemma cst_vn t s md m : cst m (vn_fn S t s md m).
Proof. unfold vn_fn. cbv zeta. apply cst_upd'; [reflexivity|apply cst_hyp]. Qed.
Lemma cst_tr t s md m : cst m (tr_fn S t s md m).
Proof. unfold tr_fn, trdel2_fn. cbv zeta. cs. Qed.
Lemma cst_hook t time m : cst m (hook_fn S t time m).
Proof. unfold hook_fn. destruct (hook S); cbv zeta; cs. Qed.
Lemma cst_tendency t s time md m : cst m (tendency_fn S t s time md m).
Proof.
  unfold tendency_fn. cbv zeta. eapply cst_trans; [|apply cst_hook].
  eapply cst_trans; [|apply cst_if; [apply cst_tr|apply cst_refl]].
  eapply cst_trans; [|apply cst_if; [apply cst_vn|apply cst_refl]].
  eapply cst_trans; [|apply cst_if; [apply cst_h|apply cst_refl]]. apply cst_aux.
Qed.
Lemma cst_axpy d b dt x m : cst m (axpy S d b dt x m).
Proof. unfold axpy. cbv zeta. cs. Qed.
Lemma cst_scale x m : cst m (scale_fn S x m).
Proof. unfold scale_fn. cbv zeta. cs. Qed.
Lemma cst_save m : cst m (save_fn S m).
Proof. unfold save_fn. cbv zeta. cs. Qed.
Lemma cst_init m : cst m (lsrk_init_fn S m).
Proof. unfold lsrk_init_fn. cbv zeta. cs. Qed.
Lemma cst_fold {X} (f : mem A -> X -> mem A) l m : (forall x m, cst m (f m x)) -> cst m (fold_left f l m).
Proof. intros H. revert m. induction l; intros m; [apply cst_refl|]. cbn. eapply cst_trans; [apply H|auto]. Qed.
Lemma cst_rk4 (t dt : F A) m : cst m (rk4_fn S t dt m).
Proof.
  unfold rk4_fn. eapply cst_trans; [eapply cst_trans; [apply cst_save|apply cst_tendency]|].
  apply cst_fold. intros i n. unfold rk4_stage_fn. cbv zeta. apply cst_if; [|apply cst_axpy].
  eapply cst_trans; [|apply cst_tendency]. eapply cst_trans; [|apply cst_axpy]. apply cst_axpy.
Qed.
Lemma cst_lsrk n (t dt : F A) m : cst m (lsrk_fn S n t dt m).
Proof.
  unfold lsrk_fn. apply cst_fold. intros i k. unfold lsrk_stage_fn.
  eapply cst_trans; [|apply cst_axpy]. eapply cst_trans; [|apply cst_tendency]. apply cst_scale.
Qed.
Lemma cst_rk4_run steps m : cst m (rk4_run_fn steps m).
Proof. apply cst_fold. intros x n. apply cst_rk4. Qed.
Lemma cst_lsrk_run k steps m : cst m (lsrk_run_fn k steps m).
Proof. apply cst_fold. intros x n. apply cst_lsrk. Qed.
Lemma ready_cst m m' : cst m m' -> ready S m -> ready S m'.
Proof. intros H. now apply ready_frame. Qed.
Lemma cst_meq m m' m'' : meq m'' m' -> cst m m' -> cst m m''.
Proof. intros E H l Hl. rewrite meq_mget in E. rewrite E. auto. Qed.
End Runs.
