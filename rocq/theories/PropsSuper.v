(** Superposition of tracers (C67). *)
From Coq Require Import ZArith Reals List Bool Lia Lra.
From Verif Require Import Arith Arrays Prog Conc Launch Mesh AuxVars Tend Model Hex RSum Spec MeshProof MeshMem MeshR Ready StepVal PropsMesh PropsCons SuperThms.
Import ListNotations.
Open Scope Z_scope.

(** A tracer that starts as a linear combination of two others remains that combination: in the tendency, and through any run of either stepper, whatever the thickness, velocity, forcing, diffusivities, switches and step sizes. *)
Theorem C67_tracer_superposition :
  forall (S : setup RA), setup_ok S -> forall (a b : R) (l1 l2 l3 : Z),
  0 <= l1 < ntracers (par_of S) -> 0 <= l2 < ntracers (par_of S) -> 0 <= l3 < ntracers (par_of S) ->
  let combined (s : sid) (m : mem RA) := forall k c, 0 <= k < d_nlayers (sdims S) -> 0 <= c < d_ncells (sdims S) ->
    mr m (TrCell s) [l3; c; k] = (a * mr m (TrCell s) [l1; c; k] + b * mr m (TrCell s) [l2; c; k])%R in
  forall (m : mem RA), ready S m ->
  (forall t s time, s <> t -> combined s m -> always (sdims S) (compute_tendency S t s time Replace) m (combined t)) /\
  (combined St m -> forall steps : list (R * R), always (sdims S) (rk4_run S steps) m (combined St) /\ forall n, always (sdims S) (lsrk_run S n steps) m (combined St)).
Proof. exact C67_tracer_superposition_proof. Qed.
Print Assumptions C67_tracer_superposition.

(** Non-vacuity: three tracers with all terms on, the third any combination of the first two, which are arbitrary, like everything else in the memory. *)
Definition S67 : setup RA := mkSetup (mkConfig false true false 8) (mkHex (A:=RA) 5 3 (IZR 2) 3)
  (mkParams (A:=RA) (IZR 1) (IZR 10) (IZR 0) (IZR 1) (IZR 1) (IZR 1) (IZR 1) 3 false false) None.
Example C67_applies (a b : R) (g : rarr -> list Z -> R) (steps : list (R * R)) : exists m, ready S67 m /\
  (forall l c k, 0 <= l < 2 -> mr m (TrCell St) [l; c; k] = g (TrCell St) [l; c; k]) /\
  always (sdims S67) (rk4_run S67 steps) m (fun m' => forall k c, 0 <= k < d_nlayers (sdims S67) -> 0 <= c < d_ncells (sdims S67) ->
    mr m' (TrCell St) [2; c; k] = (a * mr m' (TrCell St) [0%Z; c; k] + b * mr m' (TrCell St) [1%Z; c; k])%R).
Proof.
  assert (Ho : setup_ok S67) by ok.
  destruct (ready_any S67 Ho (fun x ix => match x, ix with TrCell St, [2; c; k] => (a * g x [0%Z; c; k] + b * g x [1%Z; c; k])%R | _, _ => g x ix end)) as (m & Hr & E).
  exists m. split; [exact Hr|]. split.
  - intros l c k Hl. rewrite E by reflexivity. assert (l = 0 \/ l = 1) as [-> | ->] by lia; reflexivity.
  - apply (C67_tracer_superposition S67 Ho a b 0 1 2); try (cbn; lia); [exact Hr|]. intros k c Hk Hc. rewrite !E by reflexivity. reflexivity.
Qed.

