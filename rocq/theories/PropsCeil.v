(** Property C15 in binary64: the number of layers. *)
From Coq Require Import ZArith Floats.SpecFloat.
From Verif Require Import Arith Mesh CeilThms.
Open Scope Z_scope.

(** C15: in binary64 [std::ceil(Real(n) / v)] is the exact ceiling of n / v for all 32 bit n and positive v, although the quotient is rounded.  [sf_ceil] is the exact ceiling of a binary64 number; [zceil] is what the model of the constructor uses. *)
Theorem C15_binary64_ceiling :
  forall (c s : spec_float -> spec_float) (p : spec_float) (n v : Z),
  - 2 ^ 31 <= n < 2 ^ 31 -> 0 < v < 2 ^ 31 ->
  sf_ceil (@fdiv (SFA c s p) (@fofZ (SFA c s p) n) (@fofZ (SFA c s p) v)) = Some (zceil n v).
Proof. exact C15_binary64_ceiling_proof. Qed.
Print Assumptions C15_binary64_ceiling.

(** A case in which the quotient is not representable. *)
Example C15_ceiling_ex : let A := SFA (fun x => x) (fun x => x) S754_nan in
  @fdiv A (@fofZ A 100) (@fofZ A 3) <> @fofZ A 34 /\ sf_ceil (@fdiv A (@fofZ A 100) (@fofZ A 3)) = Some 34 /\ zceil 100 3 = 34.
Proof. repeat split; try reflexivity. discriminate. Qed.
