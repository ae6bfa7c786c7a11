(** Arithmetic used by the code.  [/repo/src/common.hpp] l.11 fixes [Real = double]; the model is
    generic in the interpretation of the floating point operations, so that a statement proved for
    every [Arith] holds bit for bit for IEEE binary64, and a statement proved for [RA] holds in exact
    real arithmetic. *)
From Coq Require Import ZArith Reals Bool.
From Coq.Floats Require Import SpecFloat.

(** The operations on [Real] that occur in /repo/src/mesh, /repo/src/model and
    /repo/src/time_integration: literals and [Int]-to-[Real] conversions ([fofZ]), the four
    operations, unary minus, [sqrt], [cos], [sin], [pi] (common.hpp l.27) and [<]
    (for [> 0] in shallow_water_model.cpp l.22-35 and for [std::max]). *)
Record Arith : Type := mkArith {
  F : Type;
  fofZ : Z -> F;
  fadd : F -> F -> F;
  fsub : F -> F -> F;
  fmul : F -> F -> F;
  fdiv : F -> F -> F;
  fopp : F -> F;
  fsqrt : F -> F;
  fcos : F -> F;
  fsin : F -> F;
  fpi : F;
  flt : F -> F -> bool
}.

Arguments fofZ {_} _.
Arguments fadd {_} _ _.
Arguments fsub {_} _ _.
Arguments fmul {_} _ _.
Arguments fdiv {_} _ _.
Arguments fopp {_} _.
Arguments fsqrt {_} _.
Arguments fcos {_} _.
Arguments fsin {_} _.
Arguments fpi {_}.
Arguments flt {_} _ _.

Declare Scope fp_scope.
Delimit Scope fp_scope with fp.
Infix "+" := fadd : fp_scope.
Infix "-" := fsub : fp_scope.
Infix "*" := fmul : fp_scope.
Infix "/" := fdiv : fp_scope.
Notation "- x" := (fopp x) : fp_scope.
Notation "# z" := (fofZ z%Z) (at level 5, z at level 4) : fp_scope.

(** [std::max(a, b)] is [(a < b) ? b : a]
    (used in /repo/src/model/tendency_terms/vel_hyperdiff_edge.hpp l.47 and l.152). *)
Definition fmax {A : Arith} (a b : F A) : F A := if flt a b then b else a.

(** The literals [0.5_fp] and [0.25_fp] (both quotients are exact in binary64), /repo/src/common.hpp l.14. *)
Definition fhalf {A : Arith} : F A := (#1 / #2)%fp.
Definition fquarter {A : Arith} : F A := (#1 / #4)%fp.

(** Exact real arithmetic. *)
Definition RA : Arith := {|
  F := R; fofZ := IZR; fadd := Rplus; fsub := Rminus; fmul := Rmult; fdiv := Rdiv; fopp := Ropp;
  fsqrt := sqrt; fcos := cos; fsin := sin; fpi := PI;
  flt := fun x y => if Rlt_dec x y then true else false |}.

(** IEEE-754 binary64 of the standard library's executable specification.  The trigonometric
    functions are not specified by IEEE-754 and are parameters of the instance. *)
Definition SFA (c s : spec_float -> spec_float) (p : spec_float) : Arith := {|
  F := spec_float;
  fofZ := fun z => binary_normalize 53 1024 z 0 false;
  fadd := SFadd 53 1024; fsub := SFsub 53 1024; fmul := SFmul 53 1024; fdiv := SFdiv 53 1024;
  fopp := SFopp; fsqrt := SFsqrt 53 1024; fcos := c; fsin := s; fpi := p;
  flt := SFltb |}.
