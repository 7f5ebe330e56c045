(** The IEEE 754 binary64 instance, bit exact and computable, built on the
    axiom-free [SpecFloat] of the standard library.  The libm functions whose last
    bit is platform dependent are an arbitrary record. *)
From Coq Require Import ZArith Bool Floats.SpecFloat.
From Verif Require Import Arith.
Local Open Scope Z_scope.

Record Libm := {
  lm_sin : spec_float -> spec_float;
  lm_cos : spec_float -> spec_float;
  lm_acos : spec_float -> spec_float;
  lm_atan2 : spec_float -> spec_float -> spec_float }.

Definition fprec := 53.
Definition femax := 1024.
Notation F := spec_float.

Definition FofZ (n : Z) : F := binary_normalize fprec femax n 0 false.
Definition Fadd : F -> F -> F := SFadd fprec femax.
Definition Fsub : F -> F -> F := SFsub fprec femax.
Definition Fmul : F -> F -> F := SFmul fprec femax.
Definition Fdiv : F -> F -> F := SFdiv fprec femax.
Definition Fsqrt : F -> F := SFsqrt fprec femax.

(** Nearest integer to num/den (den > 0, num >= 0), ties to even. *)
Definition Znear (num den : Z) : Z :=
  let q := num / den in
  let r := num mod den in
  match Z.compare (2 * r) den with
  | Lt => q
  | Gt => q + 1
  | Eq => if Z.even q then q else q + 1
  end.

(** CPython [round(x, 8)]: the exact binary value is rounded half-even to 8 decimals and the
    decimal is converted back to the nearest double; a zero result keeps the sign. *)
Definition Fround8 (x : F) : F :=
  match x with
  | S754_finite s m e =>
    if 0 <=? e then x
    else
      let n := Znear (Zpos m * 100000000) (2 ^ (- e)) in
      if n =? 0 then S754_zero s
      else
        let '(mz, ez, lz) := SFdiv_core_binary fprec femax n 0 100000000 0 in
        binary_round_aux fprec femax s mz ez lz
  | _ => x
  end.

(** [x % y] for finite x and finite y > 0. *)
Definition Fmod (x y : F) : F :=
  match x, y with
  | S754_finite sx mx ex, S754_finite false my ey =>
    let e := Z.min ex ey in
    let X := (if sx then Zneg mx else Zpos mx) * 2 ^ (ex - e) in
    let Y := Zpos my * 2 ^ (ey - e) in
    let r := Z.rem X Y in
    let fr := binary_normalize fprec femax r e false in
    if r <? 0 then Fadd fr y else fr
  | S754_zero _, S754_finite false _ _ => S754_zero false
  | _, _ => S754_nan
  end.

Definition Fpi : F := S754_finite false 7074237752028440 (-51).

Definition FA (L : Libm) : Arith := {|
  num := F; nadd := Fadd; nsub := Fsub; nmul := Fmul; ndiv := Fdiv; nopp := SFopp;
  nabs := SFabs; nsqrt := Fsqrt; nltb := SFltb; nleb := SFleb; neqb := SFeqb; nofZ := FofZ;
  nround8 := Fround8; nsin := lm_sin L; ncos := lm_cos L; nacos := lm_acos L;
  natan2 := lm_atan2 L; npi := Fpi; nmod := Fmod |}.

(** A double given by its integer mantissa and exponent. *)
Definition Fbits (m e : Z) : F := binary_normalize fprec femax m e false.

(** Canonical representation of a double: sign, mantissa, exponent, used to quote results. *)
Definition Fdec (p q : Z) : F := Fdiv (FofZ p) (FofZ q).
