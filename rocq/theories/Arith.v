(** The arithmetic the program computes with, as an ordinary record.
    Every model function is parametrised over it. *)
From Coq Require Import ZArith Bool.

Class Arith := {
  num : Type;
  nadd : num -> num -> num;      (* x + y *)
  nsub : num -> num -> num;      (* x - y *)
  nmul : num -> num -> num;      (* x * y *)
  ndiv : num -> num -> num;      (* x / y, only used behind a zero test, see [pdiv] *)
  nopp : num -> num;             (* -x *)
  nabs : num -> num;             (* abs(x) *)
  nsqrt : num -> num;            (* math.sqrt(x), only used behind a sign test or on sums of squares *)
  nltb : num -> num -> bool;     (* x < y *)
  nleb : num -> num -> bool;     (* x <= y *)
  neqb : num -> num -> bool;     (* x == y *)
  nofZ : Z -> num;               (* float(n) *)
  nround8 : num -> num;          (* round(x, 8) *)
  nsin : num -> num;
  ncos : num -> num;
  nacos : num -> num;            (* math.acos, behind a domain test *)
  natan2 : num -> num -> num;    (* math.atan2(y, x) *)
  npi : num;
  nmod : num -> num -> num       (* x % y for y > 0 *)
}.

Declare Scope num_scope.
Delimit Scope num_scope with num.
Infix "+" := nadd : num_scope.
Infix "-" := nsub : num_scope.
Infix "*" := nmul : num_scope.
Infix "/" := ndiv : num_scope.
Infix "<?" := nltb : num_scope.
Infix "<=?" := nleb : num_scope.
Infix "=?" := neqb : num_scope.

Section Derived.
Context {A : Arith}.
Local Open Scope num_scope.

Definition n0 : num := nofZ 0.
Definition n1 : num := nofZ 1.
Definition n2 : num := nofZ 2.

(** A decimal literal [p/q] (q a power of ten below 10^22, p below 2^53): the quotient of two
    exactly represented integers, correctly rounded - the same double as the literal. *)
Definition ndec (p q : Z) : num := nofZ p / nofZ q.

(** SR_point.py:10  EPS = 1. / (10 ** PRECISION) *)
Definition EPS : num := nofZ 1 / nofZ 100000000.

(** x ** 2 *)
Definition sqr (x : num) : num := x * x.

(** min(a, b), max(a, b) of two numbers; the first argument wins ties. *)
Definition nmin (a b : num) : num := if b <? a then b else a.
Definition nmax (a b : num) : num := if a <? b then b else a.

(** math.degrees(x) = x * (180 / pi), math.radians(x) = x * (pi / 180) (CPython mathmodule.c). *)
Definition ndegrees (x : num) : num := x * (nofZ 180 / npi).
Definition nradians (x : num) : num := x * (npi / nofZ 180).
End Derived.
