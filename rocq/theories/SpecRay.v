(** Specification vocabulary for the rays of is_internal_point in binary64. *)
From Coq Require Import Reals ZArith List.
From Verif Require Import Base Arith ArithR ArithF MPoint MLine Spec SpecDouble.
Import ListNotations.
Local Open Scope R_scope.

(** Where the ray for a pair of draws would end without rounding: xm and ym are the largest
    coordinates of the polygon, random.uniform(a, b) is a + (b - a) * draw. *)
Definition target (xm ym : R) (d : F * F) : pt RA :=
  @mkpt RA (xm + (500 * xm - xm) * value (fst d)) (ym + (30 * ym - ym) * value (snd d)).

(** Two draws of random.random(). *)
Definition drawn (d : F * F) : Prop :=
  double (fst d) /\ double (snd d) /\ 0 <= value (fst d) < 1 /\ 0 <= value (snd d) < 1.

(** The ray from p to T goes to the right past the polygon through vs, is not too short or too flat,
    no corner is close to its line, and no side is nearly parallel to it.  [orient p T v] is the length
    of the ray times the distance of v from its line. *)
Definition clears (vs : list (pt RA)) (p T : pt RA) : Prop :=
  101 <= px T - px p /\ 101 <= Rabs (py T - py p) /\ px T <= 999999 /\
  (forall v, In v vs -> px v + 2 <= px T) /\ (forall v, In v vs -> 1001 <= Rabs (orient p T v)) /\
  (forall a b, In (a, b) (cycle_edges vs) -> 2 <= Rabs (orient p T b - orient p T a)).
