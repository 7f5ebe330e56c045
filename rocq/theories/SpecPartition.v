(** Vocabulary for the statements about a vessel that a torispherical head divides into two rooms. *)
From Coq Require Import String Reals List Bool.
From Verif Require Import Base Arith ArithR MPoint MLine MPoly MVessel MRaum SpecStack.
Import ListNotations.
Local Open Scope R_scope.

(** The shells between the levels a, l1, l2 ... with a head at the last level of l1, which bulges upwards (up) or
    downwards.  The walls of the room on its hollow side, and of the room into which it bulges. *)
Definition hollow_side (x0 : R) (bot top : closing) (up : bool) (a : level) (l1 l2 : list level) : list (seg RA) :=
  concat (if up then standing_parts x0 bot Dome a l1 else standing_parts x0 Dome top (last l1 a) l2).
Definition bulge_side (x0 : R) (bot top : closing) (up : bool) (a : level) (l1 l2 : list level) : list (seg RA) :=
  let m := last l1 a in
  closed_by x0 Dome up m ++ concat (if up then closed_by x0 top true (last l2 m) :: shells x0 m l2 else closed_by x0 bot false a :: shells x0 a l1).
(** The shell into which the head bulges is longer than the head is high (0.1, or 1/1000 of the diameter of a very
    big head), and it is not narrower at its other end. *)
Definition has_space (m v : level) : Prop := Rmax (1 / 10) (snd m / 1000) < Rabs (fst v - fst m) /\ snd m <= snd v.
Definition bulge_space (up : bool) (a : level) (l1 l2 : list level) : Prop :=
  let m := last l1 a in
  if up then exists v l', l2 = v :: l' /\ has_space m v else exists v l', a :: l1 = l' ++ [v; m] /\ has_space m v.

(** A room that has the part x once in its walls, and no other part of this name. *)
Definition walls_in (r : iroom RA) : list (part RA) := ir_innen r ++ ir_aussen r.
Definition once_in (x : part RA) (r : iroom RA) : Prop :=
  exists pre post, walls_in r = pre ++ x :: post /\ forall y, In y (pre ++ post) -> p_name y <> p_name x.
