(** Specification vocabulary for points inside polygons. *)
From Coq Require Import Reals ZArith List Permutation.
From Verif Require Import Base Arith ArithR MPoint MLine Spec.
Import ListNotations.
Local Open Scope R_scope.

(** The usual even-odd rule: p is inside the closed polygon through vs if the horizontal ray from p to
    the right crosses an odd number of edges; an edge crosses the row of p if exactly one of its ends
    is above the row, and p must be strictly to the left of it. *)
Definition right_of_row (p a b : pt RA) : bool :=
  match Rle_lt_dec (py a) (py p), Rle_lt_dec (py b) (py p) with
  | left _, right _ => if Rlt_dec 0 (orient a b p) then true else false
  | right _, left _ => if Rlt_dec (orient a b p) 0 then true else false
  | _, _ => false
  end.
Definition even_odd (vs : list (pt RA)) (p : pt RA) : bool :=
  Nat.odd (length (filter (fun e => right_of_row p (fst e) (snd e)) (cycle_edges vs))).

(** The segments p P and a b cross properly: the ends of each are strictly on different sides of the
    other, and all ends are at least 1e-8 apart. *)
Definition crosses (p P a b : pt RA) : Prop :=
  orient p P a * orient p P b < 0 /\ orient a b p * orient a b P < 0 /\
  forall q v, In q [p; P] -> In v [a; b] -> / 10^8 <= dist q v.
(** They stay more than 1e-7 away from each other. *)
Definition apart (p P a b : pt RA) : Prop :=
  forall q q', on_segment p P q -> on_segment a b q' -> / 10^7 < dist q q'.

(** The segments of l are the edges of the closed cycle vs, in any order and direction. *)
Definition polygon_of {A : Arith} (vs : list (pt A)) (l : list (seg A)) : Prop :=
  exists l', Permutation l l' /\ Forall2 joins (cycle_edges vs) l'.
