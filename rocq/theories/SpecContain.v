(** Vocabulary for the statements about contained cycles and the cycles of a group of polygons. *)
From Coq Require Import Reals ZArith Bool List Permutation Arith.
From Verif Require Import Base Arith ArithR MPoint MLine MPoly MGroup Spec.
Import ListNotations.
Local Open Scope R_scope.

(** p is an end point of a segment of one of the parts. *)
Definition point_of {A : Arith} (parts : list (list (seg A))) (p : pt A) : Prop :=
  exists l s, In l parts /\ In s l /\ In p (ij s).
(** p is in the interior of the convex hull of the points S: in every direction there is a point of S
    beyond p. *)
Definition in_hull (S : pt RA -> Prop) (p : pt RA) : Prop :=
  forall dx dy : R, (dx <> 0 \/ dy <> 0) -> exists q, S q /\ 0 < dx * (px q - px p) + dy * (py q - py p).
(** The test answers for convex counterclockwise polygons as it should: inside is what is strictly to
    the left of all edges. *)
Definition right_for_convex (inside : nat -> nat -> nat -> list (seg RA) -> pt RA -> res bool) : Prop :=
  forall e z n vs p, (forall a b q, In (a, b) (cycle_edges vs) -> In q vs -> 0 <= orient a b q) ->
    exists r, inside e z n (cycle_poly vs) p = Ok r /\
      (r = true <-> forall a b, In (a, b) (cycle_edges vs) -> 0 < orient a b p).

(** The segments with these numbers. *)
Definition segments_at {A : Arith} (h : list (seg A)) (parts : list (list nat)) : list (seg A) := value h (concat parts).

(** x is at exactly one place of the list, satisfies P, and nothing at any other place does. *)
Definition exactly_one {X} (P : X -> Prop) (l : list X) (x : X) : Prop :=
  exists a b, l = a ++ x :: b /\ P x /\ forall y, In y (a ++ b) -> ~ P y.
