(** Vocabulary for the statements about a standing vessel that a plate divides into two rooms. *)
From Coq Require Import Reals List.
From Verif Require Import Base Arith ArithR MPoint MLine MPoly MVessel SpecStack.
Import ListNotations.
Local Open Scope R_scope.

(** The shells between the levels a, l1, l2 ... with a flat plate at the last level of l1. *)
Definition plated_parts (x0 : R) (bot top : closing) (a : level) (l1 l2 : list level) : list (list (seg RA)) :=
  closed_by x0 Flat true (last l1 a) :: standing_parts x0 bot top a (l1 ++ l2).
(** The walls around the room below the plate, around the room above it, and around both. *)
Definition below_plate (x0 : R) (bot : closing) (a : level) (l1 : list level) : list (seg RA) :=
  concat (standing_parts x0 bot Flat a l1).
Definition above_plate (x0 : R) (top : closing) (a : level) (l1 l2 : list level) : list (seg RA) :=
  concat (standing_parts x0 Flat top (last l1 a) l2).
Definition around_both (x0 : R) (bot top : closing) (a : level) (l1 l2 : list level) : list (seg RA) :=
  concat (standing_parts x0 bot top a (l1 ++ l2)).
