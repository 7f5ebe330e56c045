(** Vocabulary for the statements about a vessel with a plate (SpecPlate.v) and whole sizes, in any arithmetic. *)
From Coq Require Import ZArith List.
From Verif Require Import Base Arith MPoint MLine MPoly MVessel SpecStack SpecStackWhole.
Import ListNotations.

(** The parts of the vessel and the plate at the level between l1 and l2. *)
Definition zplated (A : Arith) (x0 : Z) (bot top : closing) (a : zlevel) (l1 l2 : list zlevel) : list (list (seg A)) :=
  zclosed A x0 Flat true (last l1 a) :: zparts A x0 bot top a (l1 ++ l2).
(** The walls around the room below the plate, around the room above it, and around both. *)
Definition zloops (A : Arith) (x0 : Z) (bot top : closing) (a : zlevel) (l1 l2 : list zlevel) : list (list (seg A)) :=
  [concat (zparts A x0 bot Flat a l1); concat (zparts A x0 Flat top (last l1 a) l2); concat (zparts A x0 bot top a (l1 ++ l2))].
