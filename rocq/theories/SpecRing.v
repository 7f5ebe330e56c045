(** Vocabulary for the statements about a vessel whose walls form exactly one loop. *)
From Coq Require Import Reals List Permutation Arith.
From Verif Require Import Base Arith ArithR MPoint MLine MPoly Spec SpecGroup.
Import ListNotations.

(** The segments are the edges of one cycle through at least three points, which == tells apart; they may
    be given in any order and run in any direction. *)
Definition ring (g : list (seg RA)) : Prop :=
  exists vs cyc, (3 <= length vs)%nat /\ NoDup vs /\ separated vs /\ Forall2 joins (cycle_edges vs) cyc /\ Permutation g cyc.

(** All segments of the cycle run the same way round. *)
Definition one_way (g : list (seg RA)) : Prop :=
  exists vs, (3 <= length vs)%nat /\ NoDup vs /\ directed_cycle vs g.
