(** Vocabulary for the statements about the loops of a graph of segments. *)
From Coq Require Import Reals ZArith Bool List Permutation Arith.
From Verif Require Import Base Arith ArithR MPoint MLine MPoly MGroup Spec SpecGroup.
Import ListNotations.

(** End points are identical or separated, no segment has length zero, no two segments have the same ends. *)
Definition simple_graph (g : list (seg RA)) : Prop :=
  separated (flat_map ij g) /\
  (forall s, In s g -> si s <> sj s) /\
  (forall i j s t, nth_error g i = Some s -> nth_error g j = Some t ->
     (si s = si t /\ sj s = sj t) \/ (si s = sj t /\ sj s = si t) -> i = j).

(** The segments of cyc, all of them in g, are the edges (in any direction) of a cycle that visits no point twice. *)
Definition loop_in (g cyc : list (seg RA)) : Prop :=
  exists vs, (3 <= length vs)%nat /\ NoDup vs /\ Forall2 joins (cycle_edges vs) cyc /\ incl cyc g.

(** No two of the segments are reported to cross (C14 says what that means). *)
Definition uncrossed (l : list (seg RA)) : Prop :=
  forall s t, In s l -> In t l -> intersection_on_segment s t = Ok false.

(** Segments with whole coordinates; those that are not parallel have no common point unless they have
    a common end: the walls of a plan. *)
Definition plan (g : list (seg RA)) : Prop :=
  (forall p, In p (flat_map ij g) -> lattice 2000 p) /\
  (forall s t q, In s g -> In t g -> crossproduct s t <> 0%R -> shared s t q -> exists p, In p (ij s) /\ In p (ij t)).
