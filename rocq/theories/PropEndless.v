(** GENERATED by tools/gen_props.py from PEndless.v: the property theorems only. *)
From Coq Require Import ZArith Lia Bool List Permutation Arith Floats.SpecFloat.
From Verif Require Import Base Arith ArithF MPoint MLine MPoly MGroup SpecGroup.
Import ListNotations.
From Verif Require Import PEndless.

(** C97, finding: walk_segments need not end.  For the segments of a triangle with a tail of two segments,
    all coordinates small integers, there is an order in which Python can visit the sets, the same in every
    round, with which the running program goes round the triangle for ever. *)
Theorem C97_endless_refuted : forall L : Libm,
  let g := map (fun '(a, b, c, d) => LineSegment (Point_new (nofZ a) (nofZ b)) (Point_new (nofZ c) (nofZ d)) : seg (FA L))
    [(6, 1, 3, 5); (8, 1, 7, 9); (8, 1, 4, 3); (7, 9, 4, 3); (6, 1, 4, 3)]%Z in
  exists sch, fair sch /\ forall fuel, walk_segments sch fuel g None = Ok Running.
Proof. exact walk_endless. Qed.
Print Assumptions C97_endless_refuted.

(** C97, finding: so find_loops, which begins with walking along the segments, does not end for this graph
    either, although it has a single loop. *)
Theorem C97_find_loops_refuted : forall L : Libm,
  let g := map (fun '(a, b, c, d) => LineSegment (Point_new (nofZ a) (nofZ b)) (Point_new (nofZ c) (nofZ d)) : seg (FA L))
    [(6, 1, 3, 5); (8, 1, 7, 9); (8, 1, 4, 3); (7, 9, 4, 3); (6, 1, 4, 3)]%Z in
  exists sch, fair sch /\ forall wf fuel, find_loops (fun _ => sch) wf fuel g = Ok None.
Proof. exact find_loops_endless. Qed.
Print Assumptions C97_find_loops_refuted.
