(** GENERATED by tools/gen_props.py from PWalk.v: the property theorems only. *)
From Coq Require Import Reals ZArith Lra Lia Bool List Psatz Permutation Arith.
From Verif Require Import Base Arith ArithR ArithF MPoint MLine MPoly MGroup Spec SpecGroup PPoint PLine PShape PConvex POrder PInside PGroup.
Import ListNotations.
#[local] Existing Instance RA.
From Verif Require Import PWalk.

(** C46: given the edges of one cycle (3 to 249 corners, no two of them identified by ==, all edges
    running the same way round) in any order, walk_segments returns the cycle, whatever the order in
    which Python visits the sets. *)
Theorem C46_walk_finds : forall (vs : list (pt RA)) (given : list (seg RA)) (sch : sched RA) fuel,
  (3 <= length vs < 250)%nat -> NoDup vs -> separated vs -> directed_cycle vs given -> fair sch -> (length vs <= fuel)%nat ->
  exists us r, walk_segments sch fuel given None = Ok (Loop r) /\ Permutation r given /\
    Permutation us vs /\ map (fun s => (si s, sj s)) r = cycle_edges us /\ isclosed r = Ok true.
Proof. exact walk_finds. Qed.
Print Assumptions C46_walk_finds.

(** C46, finding: if the segments are the edges of one cycle and run the same way round, find_loops does
    not return the cycle: it raises an IndexError, because after the cycle has been taken out it walks
    the empty graph.  (For any number of corners from 3 to 249 and any order of the sets.) *)
Theorem C46_single_loop_refuted : forall (vs : list (pt RA)) (graph : list (seg RA)) (schs : nat -> sched RA) wfuel fuel,
  (3 <= length vs < 250)%nat -> NoDup vs -> separated vs -> directed_cycle vs graph ->
  (forall k, fair (schs k)) -> (length vs <= wfuel)%nat -> (0 < fuel)%nat ->
  find_loops schs wfuel fuel graph = Err IndexError.
Proof. exact single_loop. Qed.
Print Assumptions C46_single_loop_refuted.

(** C46: the hypotheses of the theorems about a cycle hold for a triangle. *)
Example C46_example : let vs := [@mkpt RA 3 1; @mkpt RA 9 2; @mkpt RA 4 7]%R in
  (3 <= length vs < 250)%nat /\ NoDup vs /\ separated vs /\ directed_cycle vs (rev (cycle_poly vs)) /\ fair (plain_sched RA) /\ fair (swap_sched RA).
Proof. exact walk_example. Qed.

(** C46, finding (binary64): for two triangles with a common side find_loops returns a polygon that is
    not closed: ordering the second triangle turns the common segment round, and the first triangle,
    which is already in the list, refers to the same segment object. *)
Theorem C46_shared_segment_refuted : forall L : Libm,
  let s a b c d := LineSegment (Point_new (nofZ a) (nofZ b)) (Point_new (nofZ c) (nofZ d)) : seg (FA L) in
  let graph := [s 4 0 2 3; s 2 3 0 0; s 2 (-3) 4 0; s 0 0 2 (-3); s 0 0 4 0]%Z in
  exists cs h c, find_loops (fun _ => plain_sched (FA L)) 10 5 graph = Ok (Some (cs, h)) /\ length cs = 3%nat /\
    In c cs /\ isclosed (value h c) = Ok false.
Proof. exact shared_segment. Qed.
Print Assumptions C46_shared_segment_refuted.

(** C46, finding (binary64): whether walk_segments finds the outline of a square whose sides run in
    different directions depends on the order in which Python visits a set. *)
Theorem C46_set_order_refuted : forall L : Libm,
  let s a b c d := LineSegment (Point_new (nofZ a) (nofZ b)) (Point_new (nofZ c) (nofZ d)) : seg (FA L) in
  let square := [s 0 0 0 4; s 0 0 4 0; s 4 4 4 0; s 0 4 4 4]%Z in
  (exists r, walk_segments (plain_sched (FA L)) 10 square None = Ok (Loop r)) /\
  walk_segments (swap_sched (FA L)) 10 square None = Ok NoLoop.
Proof. exact set_order. Qed.
Print Assumptions C46_set_order_refuted.
