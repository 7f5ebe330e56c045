(** GENERATED by tools/gen_props.py from PGroup.v: the property theorems only. *)
From Coq Require Import Reals ZArith Lra Lia Bool List Psatz Permutation Arith Sorted.
From Verif Require Import Base Arith ArithR ArithF MPoint MLine MPoly MGroup Spec SpecGroup PPoint PLine PShape PConvex POrder.
Import ListNotations.
#[local] Existing Instance RA.
From Verif Require Import PGroup.

(** C46: whatever the order in which Python visits the sets, a polygon returned by walk_segments is
    closed and made of the given segments (some with exchanged end points). *)
Theorem C46_walk : forall (A : Arith) (sch : sched A) fuel given start r, fair sch ->
  walk_segments sch fuel given start = Ok (Loop r) -> isclosed r = Ok true /\ made_of r given.
Proof. exact walk_made. Qed.
Print Assumptions C46_walk.

(** C46: whatever the order in which Python visits the sets, the polygons returned by find_loops are
    sorted by their number of segments and made of the given segments, and each of them is closed once
    some of its segments are turned round (find_loops itself turns shared segments round again after
    it has found a polygon, see C46_shared_segment_refuted). *)
Theorem C46_find_loops : forall (A : Arith) (schs : nat -> sched A) wf fuel given cs h, (forall k, fair (schs k)) ->
  find_loops schs wf fuel given = Ok (Some (cs, h)) ->
  StronglySorted (fun a b => (length a <= length b)%nat) (map (value h) cs) /\
  forall c, In c cs -> made_of (value h c) given /\
    exists r, Forall2 turned (value h c) r /\ isclosed r = Ok true.
Proof. exact find_loops_made. Qed.
Print Assumptions C46_find_loops.
