(** GENERATED by tools/gen_props.py from PLoops.v: the property theorems only. *)
From Coq Require Import Reals ZArith Lra Lia Bool List Psatz Permutation Arith Classical.
From Verif Require Import Base Arith ArithR ArithF MPoint MLine MPoly MGroup Spec SpecGroup SpecLoops PPoint PLine PShape PConvex POrder PGroup PWalk PComponent PHead PCommon PCollinear.
Import ListNotations.
#[local] Existing Instance RA.
From Verif Require Import PLoops.

(** C91: when walking along the segments finds no loop first, find_loops returns, and what it returns are
    exactly the loops of the graph that do not cross themselves: each of them is among the results, and
    each result is one of them.  (Up to the order and the directions of the segments, for any graph of
    less than 250 segments without double segments, and for any order in which Python visits a set.) *)
Theorem C91_no_loop_missed : forall (schs : nat -> sched RA) wf fuel (g : list (seg RA)), simple_graph g -> (length g < 250)%nat ->
  walk_segments (schs fuel) wf g None = Ok NoLoop ->
  exists cs h, find_loops schs wf fuel g = Ok (Some (cs, h)) /\
    (forall l, loop_in g l -> uncrossed l -> exists c, In c cs /\ rearranged (value h c) l) /\
    (forall c, In c cs -> exists l, loop_in g l /\ uncrossed l /\ rearranged (value h c) l).
Proof. exact no_loop_missed. Qed.
Print Assumptions C91_no_loop_missed.

(** C91: in general, a loop that does not cross itself is either among the results of find_loops, or it
    shares a wall with a result that was found by walking (which is made of copies, i.e. of objects that
    are not those of the graph) - the walls of such a loop are taken out of the graph although other loops
    may need them (see C91_lost_room_refuted). *)
Theorem C91_missed_only_shared : forall (schs : nat -> sched RA) wf fuel (g : list (seg RA)) cs h, (forall k, fair (schs k)) ->
  simple_graph g -> (length g < 250)%nat -> find_loops schs wf fuel g = Ok (Some (cs, h)) ->
  forall l, loop_in g l -> uncrossed l ->
    (exists c, In c cs /\ rearranged (value h c) l) \/
    (exists c s t, In c cs /\ (forall k, In k c -> (length g <= k)%nat) /\ In s (value h c) /\ In t l /\
       ((si s = si t /\ sj s = sj t) \/ (si s = sj t /\ sj s = si t))).
Proof. exact missed_only_shared. Qed.
Print Assumptions C91_missed_only_shared.

(** C91: no loop of a plan (walls with whole coordinates that meet at their ends only) crosses itself, so
    nothing needs to be said about crossings for a plan. *)
Theorem C91_plan : forall g l, plan g -> loop_in g l -> uncrossed l.
Proof. exact plan_uncrossed. Qed.
Print Assumptions C91_plan.

(** C91: walking finds no loop first if the first segment starts at a dead end, whatever the order in
    which Python visits the sets. *)
Theorem C91_dead_end : forall (sch : sched RA) wf (g : list (seg RA)) s r, fair sch -> (0 < wf)%nat -> g = s :: r ->
  separated (flat_map ij g) -> (forall t, In t r -> si t <> si s /\ sj t <> si s) ->
  walk_segments sch wf g None = Ok NoLoop.
Proof. exact dead_end. Qed.
Print Assumptions C91_dead_end.

(** C32: on segments of which exactly two meet at every end point - disjoint cycles - order() returns
    True and keeps exactly the cycle of the first segment, running the way this segment runs; the
    dropped segments share no point with it. *)
Theorem C32_cycle_of_first : forall l : list (seg RA), simple_graph l -> (forall p, In p (flat_map ij l) -> incident l p = 2%nat) ->
  (0 < length l < 250)%nat ->
  exists r kept dropped us, order l = Ok (true, r) /\ Permutation (kept ++ dropped) l /\ rearranged r kept /\
    (3 <= length us)%nat /\ NoDup us /\ map (fun s => (si s, sj s)) r = cycle_edges us /\
    (forall s, nth_error l 0 = Some s -> In s r) /\
    (forall s p, In s dropped -> In p (ij s) -> ~ In p us).
Proof. exact cycle_of_first. Qed.
Print Assumptions C32_cycle_of_first.

(** C91: two triangular rooms with a common wall, and a dead end (the first segment): a plan that meets the
    hypotheses, with three loops. *)
Example C91_example : forall schs : nat -> sched RA, (forall k, fair (schs k)) ->
  let g := [zseg (-9) 0 0 0; zseg 0 0 4 0; zseg 4 4 4 0; zseg 4 4 0 4; zseg 0 4 0 0; zseg 0 0 4 4] in
  simple_graph g /\ plan g /\ walk_segments (schs 0%nat) 5 g None = Ok NoLoop /\
  loop_in g [zseg 0 0 4 0; zseg 4 4 4 0; zseg 0 0 4 4] /\
  loop_in g [zseg 4 4 0 4; zseg 0 4 0 0; zseg 0 0 4 4] /\
  loop_in g [zseg 0 0 4 0; zseg 4 4 4 0; zseg 4 4 0 4; zseg 0 4 0 0].
Proof. exact loops_example. Qed.

(** C32: two disjoint triangles, their segments mixed. *)
Example C32_cycle_of_first_example : let l := [zseg 0 0 4 0; zseg 10 0 14 0; zseg 4 0 2 3; zseg 14 0 12 3; zseg 10 0 12 3; zseg 0 0 2 3] in
  simple_graph l /\ (forall p, In p (flat_map ij l) -> incident l p = 2%nat) /\ (0 < length l < 250)%nat.
Proof. exact two_triangles. Qed.

(** C91, finding (binary64): two triangular rooms with a common wall.  Only one segment starts at the
    branching point, so that walking does not see the branch: it takes the first room and removes its
    walls, also the common one.  The second room is never found. *)
Theorem C91_lost_room_refuted : forall L : Libm,
  let s a b c d := LineSegment (Point_new (nofZ a) (nofZ b)) (Point_new (nofZ c) (nofZ d)) : seg (FA L) in
  let graph := [s 0 0 4 0; s 2 3 0 0; s 2 3 4 0; s 6 3 2 3; s 4 0 6 3]%Z in
  exists c h, find_loops (fun _ => plain_sched (FA L)) 10 5 graph = Ok (Some ([c], h)) /\
    ~ (exists t, In t (value h c) /\ (si t = Point_new (nofZ 6) (nofZ 3) \/ sj t = Point_new (nofZ 6) (nofZ 3))).
Proof. exact lost_room. Qed.
Print Assumptions C91_lost_room_refuted.

(** C91, finding (binary64): find_loops returns one room twice, once each way round, when a vessel has
    another, separate loop: the combination of both is ordered as the first one, after a wall of it has
    been turned round for its neighbour. *)
Theorem C91_same_loop_twice_refuted : forall L : Libm,
  let s a b c d := LineSegment (Point_new (nofZ a) (nofZ b)) (Point_new (nofZ c) (nofZ d)) : seg (FA L) in
  let graph := [s (-9) 0 (-5) 0; s 0 0 4 0; s 4 4 4 0; s 4 4 0 4; s 0 4 0 0; s 4 4 7 2; s 7 2 4 0;
                s (-5) 0 (-3) 2; s (-3) 2 (-3) (-2); s (-3) (-2) (-5) 0]%Z in
  exists cs h, find_loops (fun _ => plain_sched (FA L)) 20 8 graph = Ok (Some (cs, h)) /\
    In [6; 5; 2]%nat cs /\ In [2; 5; 6]%nat cs.
Proof. exact same_loop_twice. Qed.
Print Assumptions C91_same_loop_twice_refuted.
