(** GENERATED by tools/gen_props.py from POnce.v: the property theorems only. *)
From Coq Require Import String Reals ZArith Lra Lia Bool List Psatz Permutation Arith Classical.
From Verif Require Import Base Arith ArithR ArithF MPoint MLine MPoly MTri MGroup
  Spec SpecGroup SpecLoops PPoint PLine PConvex POrder PGroup PWalk PComponent PLoops POneRoom.
Import ListNotations.
Local Open Scope list_scope.
#[local] Existing Instance RA.
From Verif Require Import POnce.

(** C91: in a graph in which any two loops have a common corner (as between rooms with a common wall), when
    walking finds no loop first, no loop is reported twice. *)
Theorem C91_once : forall (schs : nat -> sched RA) wf fuel (g : list (seg RA)) cs h, simple_graph g -> (length g < 250)%nat ->
  (forall l m, loop_in g l -> loop_in g m -> exists p, In p (flat_map ij l) /\ In p (flat_map ij m)) ->
  walk_segments (schs fuel) wf g None = Ok NoLoop -> find_loops schs wf fuel g = Ok (Some (cs, h)) ->
  forall i j c d, nth_error cs i = Some c -> nth_error cs j = Some d -> rearranged (value h c) (value h d) -> i = j.
Proof. exact results_once. Qed.
Print Assumptions C91_once.
