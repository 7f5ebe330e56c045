(** GENERATED by tools/gen_props.py from PWalkEnds.v: the property theorems only. *)
From Coq Require Import Reals ZArith Lra Lia Bool List Psatz Permutation Arith Classical.
From Verif Require Import Base Arith ArithR ArithF MPoint MLine MPoly MTri MGroup
  Spec SpecGroup SpecLoops SpecRing PPoint PLine PShape PConvex POrder PInside PGroup PWalk PCommon PLoops PPlainLoop.
From Verif Require Import SpecDouble SpecWhole.
From Verif Require PWholeLoops.
Import ListNotations.
#[local] Existing Instance RA.
From Verif Require Import PWalkEnds.

(** C97: walking along the segments of a graph (up to 124, no two between the same points) ends, and raises
    nothing, whatever the order of the sets, if every loop of the graph passes through every segment that
    begins where the first one begins; in particular if there is no loop at all. *)
Theorem C97_ends : forall (sch : sched RA) wf (s0 : seg RA) rest, let g := s0 :: rest in fair sch -> simple_graph g -> (length g < 125)%nat ->
  (forall a l, In a g -> si a = si s0 -> loop_in g l -> In a l) ->
  ((2 * length g + 1) * (2 * length g + 1) <= wf)%nat -> exists w, walk_segments sch wf g None = Ok w /\ w <> Running.
Proof. exact graph_walk_ends. Qed.
Print Assumptions C97_ends.

(** C97: without loops it always ends. *)
Theorem C97_no_loop : forall (sch : sched RA) wf (g : list (seg RA)), fair sch -> simple_graph g -> (length g < 125)%nat -> g <> [] ->
  (forall l, ~ loop_in g l) -> ((2 * length g + 1) * (2 * length g + 1) <= wf)%nat -> exists w, walk_segments sch wf g None = Ok w /\ w <> Running.
Proof. exact forest_walk_ends. Qed.
Print Assumptions C97_no_loop.

(** C97: the same for the running program when the coordinates are whole numbers up to 2000. *)
Theorem C97_whole : forall L (sch : sched (FA L)) wf (g : list (seg (FA L))) (s0 : seg RA) rest, let g' := s0 :: rest in
  fair sch -> exact_segs g g' -> Forall whole_seg g' -> simple_graph g' -> (length g' < 125)%nat ->
  (forall a l, In a g' -> si a = si s0 -> loop_in g' l -> In a l) ->
  ((2 * length g' + 1) * (2 * length g' + 1) <= wf)%nat -> exists w, walk_segments sch wf g None = Ok w /\ w <> Running.
Proof. exact graph_walk_ends_whole. Qed.
Print Assumptions C97_whole.

(** C97: a triangle with a tail, in which the first segment belongs to the triangle, meets the hypotheses:
    walking along it ends (compare C97_endless_refuted, where the first segment belongs to the tail). *)
Example C97_example : forall (sch : sched RA), fair sch ->
  exists w, walk_segments sch 81 [zseg 0 0 4 0; zseg 4 0 2 3; zseg 2 3 0 0; zseg 2 3 2 9] None = Ok w /\ w <> Running.
Proof. exact ends_example. Qed.
