(** GENERATED by tools/gen_props.py from PWholeLoops.v: the property theorems only. *)
From Coq Require Import ZArith Reals Lra Lia Bool List Permutation Arith Floats.SpecFloat.
From Flocq Require Import Core BinarySingleNaN Relative.
From Verif Require Import Base Arith ArithR ArithF MPoint MLine MPoly MHeap Spec SpecHeap SpecDouble PPoint PLine PTrig PCommon PShape PConvex POrder PHull PFlocq PHeap PDouble PExact PWhole.
From Verif Require Import MGroup SpecGroup SpecLoops SpecWhole PGroup PWalk PLoops.
Import ListNotations.
Local Open Scope R_scope.
#[local] Existing Instance RA.
From Verif Require Import PWholeLoops.

(** C92: order() of the running program is order() of the exact one, on whole coordinates up to 2000: the
    same answer, and the same segments in the same order and directions. *)
Theorem C92_order : forall L (l : list (seg (FA L))) (l' : list (seg RA)), exact_segs l l' -> Forall whole_seg l' ->
  same_answer (fun a b => fst a = fst b /\ exact_segs (snd a) (snd b)) (order l) (order l').
Proof. exact order_whole. Qed.
Print Assumptions C92_order.

(** C92: whatever the order in which Python visits the sets, there is an order for which the exact
    walk_segments does the same as the running one. *)
Theorem C92_walk : forall L (sch : sched (FA L)) fuel (l : list (seg (FA L))) (l' : list (seg RA)), fair sch -> exact_segs l l' -> Forall whole_seg l' ->
  exists sch' : sched RA, fair sch' /\ same_answer exact_walk (walk_segments sch fuel l None) (walk_segments sch' fuel l' None).
Proof. exact walk_whole. Qed.
Print Assumptions C92_walk.

(** C92: the same for find_loops: what it returns, and what it leaves of the segments, is what the exact
    find_loops returns and leaves for some order of the sets. *)
Theorem C92_find_loops : forall L (schs : nat -> sched (FA L)) wf fuel (g : list (seg (FA L))) (g' : list (seg RA)), (forall k, fair (schs k)) -> exact_segs g g' -> Forall whole_seg g' ->
  exists schs' : nat -> sched RA, (forall k, fair (schs' k)) /\ same_answer exact_loops (find_loops schs wf fuel g) (find_loops schs' wf fuel g').
Proof. exact find_loops_whole. Qed.
Print Assumptions C92_find_loops.

(** C92 (C31 for the running program): given the edges of a cycle through 3 to 249 different points with
    whole coordinates, in any order and with any directions, order() of the running program returns True
    and the cycle, closed, starting at the corner nearest to the origin. *)
Theorem C92_order_cycle : forall L (vs : list (pt RA)) (given : list (seg (FA L))) (given' cyc : list (seg RA)),
  (3 <= length vs < 250)%nat -> NoDup vs -> Forall (lattice 2000) vs -> Forall2 joins (cycle_edges vs) cyc -> Permutation given' cyc -> exact_segs given given' ->
  exists us r r', order given = Ok (true, r) /\ exact_segs r r' /\ rearranged r' given' /\ Permutation us vs /\ map (fun s => (si s, sj s)) r' = cycle_edges us /\
    iscontinuous r = true /\ isclosed r = Ok true /\ (forall v w, In v vs -> nth_error us 0 = Some w -> nearer_origin w v).
Proof. exact order_cycle_whole. Qed.
Print Assumptions C92_order_cycle.

(** C92 (C91 for the running program): when walking along the segments finds no loop first, the running
    find_loops returns exactly the loops of the graph that do not cross themselves. *)
Theorem C92_no_loop_missed : forall L (schs : nat -> sched (FA L)) wf fuel (g : list (seg (FA L))) (g' : list (seg RA)),
  (forall k, fair (schs k)) -> exact_segs g g' -> Forall whole_seg g' -> simple_graph g' -> (length g < 250)%nat -> walk_segments (schs fuel) wf g None = Ok NoLoop ->
  exists cs h, find_loops schs wf fuel g = Ok (Some (cs, h)) /\
    (forall l, loop_in g' l -> uncrossed l -> exists c v, In c cs /\ exact_segs (value h c) v /\ rearranged v l) /\
    (forall c, In c cs -> exists l v, loop_in g' l /\ uncrossed l /\ exact_segs (value h c) v /\ rearranged v l).
Proof. exact no_loop_missed_whole. Qed.
Print Assumptions C92_no_loop_missed.

(** C92: and in general a loop that does not cross itself is among the results of the running find_loops
    or shares a wall with a result that was found by walking. *)
Theorem C92_missed_only_shared : forall L (schs : nat -> sched (FA L)) wf fuel (g : list (seg (FA L))) (g' : list (seg RA)) cs h,
  (forall k, fair (schs k)) -> exact_segs g g' -> Forall whole_seg g' -> simple_graph g' -> (length g < 250)%nat -> find_loops schs wf fuel g = Ok (Some (cs, h)) ->
  exists h', exact_segs h h' /\ forall l, loop_in g' l -> uncrossed l ->
    (exists c, In c cs /\ rearranged (value h' c) l) \/
    (exists c s t, In c cs /\ (forall k, In k c -> (length g <= k)%nat) /\ In s (value h' c) /\ In t l /\ ((si s = si t /\ sj s = sj t) \/ (si s = sj t /\ sj s = si t))).
Proof. exact missed_only_shared_whole. Qed.
Print Assumptions C92_missed_only_shared.

(** C92: the running walk_segments finds no loop first if the first segment starts at a dead end. *)
Theorem C92_dead_end : forall L (sch : sched (FA L)) wf (g : list (seg (FA L))) (g' : list (seg RA)) s r, fair sch -> (0 < wf)%nat -> exact_segs g g' -> Forall whole_seg g' -> g' = s :: r ->
  (forall t, In t r -> si t <> si s /\ sj t <> si s) -> walk_segments sch wf g None = Ok NoLoop.
Proof. exact dead_end_whole. Qed.
Print Assumptions C92_dead_end.

(** C92 (C46 for the running program): given the edges of one cycle through 3 to 249 points with whole
    coordinates, all running the same way round, the running walk_segments returns the cycle. *)
Theorem C92_walk_finds : forall L (vs : list (pt RA)) (given : list (seg (FA L))) (given' : list (seg RA)) (sch : sched (FA L)) fuel,
  (3 <= length vs < 250)%nat -> NoDup vs -> Forall (lattice 2000) vs -> directed_cycle vs given' -> exact_segs given given' -> fair sch -> (length vs <= fuel)%nat ->
  exists us r r', walk_segments sch fuel given None = Ok (Loop r) /\ exact_segs r r' /\ Permutation r' given' /\ Permutation us vs /\ map (fun s => (si s, sj s)) r' = cycle_edges us /\ isclosed r = Ok true.
Proof. exact walk_finds_whole. Qed.
Print Assumptions C92_walk_finds.

(** C92, finding: so the running find_loops raises an IndexError for every vessel whose segments are the
    edges of one such cycle, whatever the order of the sets. *)
Theorem C92_single_loop_refuted : forall L (vs : list (pt RA)) (graph : list (seg (FA L))) (graph' : list (seg RA)) (schs : nat -> sched (FA L)) wf fuel,
  (3 <= length vs < 250)%nat -> NoDup vs -> Forall (lattice 2000) vs -> directed_cycle vs graph' -> exact_segs graph graph' -> (forall k, fair (schs k)) -> (length vs <= wf)%nat -> (0 < fuel)%nat ->
  find_loops schs wf fuel graph = Err IndexError.
Proof. exact single_loop_whole. Qed.
Print Assumptions C92_single_loop_refuted.

(** C92 (C47 for the running program): a group of polygons with whole coordinates is valid for the running
    program exactly if it is valid for the exact one, i.e. by C47 if the degree rules hold for its segments
    and every polygon is valid. *)
Theorem C92_group : forall L (ps : list (list (seg (FA L)))) (ps' : list (list (seg RA))) (l : list (seg (FA L))) (l' : list (seg RA)),
  Forall2 exact_segs ps ps' -> Forall (Forall whole_seg) ps' -> exact_segs l l' -> Forall whole_seg l' -> group_isvalid ps l = group_isvalid ps' l'.
Proof. exact group_whole. Qed.
Print Assumptions C92_group.

(** C92: segments made of integers up to 2000 are those integers, in the program and exactly: the hypotheses
    of the theorems above hold for every graph of such segments. *)
Theorem C92_segments : forall L (ds : list (Z * Z * Z * Z)),
  Forall (fun '(a, b, c, d) => (Z.abs a <= 2000 /\ Z.abs b <= 2000 /\ Z.abs c <= 2000 /\ Z.abs d <= 2000)%Z) ds ->
  let g := map (fun '(a, b, c, d) => LineSegment (Point_new (nofZ a) (nofZ b)) (Point_new (nofZ c) (nofZ d)) : seg (FA L)) ds in
  let g' := map (fun '(a, b, c, d) => LineSegment (@mkpt RA (IZR a) (IZR b)) (@mkpt RA (IZR c) (IZR d))) ds in
  exact_segs g g' /\ Forall whole_seg g'.
Proof. exact segments_whole. Qed.
Print Assumptions C92_segments.

(** C92: the two rooms with a dead end of C91_example, as doubles, meet the hypotheses. *)
Example C92_example : forall L : Libm,
  let ds := [(-9, 0, 0, 0); (0, 0, 4, 0); (4, 4, 4, 0); (4, 4, 0, 4); (0, 4, 0, 0); (0, 0, 4, 4)]%Z in
  let g := map (fun '(a, b, c, d) => LineSegment (Point_new (nofZ a) (nofZ b)) (Point_new (nofZ c) (nofZ d)) : seg (FA L)) ds in
  let g' := map (fun '(a, b, c, d) => LineSegment (@mkpt RA (IZR a) (IZR b)) (@mkpt RA (IZR c) (IZR d))) ds in
  exact_segs g g' /\ Forall whole_seg g' /\ simple_graph g' /\ (forall sch, fair sch -> walk_segments sch 5 g None = Ok NoLoop).
Proof. exact whole_loops_example. Qed.

(** C46: walk_segments raises an IndexError for a starting point at which no segment starts (in any
    arithmetic, for any order of the sets), also if segments end there. *)
Theorem C46_start_refused : forall (A : Arith) (sch : sched A) fuel given p, fair sch -> (forall s, In s given -> pt_eqb p (si s) = false) ->
  walk_segments sch fuel given (Some p) = Err IndexError.
Proof. exact start_refused. Qed.
Print Assumptions C46_start_refused.
