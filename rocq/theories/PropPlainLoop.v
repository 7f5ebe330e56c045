(** GENERATED by tools/gen_props.py from PPlainLoop.v: the property theorems only. *)
From Coq Require Import String Reals ZArith Lra Lia Bool List Psatz Permutation Arith Classical.
From Verif Require Import Base Arith ArithR ArithF MPoint MLine MPoly MTri MGroup MCycles MBase MContain MRaum MRooms
  Spec SpecGroup SpecLoops SpecBase SpecRooms SpecRing PPoint PLine PShape PConvex POrder PInside PGroup PWalk PComponent PHead PCommon PCollinear PLoops POneRoom.
From Verif Require PMore.
Import ListNotations.
Local Open Scope list_scope.
#[local] Existing Instance RA.
From Verif Require Import PPlainLoop.

(** C96: the segments are the edges of a single cycle (3 to 249 corners, any order, any directions, not
    crossing itself).  Whatever the order in which Python visits the sets: if find_loops returns, it returns
    exactly one polygon, closed, made of all the segments (some of them turned round); the segments of
    the graph are unchanged except for their directions. *)
Theorem C96_one_loop : forall (schs : nat -> sched RA) wf fuel (g : list (seg RA)) cs h, (forall k, fair (schs k)) ->
  ring g -> (length g < 250)%nat -> uncrossed g -> (length g <= wf)%nat -> find_loops schs wf fuel g = Ok (Some (cs, h)) ->
  exists c, cs = [c] /\ rearranged (value h c) g /\ isclosed (value h c) = Ok true /\ Forall2 turned (firstn (length g) h) g.
Proof. exact ring_one_loop. Qed.
Print Assumptions C96_one_loop.

(** C96: it does return when the segments are walls (of any class but the plain LineSegment) that do not
    all run the same way round, provided walking along them ends. *)
Theorem C96_walls : forall (schs : nat -> sched RA) wf fuel (g : list (seg RA)) w, (forall k, fair (schs k)) ->
  ring g -> (length g < 250)%nat -> uncrossed g -> (length g <= wf)%nat -> (0 < fuel)%nat ->
  (forall s, In s g -> sc s <> CLineSegment) -> ~ one_way g ->
  walk_segments (schs fuel) wf g None = Ok w -> w <> Running ->
  exists c h, find_loops schs wf fuel g = Ok (Some ([c], h)).
Proof. exact ring_returns. Qed.
Print Assumptions C96_walls.

(** C96, finding: when the segments of the cycle are plain LineSegments, find_loops raises an IndexError
    as soon as walking along them has found the cycle, whichever way they run. *)
Theorem C96_plain_refuted : forall (schs : nat -> sched RA) wf fuel (g r : list (seg RA)), (forall k, fair (schs k)) ->
  ring g -> (length g < 250)%nat -> (length g <= wf)%nat -> (0 < fuel)%nat -> (forall s, In s g -> sc s = CLineSegment) ->
  walk_segments (schs fuel) wf g None = Ok (Loop r) -> find_loops schs wf fuel g = Err IndexError.
Proof. exact ring_plain. Qed.
Print Assumptions C96_plain_refuted.

(** C96: a vessel whose walls form a single cycle: if raum_erstellen returns, there is exactly one room, R1,
    without inner walls, and its outer wall consists of all the parts of the vessel, in their order (some of
    their segments may have been turned round). *)
Theorem C96_one_room : forall (schs : nat -> sched RA) wf fuel H HC lib inside inside2 Hs parts (g : list (seg RA)) rooms, (forall k, fair (schs k)) ->
  ring g -> (length g < 250)%nat -> uncrossed g -> (length g <= wf)%nat -> Permutation (concat parts) (seq 0 (length g)) ->
  vessel_rooms schs wf fuel H HC lib inside inside2 Hs parts g = Ok (Some rooms) ->
  exists walls, rooms = [mkraum "R1" 0 [] [walls] []] /\ Forall2 (Forall2 turned) walls (map (value g) parts).
Proof. exact ring_one_room. Qed.
Print Assumptions C96_one_room.

(** C96: walking along the segments of a single cycle (3 to 124 corners, any order, any directions) always
    ends, and raises nothing, whatever the order of the sets: after at most 2 n^2 + 3 n + 1 rounds. *)
Theorem C96_walk_ends : forall (sch : sched RA) wf (g : list (seg RA)), fair sch -> ring g -> (length g < 125)%nat ->
  ((2 * length g + 1) * (length g + 1) <= wf)%nat -> exists w, walk_segments sch wf g None = Ok w /\ w <> Running.
Proof. exact ring_walk_ends. Qed.
Print Assumptions C96_walk_ends.

(** C96: so the loop of such walls is found, whatever the order of the sets, unless all of them run the
    same way round. *)
Theorem C96_finds : forall (schs : nat -> sched RA) wf fuel (g : list (seg RA)), (forall k, fair (schs k)) ->
  ring g -> (length g < 125)%nat -> uncrossed g -> ((2 * length g + 1) * (length g + 1) <= wf)%nat -> (0 < fuel)%nat ->
  (forall s, In s g -> sc s <> CLineSegment) -> ~ one_way g ->
  exists c h, find_loops schs wf fuel g = Ok (Some ([c], h)) /\ rearranged (value h c) g /\ isclosed (value h c) = Ok true.
Proof. exact ring_finds. Qed.
Print Assumptions C96_finds.

(** C96: and raum_erstellen makes the one room, provided the polygon can be cut into triangles. *)
Theorem C96_room : forall (schs : nat -> sched RA) wf fuel H HC lib inside inside2 Hs parts (g : list (seg RA)), (forall k, fair (schs k)) ->
  ring g -> (length g < 125)%nat -> uncrossed g -> ((2 * length g + 1) * (length g + 1) <= wf)%nat -> (0 < fuel)%nat ->
  (forall s, In s g -> sc s <> CLineSegment) -> ~ one_way g -> Permutation (concat parts) (seq 0 (length g)) ->
  (forall l, rearranged l g -> isclosed l = Ok true -> exists ts, triangle_mesh lib (fun _ _ => inside) l = Ok ts) ->
  exists walls, vessel_rooms schs wf fuel H HC lib inside inside2 Hs parts g = Ok (Some [mkraum "R1" 0 [] [walls] []]) /\
    Forall2 (Forall2 turned) walls (map (value g) parts).
Proof. exact ring_room. Qed.
Print Assumptions C96_room.
