(** GENERATED by tools/gen_props.py from POneRoom.v: the property theorems only. *)
From Coq Require Import String Reals ZArith Lra Lia Bool List Psatz Permutation Arith Classical.
From Verif Require Import Base Arith ArithR ArithF MPoint MLine MPoly MTri MGroup MCycles MBase MContain MRaum MRooms
  Spec SpecGroup SpecLoops SpecBase SpecRooms PPoint PLine PShape PConvex POrder PGroup PWalk PComponent PHead PCommon PCollinear PLoops.
From Verif Require PArea.
Import ListNotations.
Local Open Scope list_scope.
#[local] Existing Instance RA.
From Verif Require Import POneRoom.

(** C95: a graph with a single loop (which does not cross itself), in which walking along the segments finds
    no loop first: find_loops returns exactly this loop, once, as a valid closed polygon, and changes
    nothing but the directions of segments. *)
Theorem C95_one_loop : forall (schs : nat -> sched RA) wf fuel (g L : list (seg RA)), simple_graph g -> (length g < 250)%nat ->
  walk_segments (schs fuel) wf g None = Ok NoLoop -> loop_in g L -> uncrossed L -> (forall l, loop_in g l -> rearranged l L) ->
  exists c h, find_loops schs wf fuel g = Ok (Some ([c], h)) /\ Forall2 turned h g /\ rearranged (value h c) L /\
    poly_isvalid (value h c) = Ok true /\ isclosed (value h c) = Ok true.
Proof. exact one_loop_found. Qed.
Print Assumptions C95_one_loop.

(** C95: the same for a vessel: when the walls of its parts form a single loop, raum_erstellen makes one
    room, R1, without inner walls; its outer wall consists of exactly the parts that have a segment on the
    loop, in their order (some of their segments may have been turned round). *)
Theorem C95_one_room : forall (schs : nat -> sched RA) wf fuel H HC lib inside inside2 Hs parts (g L : list (seg RA)),
  simple_graph g -> (length g < 250)%nat ->
  walk_segments (schs fuel) wf g None = Ok NoLoop -> loop_in g L -> uncrossed L -> (forall l, loop_in g l -> rearranged l L) ->
  Permutation (concat parts) (seq 0 (length g)) -> Forall (fun p => p <> []) parts ->
  (forall l, rearranged l L -> isclosed l = Ok true -> exists ts, triangle_mesh lib (fun _ _ => inside) l = Ok ts) ->
  exists h on, vessel_rooms schs wf fuel H HC lib inside inside2 Hs parts g =
      Ok (Some [mkraum "R1" 0 [] [map (value h) on] []]) /\
    Forall2 turned h g /\ sublist on parts /\
    (forall p, In p parts -> (In p on <-> on_loop L (value g p))).
Proof. exact one_room. Qed.
Print Assumptions C95_one_room.

(** C95: a triangular room of two parts and a dead end, which is a third part: the hypotheses hold; the
    outer wall consists of the two parts. *)
Example C95_example : forall (schs : nat -> sched RA) H HC inside inside2 Hs, (forall k, fair (schs k)) ->
  let g := [zseg (-9) 0 0 0; zseg 0 0 4 0; zseg 4 0 2 3; zseg 2 3 0 0] in
  let parts := [[1%nat]; [0%nat]; [2%nat; 3%nat]] in
  exists h, Forall2 turned h g /\
    vessel_rooms schs 4 0 H HC (fun _ _ => None) inside inside2 Hs parts g =
      Ok (Some [mkraum "R1" 0 [] [[value h [1%nat]; value h [2%nat; 3%nat]]] []]).
Proof. exact one_room_example. Qed.
