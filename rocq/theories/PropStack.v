(** GENERATED by tools/gen_props.py from PStack.v: the property theorems only. *)
From Coq Require Import String Reals ZArith Lra Lia Bool List Psatz Permutation Arith Classical.
From Verif Require Import Base Arith ArithR ArithF MPoint MLine MPoly MHeap MVessel MTri MGroup MCycles MBase MContain MRaum MRooms
  Spec SpecGroup SpecLoops SpecBase SpecRooms SpecRing SpecHeap SpecStack PPoint PLine PConvex POrder PGroup PLoops POneRoom PPlainLoop.
From Verif Require PHeap PVessel PSplit SpecSplit.
Import ListNotations.
Local Open Scope list_scope.
Local Open Scope R_scope.
#[local] Existing Instance RA.
From Verif Require Import PStack.

(** C98: a standing vessel of up to 60 shells (cylinders and cones in any succession) with a flat end or a
    torispherical head at the bottom and at the top, its parts given in any order: raum_erstellen makes
    exactly one room, R1, without inner walls, whose outer wall consists of all the parts, whatever the
    order of the sets (provided cutting the polygon into triangles raises nothing). *)
Theorem C98_one_room : forall (schs : nat -> sched RA) wf fuel H HC lib inside inside2 Hs x0 bot top a l (ps : list (list (seg RA))),
  measured x0 (a :: l) -> rising a l -> l <> [] -> (length l <= 60)%nat -> Permutation ps (standing_parts x0 bot top a l) ->
  (forall k, fair (schs k)) -> ((4 * length l + 9) * (2 * length l + 5) <= wf)%nat -> (0 < fuel)%nat ->
  (forall c, rearranged c (concat ps) -> isclosed c = Ok true -> exists ts, triangle_mesh lib (fun _ _ => inside) c = Ok ts) ->
  exists walls, vessel_rooms schs wf fuel H HC lib inside inside2 Hs (blocks 0 ps) (concat ps) = Ok (Some [mkraum "R1" 0 [] [walls] []]) /\
    Forall2 (Forall2 turned) walls ps.
Proof. exact standing_room. Qed.
Print Assumptions C98_one_room.

(** C98: the base of it: find_loops finds the loop of all its walls, once and closed, whatever the order of
    the sets. *)
Theorem C98_loop : forall (schs : nat -> sched RA) wf fuel x0 bot top a l (ps : list (list (seg RA))),
  measured x0 (a :: l) -> rising a l -> l <> [] -> (length l <= 60)%nat -> Permutation ps (standing_parts x0 bot top a l) ->
  (forall k, fair (schs k)) -> ((4 * length l + 9) * (2 * length l + 5) <= wf)%nat -> (0 < fuel)%nat ->
  exists c h, find_loops schs wf fuel (concat ps) = Ok (Some ([c], h)) /\ rearranged (MGroup.value h c) (concat ps) /\ isclosed (MGroup.value h c) = Ok true.
Proof. exact standing_loop. Qed.
Print Assumptions C98_loop.

(** C98: a vessel with a head below, a cylinder, a cone and a flat end above. *)
Example C98_example : measured 1 [(0, 2); (5, 2); (7, 1)] /\ rising (0, 2) [(5, 2); (7, 1)] /\
  map (@length (seg RA)) (standing_parts 1 Dome Flat (0, 2) [(5, 2); (7, 1)]) = [2; 1; 2; 2]%nat.
Proof. exact standing_example. Qed.
