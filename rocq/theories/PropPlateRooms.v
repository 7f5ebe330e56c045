(** GENERATED by tools/gen_props.py from PPlateRooms.v: the property theorems only. *)
From Coq Require Import String Reals ZArith Lra Lia Bool List Psatz Permutation Arith Classical.
From Verif Require Import Base Arith ArithR ArithF MPoint MLine MPoly MTri MGroup MCycles MBase MContain MRaum MRooms MVessel
  Spec SpecGroup SpecCycles SpecLoops SpecBase SpecRooms SpecRing SpecContain SpecHeap SpecStack SpecPlate SpecPlateRooms
  PPoint PLine PConvex POrder PGroup PWalk PComponent PLoops POneRoom PPlainLoop PStack PPlate POnce PTwoRooms.
From Verif Require PBase PBase2 PContain PShape.
Import ListNotations.
Local Open Scope list_scope.
Local Open Scope R_scope.
#[local] Existing Instance RA.
From Verif Require Import PPlateRooms.

(** C100: a standing vessel (as in C98) with a flat plate between two of its levels, its parts in any order,
    when walking along the walls finds no loop first: raum_erstellen makes exactly two rooms, R1 and R2,
    without inner walls.  The outer walls of one are the plate and the parts below it, those of the other the
    plate and the parts above it.  Needed: the triangles of the two rooms do not clash and have together the
    area of those of the outline, and is_internal_point answers correctly for convex hulls. *)
Theorem C100_two_rooms : forall (schs : nat -> sched RA) wf fuel H HC lib inside inside2 Hs x0 bot top a l1 l2 (ps : list (list (seg RA))) zb za,
  measured x0 (a :: l1 ++ l2) -> rising a (l1 ++ l2) -> l1 <> [] -> l2 <> [] -> (length (l1 ++ l2) <= 60)%nat ->
  Permutation ps (plated_parts x0 bot top a l1 l2) -> walk_segments (schs fuel) wf (concat ps) None = Ok NoLoop -> lists_all HC ->
  cut_up lib inside (below_plate x0 bot a l1) zb -> cut_up lib inside (above_plate x0 top a l1 l2) za -> cut_up lib inside (around_both x0 bot top a l1 l2) (zb + za) ->
  2 / 10^8 <= zb -> 2 / 10^8 <= za ->
  no_clash lib inside (below_plate x0 bot a l1) (above_plate x0 top a l1 l2) -> no_clash lib inside (above_plate x0 top a l1 l2) (below_plate x0 bot a l1) ->
  right_for_convex inside2 ->
  let lower := standing_parts x0 bot Flat a l1 in let upper := standing_parts x0 Flat top (last l1 a) l2 in
  exists w1 w2, vessel_rooms schs wf fuel H HC lib inside inside2 Hs (blocks 0 ps) (concat ps) = Ok (Some [mkraum "R1" 0 [] [w1] []; mkraum "R2" 1 [] [w2] []]) /\
    ((walls_of w1 lower /\ walls_of w2 upper) \/ (walls_of w1 upper /\ walls_of w2 lower)).
Proof. exact plate_rooms. Qed.
Print Assumptions C100_two_rooms.
