(** GENERATED by tools/gen_props.py from PPlateOnce.v: the property theorems only. *)
From Coq Require Import String Reals ZArith Lra Lia Bool List Psatz Permutation Arith.
From Verif Require Import Base Arith ArithR ArithF MPoint MLine MPoly MTri MGroup MCycles MVessel
  Spec SpecGroup SpecCycles SpecLoops SpecRing SpecHeap SpecStack SpecPlate
  PPoint PLine PConvex POrder PGroup PWalk PComponent PLoops POneRoom PPlainLoop PStack PPlate POnce.
From Verif Require PPlateRooms PExTwoRooms.
Import ListNotations.
Local Open Scope list_scope.
Local Open Scope R_scope.
#[local] Existing Instance RA.
From Verif Require Import PPlateOnce.

(** C99: when walking along the walls finds no loop first, find_loops has exactly three results: one has the walls of
    the room below the plate, one those of the room above it, and one those of the outline. *)
Theorem C99_each_once : forall x0 bot top a l1 l2 (g : list (seg RA)) (schs : nat -> sched RA) wf fuel,
  measured x0 (a :: l1 ++ l2) -> rising a (l1 ++ l2) -> l1 <> [] -> l2 <> [] -> (length (l1 ++ l2) <= 60)%nat ->
  Permutation g (concat (plated_parts x0 bot top a l1 l2)) ->
  walk_segments (schs fuel) wf g None = Ok NoLoop ->
  exists cs h below above both, find_loops schs wf fuel g = Ok (Some (cs, h)) /\ Permutation cs [below; above; both] /\
    rearranged (value h below) (below_plate x0 bot a l1) /\ rearranged (value h above) (above_plate x0 top a l1 l2) /\ rearranged (value h both) (around_both x0 bot top a l1 l2).
Proof. exact plate_each_once. Qed.
Print Assumptions C99_each_once.

(** C99: the vessel of C100_example: the hypotheses can be met, and there are three results. *)
Example C99_each_once_example : exists ps (sch : sched RA) cs h, Permutation ps (plated_parts 0 Flat Flat PExTwoRooms.v_a [PExTwoRooms.v_m] [PExTwoRooms.v_t]) /\
  walk_segments sch 20 (concat ps) None = Ok NoLoop /\ find_loops (fun _ => sch) 20 5 (concat ps) = Ok (Some (cs, h)) /\ length cs = 3%nat.
Proof. exact plate_each_once_example. Qed.
