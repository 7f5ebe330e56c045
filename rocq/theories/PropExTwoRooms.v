(** GENERATED by tools/gen_props.py from PExTwoRooms.v: the property theorems only. *)
From Coq Require Import String Reals ZArith Lra Lia Bool List Psatz Permutation Arith.
From Verif Require Import Base Arith ArithR ArithF MPoint MLine MPoly MTri MGroup MCycles MBase MContain MRaum MRooms MVessel
  Spec SpecInside SpecTri SpecGroup SpecCycles SpecLoops SpecBase SpecRooms SpecRing SpecContain SpecHeap SpecStack SpecPlate SpecPlateRooms SpecWhole SpecStackWhole SpecPlateWhole
  PPoint PShape PCommon PInside PExamples POrder PMore PCorner PCollinear PEar PEar2 PArea PRel PExRel.
From Verif Require PWalk PExBase PExContain PPlateRooms PStack PStackWhole PPlateWhole PMake.
Import ListNotations.
Local Open Scope list_scope.
Local Open Scope R_scope.
#[local] Existing Instance RA.
From Verif Require Import PExTwoRooms.

(** C100: a vessel of two cones, 2 m wide at 0 m and at 6 m and 4 m wide at 3 m, where there is a plate; its
    rooms are cut into two triangles each.  All the hypotheses hold, and it gets its two rooms. *)
Example C100_example : exists ps (sch : sched RA),
  measured 0 (v_a :: [v_m] ++ [v_t]) /\ rising v_a ([v_m] ++ [v_t]) /\ Permutation ps (plated_parts 0 Flat Flat v_a [v_m] [v_t]) /\
  walk_segments sch 20 (concat ps) None = Ok NoLoop /\ lists_all (PExBase.d_hash (list nat)) /\
  cut_up t_lib t_inside (below_plate 0 Flat v_a [v_m]) 9 /\ cut_up t_lib t_inside (above_plate 0 Flat v_a [v_m] [v_t]) 9 /\
  cut_up t_lib t_inside (around_both 0 Flat Flat v_a [v_m] [v_t]) (9 + 9) /\
  no_clash t_lib t_inside (below_plate 0 Flat v_a [v_m]) (above_plate 0 Flat v_a [v_m] [v_t]) /\
  no_clash t_lib t_inside (above_plate 0 Flat v_a [v_m] [v_t]) (below_plate 0 Flat v_a [v_m]) /\ right_for_convex PExContain.x_inside /\
  exists w1 w2, vessel_rooms (fun _ => sch) 20 5 (PExBase.d_hash nat) (PExBase.d_hash (list nat)) t_lib t_inside PExContain.x_inside (fun _ => PExBase.d_hash (list (seg RA))) (blocks 0 ps) (concat ps) =
    Ok (Some [mkraum "R1" 0 [] [w1] []; mkraum "R2" 1 [] [w2] []]).
Proof. exact two_rooms_example. Qed.
