(** GENERATED by tools/gen_props.py from PKrempe2.v: the property theorems only. *)
From Coq Require Import Reals ZArith Lra Lia Bool List Psatz Permutation.
From Verif Require Import Base Arith ArithR MPoint MLine MPoly MHeap MVessel MKrempe Spec SpecHeap SpecKrempe PPoint PLine PPoly PTrig PShape PHeap PMore POrder PMake PVessel PHead PKrempe.
Import ListNotations.
Local Open Scope R_scope.
#[local] Existing Instance RA.
From Verif Require Import PKrempe2.

(** C82: the transition with a knuckle of radius r between a cone and a cylindrical shell.  It is accepted exactly if rounding the lower
    cut point moves it, times the height of the cone, by less than 1e-8.  Then its right side runs from the cut point of the cone over four points of a
    circle that touches both walls to the cut point of the shell; with its mirror image it is a closed polygon.  The part below is joined
    to the last point of the arc. *)
Theorem C82_round : forall j r hts below, round_fits j r -> given j hts below -> let q0 := rounded (start j) in let q1 := stop j in let m := mirror (axis j) in
  (Rabs (cone_h j * (px q0 - px (start j))) < 1 / 10^8 ->
   exists k rr c vs, kegelkrempe (up j) (down j) r hts (cone j) = Ok k /\ touching j r c /\ arc_points j r c vs /\
     k_segs k = wall_chain (q0 :: vs ++ [q1]) ++ [NonWall q1 (m q1)] ++ wall_chain (map m (q0 :: vs ++ [q1])) ++ [NonWall (m q0) q0] /\
     k_kegel k = outline (axis j) (foot j) q0 /\ k_oben k = outline (axis j) q1 (head j) /\
     k_unten k = option_map (joined (axis j) (last vs q0)) below /\
     krempe_part k = Ok (true, rr) /\ rearranged rr (k_segs k) /\ iscontinuous rr = true /\ isclosed rr = Ok true) /\
  (~ Rabs (cone_h j * (px q0 - px (start j))) < 1 / 10^8 -> kegelkrempe (up j) (down j) r hts (cone j) = Err AssertionError).
Proof. exact round_krempe. Qed.
Print Assumptions C82_round.

(** C82: cones less than 2 high are always accepted. *)
Theorem C82_small : forall j r hts below, round_fits j r -> given j hts below -> cone_h j < 2 ->
  exists k, kegelkrempe (A := RA) (up j) (down j) r hts (cone j) = Ok k.
Proof. exact small_round. Qed.
Print Assumptions C82_small.

(** Non-vacuity of C82: the vessel of the project's tests (cone 2 to 4, height 1, shell 4, height 1.5, r = 0.5, transition 0.3 down and 0.4 up), with and
    without a part below. *)
Example C82_example : let j := mkjoint 0 2 1 (3 / 2) 2 4 4 (3 / 10) (4 / 10) in
  round_fits j (1 / 2) /\ (exists k, kegelkrempe (A := RA) (4 / 10) (3 / 10) (1 / 2) [shell j] (cone j) = Ok k) /\
  (exists k, kegelkrempe (A := RA) (4 / 10) (3 / 10) (1 / 2) [shell j; standzarge (A := RA) 0 0 4 4 2] (cone j) = Ok k).
Proof. exact round_example. Qed.
