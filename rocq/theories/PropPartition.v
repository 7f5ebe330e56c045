(** GENERATED by tools/gen_props.py from PPartition.v: the property theorems only. *)
From Coq Require Import String Reals ZArith Lra Lia Bool List Psatz Permutation Arith.
From Verif Require Import Base Arith ArithR ArithF MPoint MLine MPoly MHeap MVessel MContain MIntex MRaum
  Spec SpecGroup SpecLoops SpecRing SpecHeap SpecIntex SpecStack SpecSides SpecPartition PPoint PLine PConvex PStack.
From Verif Require PIntex PHeap PVessel PRaum PSides PPlate PStories SpecStories SpecInside.
Import SpecInside(right_of_row, even_odd, polygon_of).
Import ListNotations.
Local Open Scope list_scope.
Local Open Scope R_scope.
#[local] Existing Instance RA.
From Verif Require Import PPartition.

(** C102: a standing vessel (as in C98) which a torispherical head at one of its levels divides into two rooms: r1 is the room
    on the hollow side of the head, r2 the one into which it bulges.  The head is at least 1e-4 wide, and the shell into which
    it bulges is longer than the head is high and does not narrow.  Then raum_intex reports r1, and only r1, inside
    of the head, r2, and only r2, outside of it, and nothing as indifferent; whatever the order of the rooms and of
    their walls, whatever the other parts (k is the name of the head only), and for all answers about inner points
    that are right off the walls of r1 and r2. *)
Theorem C102_head : forall x0 bot top (up : bool) a l1 l2 inside_m, let m := last l1 a in
  measured x0 (a :: l1 ++ l2) -> rising a (l1 ++ l2) -> l1 <> [] -> l2 <> [] -> 1 / 10^4 <= snd m -> bulge_space up a l1 l2 ->
  exists g, graph_of x0 inside_m (End Dome up m) = Ok g /\
  forall (prepare : iroom RA -> res unit) (inside : nat -> iroom RA -> pt RA -> res bool) k names turn1 turn2 r1 r2 front mid back rooms vs1 vs2,
  once_in (seen_as turn1 k g) r1 -> once_in (seen_as turn2 k g) r2 ->
  rooms = front ++ r1 :: mid ++ r2 :: back \/ rooms = front ++ r2 :: mid ++ r1 :: back ->
  (forall r y, In r (front ++ mid ++ back) -> In y (walls_in r) -> p_name y <> k) ->
  NoDup names -> (forall r y, In r rooms -> In y (walls_in r) -> In (p_name y) names) ->
  (forall r, prepare r = Ok tt) -> (forall n r p, exists b, inside n r p = Ok b) ->
  (let W := hollow_side x0 bot top up a l1 l2 in polygon_of vs1 W /\ forall n p, off_walls W p -> inside n r1 p = Ok (even_odd vs1 p)) ->
  (let W := bulge_side x0 bot top up a l1 l2 in polygon_of vs2 W /\ forall n p, off_walls W p -> inside n r2 p = Ok (even_odd vs2 p)) ->
  exists t, raum_intex prepare inside names rooms = Ok t /\ lookup String.eqb k t = Ok (mkintex [ir_name r1] [ir_name r2] []).
Proof. exact head_divides. Qed.
Print Assumptions C102_head.

(** C102: a cylinder of diameter 2 with flat ends A and D at 0 m and 6 m, made of two shells B and C, and a head H at 3 m
    that bulges upwards, with the rooms R1 below and R2 above it: all the hypotheses can be met. *)
Example C102_head_example : let a := (0, 2) in let m := (3, 2) in let z := (6, 2) in
  exists gr inside t, let wall k c := seen_as (fun s => s) k (gr c) in
  (exists ans, forall c, In c [End Flat false a; Shell a m; End Dome true m; Shell m z; End Flat true z] -> graph_of 1 ans c = Ok (gr c)) /\
  raum_intex (A := RA) (fun _ => Ok tt) inside ["A"; "B"; "C"; "D"; "H"]%string
    [mkiroom "R2" [] [wall "D" (End Flat true z); wall "H" (End Dome true m); wall "C" (Shell m z)]; mkiroom "R1" [] [wall "H" (End Dome true m); wall "A" (End Flat false a); wall "B" (Shell a m)]]%string = Ok t /\
  lookup String.eqb "H"%string t = Ok (mkintex ["R1"] ["R2"] [])%string.
Proof. exact head_example. Qed.

(** C102: the corners of both rooms exist: the walls of each of them are the edges of one polygon. *)
Theorem C102_polygon : forall x0 bot top (up : bool) a l1 l2, measured x0 (a :: l1 ++ l2) -> rising a (l1 ++ l2) -> l1 <> [] -> l2 <> [] -> (length (l1 ++ l2) <= 60)%nat ->
  (exists vs, polygon_of vs (hollow_side x0 bot top up a l1 l2)) /\ exists vs, polygon_of vs (bulge_side x0 bot top up a l1 l2).
Proof. exact head_polygons. Qed.
Print Assumptions C102_polygon.
