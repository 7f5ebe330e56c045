(** GENERATED by tools/gen_props.py from PHeadParts.v: the property theorems only. *)
From Coq Require Import String Reals ZArith Lra Lia Bool List Psatz Permutation Arith.
From Verif Require Import Base Arith ArithR ArithF MPoint MLine MPoly MHeap MVessel MContain MIntex MRaum
  Spec SpecGroup SpecLoops SpecRing SpecHeap SpecIntex SpecStack SpecSides SpecPartition SpecHeadParts PPoint PLine PConvex PStack.
From Verif Require PIntex PHeap PVessel PRaum PSides PPlate PStories PPartition SpecStories SpecInside.
Import SpecInside(right_of_row, even_odd, polygon_of).
Import ListNotations.
Local Open Scope list_scope.
Local Open Scope R_scope.
#[local] Existing Instance RA.
From Verif Require Import PHeadParts.

(** C103: all the other parts of the vessel that a head divides.  The shell into which the head bulges is at least
    2 cm longer than the head is high and does not narrow; the shells are not too flat or small (as in C98).  A part,
    other than the head, belongs to the wall of one of the two rooms (on the hollow side or not), r is this room; k is
    the name of this part only.  Then raum_intex reports r, and only r, inside of it, if it is a shell or a head, and as
    indifferent, if it is a flat end; nothing is outside; whatever the other rooms and parts, the order of the rooms and
    of their walls, and for all answers about inner points that are right off the walls of r.  In particular the probe
    points of the shell around the dividing head are not disturbed by it. *)
Theorem C103_other_parts : forall x0 bot top (up : bool) a l1 l2 inside_m (hollow : bool) c,
  measured x0 (a :: l1 ++ l2) -> rising a (l1 ++ l2) -> l1 <> [] -> l2 <> [] -> fair_shells a (l1 ++ l2) -> (forall u, In u (a :: l1 ++ l2) -> 1 / 10^4 <= snd u) -> bulge_roomy up a l1 l2 ->
  (forall u v k, right_answers (inside_m (Shell u v) k) (outline_of x0 u v)) ->
  In c (if hollow then hollow_parts bot top up a l1 l2 else bulge_parts bot top up a l1 l2) -> c <> End Dome up (last l1 a) ->
  exists g, graph_of x0 inside_m c = Ok g /\
  forall (prepare : iroom RA -> res unit) (inside : nat -> iroom RA -> pt RA -> res bool) k names turn r front back vs,
  once_in (seen_as turn k g) r -> (forall r' y, In r' (front ++ back) -> In y (walls_in r') -> p_name y <> k) ->
  NoDup names -> (forall r' y, In r' (front ++ r :: back) -> In y (walls_in r') -> In (p_name y) names) ->
  (forall r', prepare r' = Ok tt) -> (forall n r' p, exists b, inside n r' p = Ok b) ->
  (let W := if hollow then hollow_side x0 bot top up a l1 l2 else bulge_side x0 bot top up a l1 l2 in
   polygon_of vs W /\ forall n p, off_walls W p -> inside n r p = Ok (even_odd vs p)) ->
  exists t, raum_intex prepare inside names (front ++ r :: back) = Ok t /\ lookup String.eqb k t = Ok (told_alone c (ir_name r)).
Proof. exact other_parts. Qed.
Print Assumptions C103_other_parts.

(** C103: the vessel of C102_head_example: a cylinder of diameter 2 with flat ends A and D at 0 m and 6 m, two shells B and C,
    and a head H at 3 m that bulges upwards, into the room R2: what is reported for the parts other than H.  All the
    hypotheses can be met. *)
Example C103_other_parts_example : let a := (0, 2) in let m := (3, 2) in let z := (6, 2) in
  exists gr inside t, let wall k c := seen_as (fun s => s) k (gr c) in
  (exists ans, forall c, In c [End Flat false a; Shell a m; End Dome true m; Shell m z; End Flat true z] -> graph_of 1 ans c = Ok (gr c)) /\
  raum_intex (A := RA) (fun _ => Ok tt) inside ["A"; "B"; "C"; "D"; "H"]%string
    [mkiroom "R2" [] [wall "D" (End Flat true z); wall "H" (End Dome true m); wall "C" (Shell m z)]; mkiroom "R1" [] [wall "H" (End Dome true m); wall "A" (End Flat false a); wall "B" (Shell a m)]]%string = Ok t /\
  lookup String.eqb "A"%string t = Ok (mkintex [] [] ["R1"])%string /\ lookup String.eqb "B"%string t = Ok (mkintex ["R1"] [] [])%string /\
  lookup String.eqb "C"%string t = Ok (mkintex ["R2"] [] [])%string /\ lookup String.eqb "D"%string t = Ok (mkintex [] [] ["R2"])%string.
Proof. exact other_example. Qed.

(** C103: the whole table of a standing vessel that a head divides into two rooms, whose parts have different names: n1 is the
    room on the hollow side of the head, n2 the one into which it bulges.  The rooms and their walls may be in any order and
    segments may be turned round.  The head has n1 inside and n2 outside; every other shell or head has its own
    room, and only it, inside, and every flat end is indifferent to its own room; other names get nothing. *)
Theorem C103_table : forall x0 bot top (up : bool) a l1 l2 inside_m (name : vpart -> string) names turn n1 n2 cs1 cs2 (prepare : iroom RA -> res unit) (inside : nat -> iroom RA -> pt RA -> res bool) vs1 vs2,
  let head := End Dome up (last l1 a) in let hollow := hollow_parts bot top up a l1 l2 in let others := tl (bulge_parts bot top up a l1 l2) in
  measured x0 (a :: l1 ++ l2) -> rising a (l1 ++ l2) -> l1 <> [] -> l2 <> [] -> fair_shells a (l1 ++ l2) -> (forall u, In u (a :: l1 ++ l2) -> 1 / 10^4 <= snd u) -> bulge_roomy up a l1 l2 ->
  (forall u v k, right_answers (inside_m (Shell u v) k) (outline_of x0 u v)) ->
  NoDup (map name (hollow ++ others)) -> NoDup names -> (forall c, In c (hollow ++ others) -> In (name c) names) ->
  Permutation cs1 hollow -> Permutation cs2 (head :: others) -> n1 <> n2 -> (forall r, prepare r = Ok tt) -> (forall n r p, exists b, inside n r p = Ok b) ->
  (let W := hollow_side x0 bot top up a l1 l2 in polygon_of vs1 W /\ forall n r p, ir_name r = n1 -> off_walls W p -> inside n r p = Ok (even_odd vs1 p)) ->
  (let W := bulge_side x0 bot top up a l1 l2 in polygon_of vs2 W /\ forall n r p, ir_name r = n2 -> off_walls W p -> inside n r p = Ok (even_odd vs2 p)) ->
  exists gr, (forall c, In c (hollow ++ others) -> graph_of x0 inside_m c = Ok (gr c)) /\
  forall rooms, (let r1 := room_of turn name gr n1 cs1 in let r2 := room_of turn name gr n2 cs2 in rooms = [r1; r2] \/ rooms = [r2; r1]) ->
  raum_intex prepare inside names rooms = Ok (map (fun k => (k, divided_told name head hollow others n1 n2 k)) names).
Proof. exact divided_table. Qed.
Print Assumptions C103_table.

(** C103: the table of the same vessel, with a part S elsewhere.  All the hypotheses can be met. *)
Example C103_table_example : exists inside gr, let a := (0, 2) in let m := (3, 2) in let z := (6, 2) in let room := room_of (fun _ s => s) jar_name gr in
  raum_intex (A := RA) (fun _ => Ok tt) inside ["A"; "B"; "C"; "D"; "H"; "S"]%string
    [room "R2"%string [End Flat true z; End Dome true m; Shell m z]; room "R1"%string [End Dome true m; Shell a m; End Flat false a]] =
  Ok [("A", mkintex [] [] ["R1"]); ("B", mkintex ["R1"] [] []); ("C", mkintex ["R2"] [] []); ("D", mkintex [] [] ["R2"]); ("H", mkintex ["R1"] ["R2"] []); ("S", mkintex [] [] [])]%string.
Proof. exact table_example. Qed.
