(** GENERATED by tools/gen_props.py from PShortShell.v: the property theorems only. *)
From Coq Require Import String Reals ZArith Lra Lia Bool List Psatz Permutation Arith.
From Verif Require Import Base Arith ArithR ArithF MPoint MLine MPoly MHeap MVessel MContain MIntex MRaum
  Spec SpecGroup SpecLoops SpecRing SpecHeap SpecIntex SpecStack SpecSides SpecPartition PPoint PLine PConvex PStack.
From Verif Require PIntex PHeap PVessel PRaum PSides PPlate PStories PPartition PHeadParts SpecStories SpecInside.
Import SpecInside(right_of_row, even_odd, polygon_of).
Import ListNotations.
Local Open Scope list_scope.
Local Open Scope R_scope.
#[local] Existing Instance RA.
From Verif Require Import PShortShell.

(** C102 (finding): the shell into which the head bulges must be long enough.  In its graph a head is 0.1 high (or 1/1000 of the diameter),
    also if the head itself is much lower (0.04 for a diameter of 0.2).  If the shell above is between 6/100 and 1/2 as
    long as that and closed by a flat end, the room above is reported neither outside nor inside of the head nor as
    indifferent, whatever the answers about inner points, as long as they are right off the walls. *)
Theorem C102_short_refuted : forall x0 bot a l1 z inside_m, let m := last l1 a in let hg := Rmax (1 / 10) (snd m / 1000) in
  measured x0 (a :: l1 ++ [z]) -> rising a (l1 ++ [z]) -> l1 <> [] -> 1 / 10^4 <= snd m -> snd m <= snd z -> 6 / 100 * hg <= fst z - fst m <= hg / 2 ->
  exists g, graph_of x0 inside_m (End Dome true m) = Ok g /\
  forall (prepare : iroom RA -> res unit) (inside : nat -> iroom RA -> pt RA -> res bool) k names turn1 turn2 r1 r2 rooms vs1 vs2,
  once_in (seen_as turn1 k g) r1 -> once_in (seen_as turn2 k g) r2 -> rooms = [r1; r2] \/ rooms = [r2; r1] ->
  NoDup names -> (forall r y, In r rooms -> In y (walls_in r) -> In (p_name y) names) ->
  (forall r, prepare r = Ok tt) -> (forall n r p, exists b, inside n r p = Ok b) ->
  (let W := hollow_side x0 bot Flat true a l1 [z] in polygon_of vs1 W /\ forall n p, off_walls W p -> inside n r1 p = Ok (even_odd vs1 p)) ->
  (let W := bulge_side x0 bot Flat true a l1 [z] in polygon_of vs2 W /\ forall n p, off_walls W p -> inside n r2 p = Ok (even_odd vs2 p)) ->
  exists t, raum_intex prepare inside names rooms = Ok t /\ lookup String.eqb k t = Ok (mkintex [ir_name r1] [] []).
Proof. exact short_shell. Qed.
Print Assumptions C102_short_refuted.

(** C102: a cylinder of diameter 0.2 with flat ends A and D at 0 m and 0.35 m, divided by a head H at 0.3 m that bulges upwards:
    room R1 under it, room R2 above; inner points by the even-odd rule.  Only R1 is reported for H. *)
Example C102_short_refuted_example : let a := (0, 2 / 10) in let m := (3 / 10, 2 / 10) in let z := (35 / 100, 2 / 10) in exists gr inside t,
  (exists inside_m, forall c, c = End Dome true m -> graph_of 1 inside_m c = Ok (gr c)) /\
  (exists vs1 vs2, polygon_of vs1 (hollow_side 1 Flat Flat true a [m] [z]) /\ polygon_of vs2 (bulge_side 1 Flat Flat true a [m] [z]) /\
    inside = fun (_ : nat) (ro : iroom RA) p => Ok (even_odd (if String.eqb (ir_name ro) "R1" then vs1 else vs2) p)) /\
  raum_intex (A := RA) (fun _ => Ok tt) inside ["A"; "B"; "C"; "D"; "H"]%string
    [mkiroom "R2" [] [seen_as (fun s => s) "H" (gr (End Dome true m))]; mkiroom "R1" [] [seen_as (fun s => s) "H" (gr (End Dome true m))]]%string = Ok t /\
  lookup String.eqb "H"%string t = Ok (mkintex ["R1"] [] [])%string.
Proof. exact short_example. Qed.
