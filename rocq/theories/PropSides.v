(** GENERATED by tools/gen_props.py from PSides.v: the property theorems only. *)
From Coq Require Import String Reals ZArith Lra Lia Bool List Psatz Permutation Arith.
From Verif Require Import Base Arith ArithR ArithF MPoint MLine MPoly MHeap MVessel MContain MIntex MRaum
  Spec SpecGroup SpecLoops SpecRing SpecHeap SpecIntex SpecStack SpecSides PPoint PLine PConvex PStack.
From Verif Require PIntex PHeap PVessel PRaum SpecInside.
Import SpecInside(right_of_row, even_odd, polygon_of).
Import ListNotations.
Local Open Scope list_scope.
Local Open Scope R_scope.
#[local] Existing Instance RA.
From Verif Require Import PSides.

(** C98: what raum_intex reports for such a vessel with the room R1 whose outer walls are all its parts: R1 is inside every
    shell and every head, outside none, and indifferent to the flat ends.  The shells are not too flat and not too
    small (as in C79), the diameters at least 1e-4.  The tests for inner points of the shells (inside_m) and of the
    room (inside) answer always, and rightly for points that are not on the walls; the room's answer is right if it
    follows the even-odd rule for its corners vs (C35). Segments may have been turned round by the room search. *)
Theorem C98_intex : forall x0 bot top a l (cs : list vpart) names (inside_m : vpart -> nat -> nat -> nat -> nat -> pt RA -> res bool) turn vs
  (prepare : iroom RA -> res unit) (inside : nat -> iroom RA -> pt RA -> res bool),
  measured x0 (a :: l) -> rising a l -> l <> [] -> fair_shells a l -> (forall u, In u (a :: l) -> 1 / 10^4 <= snd u) ->
  Permutation cs (vessel_parts bot top a l) -> NoDup names -> length names = length cs ->
  (forall u v k, right_answers (inside_m (Shell u v) k) (outline_of x0 u v)) -> (forall s, turned (turn s) s) ->
  let walls := concat (map (walls_of x0) cs) in
  polygon_of vs walls -> (forall r, prepare r = Ok tt) ->
  (forall n r p, exists b, inside n r p = Ok b /\ (off_walls walls p -> b = even_odd vs p)) ->
  exists gs, mapM (graph_of x0 inside_m) cs = Ok gs /\
    raum_intex prepare inside names [mkiroom "R1"%string [] (map (fun '(k, g) => seen_as turn k g) (combine names gs))] = Ok (combine names (map told cs)).
Proof. exact standing_intex. Qed.
Print Assumptions C98_intex.

(** C98: there are such corners: the walls of a standing vessel, taken together, are the edges of one polygon with different corners,
    and no two of them are reported to cross. *)
Theorem C98_polygon : forall x0 bot top a l (cs : list vpart), measured x0 (a :: l) -> rising a l -> l <> [] -> (length l <= 60)%nat ->
  Permutation cs (vessel_parts bot top a l) ->
  let walls := concat (map (walls_of x0) cs) in uncrossed walls /\ exists vs, NoDup vs /\ polygon_of vs walls.
Proof. exact standing_polygon. Qed.
Print Assumptions C98_polygon.

(** C98: the vessel of C98_example, its parts named A, B, C, D: the hypotheses can be met, also by tests that answer as
    they should. *)
Example C98_intex_example : exists gs, let cs := vessel_parts Dome Flat (0, 2) [(5, 2); (7, 1)] in let names := ["A"; "B"; "C"; "D"]%string in
  exists vs, polygon_of vs (concat (map (walls_of 1) cs)) /\
  raum_intex (A := RA) (fun _ => Ok tt) (fun _ _ p => Ok (even_odd vs p)) names [mkiroom "R1"%string [] (map (fun '(k, g) => seen_as (fun s => s) k g) (combine names gs))] =
  Ok [("A", mkintex ["R1"] [] []); ("B", mkintex [] [] ["R1"]); ("C", mkintex ["R1"] [] []); ("D", mkintex ["R1"] [] [])]%string.
Proof. exact standing_intex_example. Qed.
