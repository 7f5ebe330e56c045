(** GENERATED by tools/gen_props.py from PStories.v: the property theorems only. *)
From Coq Require Import String Reals ZArith Lra Lia Bool List Psatz Permutation Arith.
From Verif Require Import Base Arith ArithR ArithF MPoint MLine MPoly MHeap MVessel MContain MIntex MRaum
  Spec SpecGroup SpecLoops SpecRing SpecHeap SpecIntex SpecStack SpecSides SpecStories PPoint PLine PConvex PStack.
From Verif Require PIntex PHeap PVessel PRaum PSides PPlate SpecInside.
Import SpecInside(right_of_row, even_odd, polygon_of).
Import ListNotations.
Local Open Scope list_scope.
Local Open Scope R_scope.
#[local] Existing Instance RA.
From Verif Require Import PStories.

(** C101: a standing vessel (as in C98) that flat plates at some of its levels divide into stories, any number of
    them, with one room per story, whose outer walls are the parts around the story (as raum_erstellen makes them
    for one and for two stories, C98 and C100); the rooms and their walls may be in any order and segments may be
    turned round.  raum_intex then reports for each part: its story's room is inside of it, if it is a shell or a
    head, and it is indifferent to it, if it is a flat end; a plate is indifferent to the room below and to the
    room above; no part has a room outside.  Parts of the vessel that belong to no room (other names) get nothing. *)
Theorem C101_stories : forall x0 bot top a ls (name : vpart -> string) names inside_m turn rs (prepare : iroom RA -> res unit) (inside : nat -> iroom RA -> pt RA -> res bool),
  (forall l, In l ls -> l <> []) -> measured x0 (a :: concat ls) -> rising a (concat ls) -> fair_shells a (concat ls) -> (forall u, In u (a :: concat ls) -> 1 / 10^4 <= snd u) ->
  (exists ss, Permutation ss (stories bot top a ls) /\ Forall2 (fun s r => Permutation (rp_parts r) (parts_around s)) ss rs) ->
  NoDup (map rp_name rs) -> NoDup names -> (forall r c, In r rs -> In c (rp_parts r) -> In (name c) names) ->
  (forall u v k, right_answers (inside_m (Shell u v) k) (outline_of x0 u v)) -> (forall n s, turned (turn n s) s) -> (forall r, prepare r = Ok tt) ->
  (forall r, In r rs -> let walls := concat (map (walls_of x0) (rp_parts r)) in exists vs, polygon_of vs walls /\
     forall n ro p, ir_name ro = rp_name r -> exists b, inside n ro p = Ok b /\ (off_walls walls p -> b = even_odd vs p)) ->
  exists gr, (forall r c, In r rs -> In c (rp_parts r) -> graph_of x0 inside_m c = Ok (gr c)) /\
    raum_intex prepare inside names (map (seen_room turn name gr) rs) = Ok (map (fun k => (k, told_of name rs k)) names).
Proof. exact stories_intex. Qed.
Print Assumptions C101_stories.

(** C101: a vessel of three stories, with a head A at the bottom, the shells B, D, F, the plates C and E, a flat end G and a
    part S elsewhere; R1 is the room at the top, R2 the one at the bottom.  The hypotheses can be met. *)
Example C101_stories_example : exists inside gr, let around k1 k2 a l := parts_around (mkstory k1 k2 a l) in
  raum_intex (A := RA) (fun _ => Ok tt) inside ["A"; "B"; "C"; "D"; "E"; "F"; "G"; "S"]%string
    (map (seen_room (fun _ s => s) tower_name gr) [mkplan "R1" (around Flat Flat (6, 2) [(9, 1)]); mkplan "R2" (around Dome Flat (0, 2) [(3, 2)]); mkplan "R3" (around Flat Flat (3, 2) [(6, 2)])]) =
  Ok [("A", mkintex ["R2"] [] []); ("B", mkintex ["R2"] [] []); ("C", mkintex [] [] ["R2"; "R3"]); ("D", mkintex ["R3"] [] []);
      ("E", mkintex [] [] ["R1"; "R3"]); ("F", mkintex ["R1"] [] []); ("G", mkintex [] [] ["R1"]); ("S", mkintex [] [] [])]%string.
Proof. exact stories_example. Qed.
