(** Vocabulary for the statements about the sides of the parts of a vessel that plates divide into stories. *)
From Coq Require Import String Reals List Bool.
From Verif Require Import Base Arith ArithR MPoint MLine MPoly MContain MRaum SpecStack SpecSides.
Import ListNotations.
Local Open Scope list_scope.
Local Open Scope R_scope.

(** A story: what closes it at the bottom and at the top, its lowest level and the levels above. *)
Record story := mkstory { story_bot : closing; story_top : closing; story_from : level; story_levels : list level }.
(** The levels of a vessel, grouped by stories: there is a plate at the last level of every group but the last one. *)
Fixpoint stories (bot top : closing) (a : level) (ls : list (list level)) : list story :=
  match ls with
  | [] => []
  | l :: ls' => match ls' with
                | [] => [mkstory bot top a l]
                | _ => mkstory bot Flat a l :: stories Flat top (last l a) ls'
                end
  end.
(** The parts around a story.  (A plate is the top of the story below and the bottom of the one above.) *)
Definition parts_around (s : story) : list vpart := vessel_parts (story_bot s) (story_top s) (story_from s) (story_levels s).

(** A room: its name and the parts of its outer wall. *)
Record roomplan := mkplan { rp_name : string; rp_parts : list vpart }.
Definition flat_part (c : vpart) : bool := match c with End Flat _ _ => true | _ => false end.
(** One of the parts of the room is a shell or a head called k; one of them is a flat end or plate called k. *)
Definition has_curved (name : vpart -> string) (k : string) (r : roomplan) : bool := existsb (fun c => String.eqb (name c) k && negb (flat_part c)) (rp_parts r).
Definition has_flat (name : vpart -> string) (k : string) (r : roomplan) : bool := existsb (fun c => String.eqb (name c) k && flat_part c) (rp_parts r).
(** What is to be reported for the part called k: inside are the rooms which have it as a shell or head, indifferent
    the ones which have it as a flat end or plate, and none are outside. *)
Definition told_of (name : vpart -> string) (rs : list roomplan) (k : string) : intex :=
  mkintex (map rp_name (filter (has_curved name k) rs)) [] (map rp_name (filter (has_flat name k) rs)).
(** What raum_intex sees of a room. *)
Definition seen_room (turn : string -> seg RA -> seg RA) (name : vpart -> string) (gr : vpart -> ipoly RA) (r : roomplan) : iroom RA :=
  mkiroom (rp_name r) [] (map (fun c => seen_as (turn (rp_name r)) (name c) (gr c)) (rp_parts r)).
