(** Vocabulary for the statements about the other parts of a vessel that a head divides (SpecPartition.v). *)
From Coq Require Import String Reals List Bool.
From Verif Require Import Base Arith ArithR MPoint MLine MPoly MVessel MContain MRaum SpecStack SpecSides SpecPartition.
Import ListNotations.
Local Open Scope R_scope.

(** The parts around the room on the hollow side of the head, and around the room into which it bulges. *)
Definition hollow_parts (bot top : closing) (up : bool) (a : level) (l1 l2 : list level) : list vpart :=
  if up then vessel_parts bot Dome a l1 else vessel_parts Dome top (last l1 a) l2.
Definition bulge_parts (bot top : closing) (up : bool) (a : level) (l1 l2 : list level) : list vpart :=
  let m := last l1 a in
  End Dome up m :: if up then End top true (last l2 m) :: shell_parts m l2 else End bot false a :: shell_parts a l1.
(** The shell into which the head bulges is at least 2 cm longer than the head is high (0.1, or 1/1000 of the
    diameter of a very big head), and it is not narrower at its other end. *)
Definition roomy (m v : level) : Prop := Rmax (1 / 10) (snd m / 1000) + 1 / 50 <= Rabs (fst v - fst m) /\ snd m <= snd v.
Definition bulge_roomy (up : bool) (a : level) (l1 l2 : list level) : Prop :=
  let m := last l1 a in
  if up then exists v l', l2 = v :: l' /\ roomy m v else exists v l', a :: l1 = l' ++ [v; m] /\ roomy m v.
(** What is to be reported for a part which belongs to one room only: the room is inside of a shell or head; a flat end is
    indifferent to it. *)
Definition told_alone (c : vpart) (room : string) : intex :=
  match c with End Flat _ _ => mkintex [] [] [room] | _ => mkintex [room] [] [] end.
(** What is to be reported for the part called k, if the parts have different names: n1 is the room on the hollow side of the
    head, n2 the one into which it bulges; hollow and others: the parts around n1, and around n2 without the head. *)
Definition divided_told (name : vpart -> string) (head : vpart) (hollow others : list vpart) (n1 n2 k : string) : intex :=
  let called c := String.eqb (name c) k in
  if called head then mkintex [n1] [n2] [] else
  match find called hollow, find called others with
  | Some c, _ => told_alone c n1
  | None, Some c => told_alone c n2
  | None, None => mkintex [] [] []
  end.
(** What raum_intex sees of a room with the parts cs around it. *)
Definition room_of (turn : string -> seg RA -> seg RA) (name : vpart -> string) (gr : vpart -> MContain.ipoly RA) (n : string) (cs : list vpart) : iroom RA :=
  mkiroom n [] (map (fun c => seen_as (turn n) (name c) (gr c)) cs).
