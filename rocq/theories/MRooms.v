(** Model of the way from the parts of a vessel to its rooms: Behalter.raum_erstellen
    (SR_Vessel/SR_hauptteile.py:232-326) with the properties of the graph that it asks for
    (geometry/SR_polygon_group.py:83-97, 127-130, 146-150, 362-375, 402-435, 513-542, 544-610, 612-752),
    function after function as modelled in the other files.

    Simplifications: the parts are given as lists of the segment objects of the graph, no two of which are
    equal; the graph is the list of these objects.  The segments that keep_base_polygons turns round when
    it chooses among several loops are left as find_loops left them. *)
From Coq Require Import List Bool ZArith Arith.
From Verif Require Import Base Arith MPoint MLine MPoly MTri MGroup MCycles MBase MContain MRaum.
Import ListNotations.

(** None: walking along the segments did not end within [fuel] rounds *)
Definition vessel_rooms {A : Arith} (schs : nat -> sched A) (wfuel fuel : nat) (H : hashing nat) (HC : hashing (list nat))
  (lib : mesh_lib A) (inside : list (seg A) -> pt A -> res bool) (inside2 : nat -> nat -> nat -> list (seg A) -> pt A -> res bool)
  (Hs : nat -> hashing (list (seg A))) (parts : list (list nat)) (g : list (seg A)) : res (option (list (raum (P := list (seg A))))) :=
  l <- find_loops schs wfuel fuel g ;;
  match l with
  | None => Ok None
  | Some (cs, h) =>
    kept <- keep_base_polygons H HC lib inside h cs ;;
    cycles <- base_cycles kept ;;
    let sic := segments_in_cycles (map (value h) parts) cycles in
    contained <- contained_cycles inside2 sic ;;
    rooms <- raum_erstellen poly_eqb sic contained Hs [] ;;
    Ok (Some rooms)
  end.
