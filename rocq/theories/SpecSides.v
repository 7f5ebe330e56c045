(** Vocabulary for the statements about the sides of the parts of a standing vessel (SpecStack.v). *)
From Coq Require Import String Reals List Bool Arith.
From Verif Require Import Base Arith ArithR MPoint MLine MPoly MVessel MContain MIntex MRaum Spec SpecHeap SpecIntex SpecStack.
Import ListNotations.
Local Open Scope list_scope.
Local Open Scope R_scope.

(** The parts of the vessel: a Mantel between two levels, or what closes the vessel at a level. *)
Inductive vpart := Shell (u v : level) | End (k : closing) (up : bool) (u : level).
Fixpoint shell_parts (a : level) (l : list level) : list vpart :=
  match l with [] => [] | b :: l' => Shell a b :: shell_parts b l' end.
Definition vessel_parts (bot top : closing) (a : level) (l : list level) : list vpart :=
  End bot false a :: End top true (last l a) :: shell_parts a l.
(** The walls of its graph, the outline of a Mantel, the probe points of a part, the graph with these points. *)
Definition walls_of (x0 : R) (c : vpart) : list (seg RA) :=
  match c with Shell u v => shell x0 u v | End k up u => closed_by x0 k up u end.
Definition outline_of (x0 : R) (u v : level) : list (seg RA) := mantel_segments (A := RA) (fst u) x0 (snd u) (snd v) (fst v - fst u).
Definition probes_of (x0 : R) (inside : nat -> nat -> nat -> pt RA -> res bool) (c : vpart) : res (pdict (A := RA)) :=
  match c with
  | Shell u v => mantel_intex inside x0 50000 (2 / 1000) (shell x0 u v)
  | End Flat up u => Ok (flachboden_intex (A := RA) (fst u) x0 (snd u) (flachboden_segments (A := RA) (fst u) x0 (snd u)))
  | End Dome up u => head_intex (A := RA) (fst u) x0 (snd u) (if up then 1 else -1) (closed_by x0 Dome up u)
  end.
Definition graph_of (x0 : R) (inside : vpart -> nat -> nat -> nat -> nat -> pt RA -> res bool) (c : vpart) : res (ipoly RA) :=
  renew (fun k => probes_of x0 (inside c k) c) (walls_of x0 c).
(** What raum_intex sees of a part: its name and graph, some segments of which may have been turned round. *)
Definition seen_as (turn : seg RA -> seg RA) (name : string) (g : ipoly RA) : part RA :=
  let pts l := map (fun '(p, s) => MRaum.mkip p (turn s)) l in
  mkpart name (map turn (ip_segs g)) (pts (ip_int g)) (pts (ip_ext g)) (pts (ip_ind g)).

(** The shells are not too flat and not too small (as in C79). *)
Fixpoint fair_shells (a : level) (l : list level) : Prop :=
  match l with
  | [] => True
  | b :: l' => let h := fst b - fst a in let steep := 1 + Rabs (snd b - snd a) / (2 * h) in
               steep <= 10^6 * h /\ steep <= 100 * snd a /\ steep <= 20000 /\ fair_shells b l'
  end.

(** What is to be reported for a part of a vessel with the single room R1: the room is inside the shells and
    heads; a flat end has no inner and no outer side. *)
Definition told (c : vpart) : intex :=
  match c with
  | Shell _ _ | End Dome _ _ => mkintex ["R1"%string] [] []
  | End Flat _ _ => mkintex [] [] ["R1"%string]
  end.

(** p is on none of the walls g. *)
Definition off_walls (g : list (seg RA)) (p : pt RA) : Prop := forall s, In s g -> ~ on_segment (si s) (sj s) p.
