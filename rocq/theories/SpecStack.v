(** Vocabulary for the statements about a standing vessel: shells on top of each other, closed at the bottom
    and at the top by a flat end or a torispherical head. *)
From Coq Require Import Reals List Arith.
From Verif Require Import Base Arith ArithR MPoint MLine MPoly MVessel SpecHeap.
Import ListNotations.
Local Open Scope R_scope.

(** A level of the vessel: the height and the diameter there. *)
Definition level : Type := R * R.
(** Flat: Flachboden; Dome: Kloepper- or Korbbogenboden, whose graph is the same. *)
Inductive closing := Flat | Dome.

(** The walls of the graphs of the parts, as the constructors of the parts make them: a Mantel between two
    levels, and the part closing the vessel at a level (up: at its upper end). *)
Definition shell (x0 : R) (a b : level) : list (seg RA) :=
  wall_segments (mantel_segments (A := RA) (fst a) x0 (snd a) (snd b) (fst b - fst a)).
Definition closed_by (x0 : R) (k : closing) (up : bool) (a : level) : list (seg RA) :=
  match k with
  | Flat => wall_segments (flachboden_segments (A := RA) (fst a) x0 (snd a))
  | Dome => head_graph (A := RA) (fst a) x0 (snd a) (if up then 1 else -1)
  end.
Fixpoint shells (x0 : R) (a : level) (l : list level) : list (list (seg RA)) :=
  match l with [] => [] | b :: l' => shell x0 a b :: shells x0 b l' end.
(** The parts of the vessel with the levels a, l ..., the lower end first, then the upper end. *)
Definition standing_parts (x0 : R) (bot top : closing) (a : level) (l : list level) : list (list (seg RA)) :=
  closed_by x0 bot false a :: closed_by x0 top true (last l a) :: shells x0 a l.

(** Each level is at least 1e-5 above the one before. *)
Fixpoint rising (a : level) (l : list level) : Prop :=
  match l with [] => True | b :: l' => fst a + 1 / 10^5 <= fst b /\ rising b l' end.
(** Sizes with 8 decimals, diameters of at least 1e-5. *)
Definition measured (x0 : R) (l : list level) : Prop :=
  decimal8 x0 /\ forall a, In a l -> decimal8 (fst a) /\ decimal8 (snd a / 2) /\ 1 / 10^5 <= snd a.

(** The numbers of the segments of each part in the list of all segments. *)
Fixpoint blocks {X} (n : nat) (ps : list (list X)) : list (list nat) :=
  match ps with [] => [] | p :: ps' => seq n (length p) :: blocks (n + length p) ps' end.
