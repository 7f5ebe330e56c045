(** Vocabulary for the statements about a standing vessel (SpecStack.v) with whole sizes, in any arithmetic. *)
From Coq Require Import ZArith List.
From Verif Require Import Base Arith MPoint MLine MPoly MVessel SpecStack.
Import ListNotations.

(** A level: the height and the radius. *)
Definition zlevel : Type := Z * Z.
(** The walls of the parts: as in SpecStack.v, made by the constructors of the parts from whole numbers. *)
Definition zshell (A : Arith) (x0 : Z) (a b : zlevel) : list (seg A) :=
  wall_segments (mantel_segments (A := A) (nofZ (fst a)) (nofZ x0) (nofZ (2 * snd a)) (nofZ (2 * snd b)) (nofZ (fst b - fst a))).
Definition zclosed (A : Arith) (x0 : Z) (k : closing) (up : bool) (a : zlevel) : list (seg A) :=
  match k with
  | Flat => wall_segments (flachboden_segments (A := A) (nofZ (fst a)) (nofZ x0) (nofZ (2 * snd a)))
  | Dome => head_graph (A := A) (nofZ (fst a)) (nofZ x0) (nofZ (2 * snd a)) (nofZ (if up then 1 else -1))
  end.
Fixpoint zshells (A : Arith) (x0 : Z) (a : zlevel) (l : list zlevel) : list (list (seg A)) :=
  match l with [] => [] | b :: l' => zshell A x0 a b :: zshells A x0 b l' end.
Definition zparts (A : Arith) (x0 : Z) (bot top : closing) (a : zlevel) (l : list zlevel) : list (list (seg A)) :=
  zclosed A x0 bot false a :: zclosed A x0 top true (last l a) :: zshells A x0 a l.

(** Each level is above the one before. *)
Fixpoint zrising (a : zlevel) (l : list zlevel) : Prop :=
  match l with [] => True | b :: l' => (fst a < fst b)%Z /\ zrising b l' end.
(** Nothing is further than 2000 from the origin in either direction. *)
Definition zfits (x0 : Z) (l : list zlevel) : Prop :=
  forall a, In a l -> (Z.abs (fst a) <= 2000 /\ 1 <= snd a /\ Z.abs x0 + snd a <= 2000)%Z.
(** A head has a diameter of one or more thousands; its top is not further than 2000 from the origin either. *)
Definition zend (k : closing) (up : bool) (a : zlevel) : Prop :=
  match k with Flat => True | Dome => exists m, (1 <= m /\ snd a = 500 * m /\ Z.abs (fst a + (if up then 1 else -1) * m) <= 2000)%Z end.
