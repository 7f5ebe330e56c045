(** Vocabulary for statements that compare the running program with the exact one. *)
From Coq Require Import Reals ZArith Bool List Arith.
From Verif Require Import Base Arith ArithR ArithF MPoint MLine MPoly SpecDouble MGroup SpecGroup.
Import ListNotations.

(** Both calls return, with related results, or both raise the same exception. *)
Definition same_answer {X Y} (Q : X -> Y -> Prop) (r : res X) (r' : res Y) : Prop :=
  match r, r' with Ok x, Ok y => Q x y | Err e, Err e' => e = e' | _, _ => False end.

(** Segments of the running program that are the exact ones, one by one. *)
Definition exact_segs {L} (l : list (seg (FA L))) (l' : list (seg RA)) : Prop := Forall2 exact_seg l l'.

(** walk_segments found the same loop, or none, in both programs. *)
Definition exact_walk {L} (w : wres (FA L)) (w' : wres RA) : Prop :=
  match w, w' with Loop l, Loop l' => exact_segs l l' | NoLoop, NoLoop => True | Running, Running => True | _, _ => False end.

(** find_loops returned the same polygons (lists of segment objects), and the objects are the same. *)
Definition exact_loops {L} (r : option (list (list nat) * list (seg (FA L)))) (r' : option (list (list nat) * list (seg RA))) : Prop :=
  match r, r' with Some (cs, h), Some (cs', h') => cs = cs' /\ exact_segs h h' | None, None => True | _, _ => False end.
