(** Vocabulary for the statement about a vessel with one room. *)
From Coq Require Import Reals List.
From Verif Require Import Base Arith ArithR MPoint MLine MPoly.
Import ListNotations.

(** Some segment of the part joins the same points as some segment of the loop. *)
Definition on_loop (loop part : list (seg RA)) : Prop :=
  exists s t, In s part /\ In t loop /\ ((si s = si t /\ sj s = sj t) \/ (si s = sj t /\ sj s = si t)).
