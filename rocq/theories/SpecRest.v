(** Vocabulary for the remaining queries (C93). *)
From Coq Require Import ZArith Reals List.
From Verif Require Import Base Arith ArithR ArithF MPoint MLine Spec SpecGroup SpecDouble SpecWhole.
Import ListNotations.
Local Open Scope R_scope.
#[local] Existing Instance RA.
(** u and v are not parallel, share a point, and have no end in common. *)
Definition crosses (u v : seg RA) : Prop :=
  crossproduct u v <> 0 /\ (exists q, shared u v q) /\ si u <> si v /\ si u <> sj v /\ sj u <> si v /\ sj u <> sj v.
(** One of the sides is crossed by the segment from p to q. *)
Definition crosses_some (sides : list (seg RA)) (p q : pt RA) : Prop :=
  exists u, In u sides /\ crosses u (@mkseg RA CLineSegment p q).
(** Some segment of P has both ends among the points. *)
Definition spanned_by (points : list (pt RA)) (P : list (seg RA)) : Prop :=
  exists s, In s P /\ In (si s) points /\ In (sj s) points.
