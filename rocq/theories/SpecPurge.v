(** Vocabulary for polygons with nearly coincident points. *)
From Coq Require Import Reals List.
From Verif Require Import Base Arith ArithR MPoint MLine MHeap Spec SpecHeap.
Local Open Scope R_scope.

(** The tolerance of Point equality. *)
Definition close (p q : pt RA) : Prop := Rabs (px p - px q) < 1 / 10^5 /\ Rabs (py p - py q) < 1 / 10^5.
(** The end points fall into clusters: being close is transitive among them; no segment has both ends in one cluster. *)
Definition clustered (h : heap RA) (l : list hseg) : Prop :=
  (forall a b c, In a (objects l) -> In b (objects l) -> In c (objects l) -> close (h a) (h b) -> close (h b) (h c) -> close (h a) (h c)) /\
  (forall s, In s l -> ~ close (h (hi s)) (h (hj s))).
(** Two end points have the same coordinates. *)
Definition some_coincide (h : heap RA) (l : list hseg) : Prop :=
  exists i j a b, i <> j /\ nth_error (objects l) i = Some a /\ nth_error (objects l) j = Some b /\ h a = h b.
