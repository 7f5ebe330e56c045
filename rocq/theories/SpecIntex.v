(** Vocabulary for the statements about the probe points of vessel parts. *)
From Coq Require Import Reals ZArith Bool List Arith.
From Verif Require Import Base Arith ArithR MPoint MLine MPoly MContain MIntex Spec.
Import ListNotations.
Local Open Scope R_scope.

(** For a convex polygon whose segments run counterclockwise: p is inside (not on the boundary), p is outside
    (not on the boundary). *)
Definition strictly_in (l : list (seg RA)) (p : pt RA) : Prop := forall s, In s l -> 0 < orient (si s) (sj s) p.
Definition strictly_out (l : list (seg RA)) (p : pt RA) : Prop := exists s, In s l /\ orient (si s) (sj s) p < 0.
(** All answers are given, and right for the points inside and outside; for points on the boundary they may be
    anything. *)
Definition right_answers (inside : nat -> nat -> nat -> pt RA -> res bool) (l : list (seg RA)) : Prop :=
  forall m n k p, exists b, inside m n k p = Ok b /\ (strictly_in l p -> b = true) /\ (strictly_out l p -> b = false).
(** p is outside, at a height strictly between those of the lowest and the highest corner. *)
Definition beside_it (l : list (seg RA)) (p : pt RA) : Prop :=
  strictly_out l p /\ (exists s, In s l /\ py (si s) < py p) /\ (exists s, In s l /\ py p < py (si s)).
(** Two points inside, two outside beside it, no others; all have 8-decimal coordinates. *)
Definition two_and_two (l : list (seg RA)) (r : probes RA) : Prop :=
  length (pr_internal r) = 2%nat /\ length (pr_external r) = 2%nat /\ pr_indifferent r = [] /\
  Forall (strictly_in l) (pr_internal r) /\ Forall (beside_it l) (pr_external r) /\
  Forall stored (pr_internal r ++ pr_external r).
(** For a head (orient: 1 above, -1 below the line y = pos_v): p is between this line and the two walls of the
    graph, which meet on the axis at the height hg; p is beyond them; both by more than 0.001. *)
Definition under_roof (pos_v pos_h d orient hg : R) (p : pt RA) : Prop :=
  0 < orient * (py p - pos_v) < hg * (1 - Rabs (px p - pos_h) / (d / 2)) - 1 / 1000.
Definition over_roof (pos_v pos_h d orient hg : R) (p : pt RA) : Prop :=
  0 < orient * (py p - pos_v) /\ hg * (1 - Rabs (px p - pos_h) / (d / 2)) + 1 / 1000 < orient * (py p - pos_v).
(** p is on the left (side = -1) or right (side = 1) of the axis. *)
Definition beside (pos_h side : R) (p : pt RA) : Prop := 0 < side * (px p - pos_h).
