(** GENERATED by tools/gen_props.py from PRel.v: the property theorems only. *)
From Coq Require Import Reals ZArith Lra Lia Bool List Psatz Permutation Sorted.
From Verif Require Import Base Arith ArithR ArithF MPoint MLine MPoly MTri Spec SpecInside SpecTri
  PPoint PLine PShape PPoly PCommon PConvex POrder PMore PInside PTri PSplit PCorner PCollinear PEar PEar2 PArea.
Import ListNotations.
Local Open Scope R_scope.
#[local] Existing Instance RA.
From Verif Require Import PRel.

(** C71: touch of two triangles with integer corners holds exactly when there is exactly one pair of sides
    with more than one point in common. *)
Theorem C71_touch : forall s a b c t d e f, grid_triangle s a b c -> grid_triangle t d e f ->
  exists r, tri_touch s t = Ok r /\ (r = true <-> share_once s t).
Proof. exact touch_spec. Qed.
Print Assumptions C71_touch.

(** C71: two triangles with integer corners are congruent exactly when they have the same corners. *)
Theorem C71_congruent : forall s a b c t d e f, grid_triangle s a b c -> grid_triangle t d e f ->
  (congruent s t = true <-> Permutation [a; b; c] [d; e; f]).
Proof. exact congruent_spec. Qed.
Print Assumptions C71_congruent.

(** C71: enclosed reports whether every corner of the other triangle was reported inside. *)
Theorem C71_enclosed : forall inside s a b c t d e f, grid_triangle s a b c -> grid_triangle t d e f ->
  (enclosed inside s t = Ok true -> forall q, In q [d; e; f] -> exists n, inside n s q = Ok true) /\
  (enclosed inside s t = Ok false -> exists n q, In q [d; e; f] /\ inside n s q = Ok false) /\
  ((forall n q, In q [d; e; f] -> exists r, inside n s q = Ok r) -> exists r, enclosed inside s t = Ok r).
Proof. exact enclosed_spec. Qed.
Print Assumptions C71_enclosed.

(** C71: overlap reports true exactly when a corner of one was reported inside the other or sides meet in
    one point away from all corners. *)
Theorem C71_overlap : forall inside s a b c t d e f, grid_triangle s a b c -> grid_triangle t d e f ->
  (MTri.overlap inside s t = Ok true ->
     (exists n q, (In q [d; e; f] /\ inside n s q = Ok true) \/ (In q [a; b; c] /\ inside n t q = Ok true)) \/ cross_away s t [a; b; c; d; e; f]) /\
  (MTri.overlap inside s t = Ok false ->
     (forall q, In q [d; e; f] -> exists n, inside n s q = Ok false) /\ (forall q, In q [a; b; c] -> exists n, inside n t q = Ok false) /\
     ~ cross_away s t [a; b; c; d; e; f]) /\
  ((forall n q, In q [d; e; f] -> exists r, inside n s q = Ok r) -> (forall n q, In q [a; b; c] -> exists r, inside n t q = Ok r) ->
     exists r, MTri.overlap inside s t = Ok r).
Proof. exact overlap_spec. Qed.
Print Assumptions C71_overlap.

(** C71: two triangles reported disjunct have different corners, every corner of either was reported not
    inside the other, no sides meet in one point away from all corners, and the number of pairs of sides
    with more than one common point is not one.  And that is all there is to it: if the corners are reported not
    inside, these conditions suffice. *)
Theorem C71_disjunct : forall io1 io2 io3 s a b c t d e f, grid_triangle s a b c -> grid_triangle t d e f ->
  (tri_disjunct io1 io2 io3 s t = Ok true ->
     ~ Permutation [a; b; c] [d; e; f] /\
     (forall q, In q [d; e; f] -> exists n, io1 n s q = Ok false) /\ (forall q, In q [a; b; c] -> exists n, io1 n t q = Ok false) /\
     ~ cross_away s t [a; b; c; d; e; f] /\ ~ share_once s t) /\
  ((forall n q, In q [d; e; f] -> io1 n s q = Ok false /\ io2 n s q = Ok false /\ io3 n s q = Ok false) ->
   (forall n q, In q [a; b; c] -> io1 n t q = Ok false /\ io2 n t q = Ok false /\ io3 n t q = Ok false) ->
   ~ Permutation [a; b; c] [d; e; f] -> ~ cross_away s t [a; b; c; d; e; f] -> ~ share_once s t ->
   tri_disjunct io1 io2 io3 s t = Ok true).
Proof. exact disjunct_spec. Qed.
Print Assumptions C71_disjunct.
