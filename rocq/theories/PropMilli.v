(** GENERATED by tools/gen_props.py from PMilli.v: the property theorems only. *)
From Coq Require Import ZArith Reals Lra Lia Bool List Permutation Arith Floats.SpecFloat.
From Flocq Require Import Core BinarySingleNaN.
From Verif Require Import Base Arith ArithR ArithF MPoint MLine MPoly MHeap Spec SpecHeap SpecDouble PPoint PLine PFlocq PHeap PDouble PExact.
Import ListNotations.
Local Open Scope R_scope.
#[local] Existing Instance RA.
#[local] Existing Instance Vfx.
#[local] Existing Instance Mfx.
From Verif Require Import PMilli.

(** C89: coordinates with up to 8 decimals and up to 1000 in absolute value: the computed cross product
    and dot product of two segments differ from the exact ones by at most 3e-9. *)
Theorem C89_error : forall L (s t : seg (FA L)) (s' t' : seg RA), stands_seg s s' -> stands_seg t t' ->
  (forall q, In q [si s'; sj s'; si t'; sj t'] -> Rabs (px q) <= 1000 /\ Rabs (py q) <= 1000) ->
  let dx (u : seg RA) := px (sj u) - px (si u) in let dy (u : seg RA) := py (sj u) - py (si u) in
  double (crossproduct s t) /\ Rabs (value (crossproduct s t) - (dx s' * dy t' - dy s' * dx t')) <= 3 / 10 ^ 9 /\
  double (dotproduct s t) /\ Rabs (value (dotproduct s t) - (dx s' * dx t' + dy s' * dy t')) <= 3 / 10 ^ 9.
Proof. exact error_cross. Qed.
Print Assumptions C89_error.

(** C89: for the same coordinates, a Point that is clearly right of the segment is reported so, a Point that is clearly
    left of it is not; only if twice the area of the triangle is at most 3e-9 the answer may be wrong. *)
Theorem C89_right : forall L (s : seg (FA L)) (p : pt (FA L)) (s' : seg RA) (p' : pt RA), stands_seg s s' -> stands_pt p p' ->
  (forall q, In q [si s'; sj s'; p'] -> Rabs (px q) <= 1000 /\ Rabs (py q) <= 1000) ->
  (orient (si s') (sj s') p' < - (3 / 10 ^ 9) -> is_point_to_right s p = true) /\ (3 / 10 ^ 9 < orient (si s') (sj s') p' -> is_point_to_right s p = false).
Proof. exact error_right. Qed.
Print Assumptions C89_right.

(** C89: coordinates with up to 8 decimals and up to 10^6, points identical or more than 1e-5 apart: the
    program finds a chain of segments continuous exactly if consecutive segments share an end, tells
    closed from open as with exact numbers, closes the same chains by the same segment, and lists the
    same points and the same segments at a point, all in the same order. *)
Theorem C89_chain : forall L (l : list (seg (FA L))) (l' : list (seg RA)) (p : pt (FA L)) (p' : pt RA), Forall2 stands_seg l l' -> stands_pt p p' ->
  (forall q, q = p' \/ In q (flat_map ij l') -> stored q /\ moderate q) -> (forall a b, a = p' \/ In a (flat_map ij l') -> b = p' \/ In b (flat_map ij l') -> clear_of a b) ->
  (iscontinuous l = true <-> forall s t, In (s, t) (pairs l') -> sj s = si t \/ si s = sj t) /\
  isclosed l = isclosed l' /\ isopen l = isopen l' /\
  (forall r', close l' = Ok r' -> exists r, close l = Ok r /\ Forall2 stands_seg r r') /\
  Forall2 stands_pt (all_points l) (all_points l') /\ Forall2 stands_pt (point_set l) (point_set l') /\
  (forall w, Forall2 stands_seg (find_segment_by_point l p w) (find_segment_by_point l' p' w)).
Proof. exact chain_double. Qed.
Print Assumptions C89_chain.

(** C89: coordinates with three decimals up to 1000: on the line, left of it, and inside the bounding box
    of the segment are answered exactly, and so is right of it unless the Point is on the line. *)
Theorem C89_three : forall L (s : seg (FA L)) (p : pt (FA L)) (s' : seg RA) (p' : pt RA), stands_seg s s' -> stands_pt p p' -> milli_seg s' -> milli_pt p' ->
  exists on left, is_point_on_line s p = Ok on /\ is_point_to_left s p = Ok left /\
    (on = true <-> orient (si s') (sj s') p' = 0) /\ (left = true <-> 0 < orient (si s') (sj s') p') /\
    (orient (si s') (sj s') p' <> 0 -> (is_point_to_right s p = true <-> orient (si s') (sj s') p' < 0)) /\
    (ls_is_internal_point s p = true <-> Rmin (px (si s')) (px (sj s')) <= px p' <= Rmax (px (si s')) (px (sj s')) /\ Rmin (py (si s')) (py (sj s')) <= py p' <= Rmax (py (si s')) (py (sj s'))).
Proof. exact three_exact. Qed.
Print Assumptions C89_three.

(** C89: coordinates with three decimals up to 1000: whether two segments are collinear is answered exactly. *)
Theorem C89_collinear : forall L (s t : seg (FA L)) (s' t' : seg RA), stands_seg s s' -> stands_seg t t' -> milli_seg s' -> milli_seg t' ->
  exists col, is_collinear s t = Ok col /\ (col = true <-> orient (si s') (sj s') (si t') = 0 /\ orient (si s') (sj s') (sj t') = 0).
Proof. exact three_collinear. Qed.
Print Assumptions C89_collinear.

(** C89, limit: a Point on the line can be reported to be right of it, also with one decimal: (0.2, 0.3)
    and the segment from (0, 0.1) to (0.1, 0.2). *)
Theorem C89_right_refuted : forall L : Libm,
  let P x y : pt (FA L) := Point_new (A := FA L) x y in
  let s := LineSegment (P (FofZ 0) (Fdec 1 10)) (P (Fdec 1 10) (Fdec 2 10)) in let p := P (Fdec 2 10) (Fdec 3 10) in
  is_point_on_line s p = Ok true /\ is_point_to_right s p = true.
Proof. exact right_refuted. Qed.
Print Assumptions C89_right_refuted.

(** C89: a chain of two segments with one decimal and a Point left of the first: the hypotheses of
    C89_chain and C89_three hold. *)
Example C89_example : forall L : Libm,
  let P x y : pt (FA L) := @mkpt (FA L) x y in let Q x y : pt RA := @mkpt RA x y in
  let a := P (FofZ 0) (Fdec 1 10) in let b := P (Fdec 1 10) (Fdec 2 10) in let c := P (Fdec 3 10) (Fdec 7 10) in
  let a' := Q 0 (1 / 10) in let b' := Q (1 / 10) (2 / 10) in let c' := Q (3 / 10) (7 / 10) in
  let l := [LineSegment a b; LineSegment b c] in let l' := [LineSegment a' b'; LineSegment b' c'] in
  Forall2 stands_seg l l' /\ Forall milli_seg l' /\ stands_pt c c' /\ milli_pt c' /\ 0 < orient a' b' c' /\
  (forall q, q = c' \/ In q (flat_map ij l') -> stored q /\ moderate q) /\
  (forall p q, p = c' \/ In p (flat_map ij l') -> q = c' \/ In q (flat_map ij l') -> clear_of p q).
Proof. exact three_example. Qed.
