(** GENERATED by tools/gen_props.py from PExact.v: the property theorems only. *)
From Coq Require Import ZArith Reals Lra Lia Bool List Permutation Arith Floats.SpecFloat.
From Flocq Require Import Core BinarySingleNaN.
From Verif Require Import Base Arith ArithR ArithF MPoint MLine MPoly MHeap Spec SpecHeap SpecDouble PPoint PLine PShape PConvex POrder PHull PFlocq PHeap PDouble.
Import ListNotations.
Local Open Scope R_scope.
#[local] Existing Instance RA.
#[local] Existing Instance P53.
#[local] Existing Instance P1024.
From Verif Require Import PExact.

(** C88: cross and dot product of two segments are computed without any error; a distance and a length
    are the double nearest to the exact one. *)
Theorem C88_products : forall L (s t : seg (FA L)) (s' t' : seg RA), exact_seg s s' -> exact_seg t t' -> dyadic_seg s' -> dyadic_seg t' ->
  let dx (u : seg RA) := px (sj u) - px (si u) in let dy (u : seg RA) := py (sj u) - py (si u) in
  exactly (crossproduct s t) (dx s' * dy t' - dy s' * dx t') /\ exactly (dotproduct s t) (dx s' * dx t' + dy s' * dy t') /\
  stands (norm s) (sqrt (dx s' * dx s' + dy s' * dy s')).
Proof. exact products_exact. Qed.
Print Assumptions C88_products.

(** C88: the distance of two Points is the double nearest to the exact one. *)
Theorem C88_distance : forall L (p q : pt (FA L)) (p' q' : pt RA), exact_pt p p' -> exact_pt q q' -> dyadic_pt p' -> dyadic_pt q' -> stands (pt_distance p q) (dist p' q').
Proof. exact distance_exact. Qed.
Print Assumptions C88_distance.

(** C88: on which side of a segment a Point lies is decided exactly, and exactly one of the three
    answers is given. *)
Theorem C88_side : forall L (s : seg (FA L)) (p : pt (FA L)) (s' : seg RA) (p' : pt RA), exact_seg s s' -> exact_pt p p' -> dyadic_seg s' -> dyadic_pt p' ->
  exists on left, is_point_on_line s p = Ok on /\ is_point_to_left s p = Ok left /\
    (on = true <-> orient (si s') (sj s') p' = 0) /\ (left = true <-> 0 < orient (si s') (sj s') p') /\ (is_point_to_right s p = true <-> orient (si s') (sj s') p' < 0).
Proof. exact side_exact. Qed.
Print Assumptions C88_side.

(** C88: parallel, collinear, touching, continuous and equal segments, null segments, and Points inside
    the bounding box are told exactly, without any tolerance. *)
Theorem C88_relations : forall L (s t : seg (FA L)) (p : pt (FA L)) (s' t' : seg RA) (p' : pt RA), exact_seg s s' -> exact_seg t t' -> exact_pt p p' -> dyadic_seg s' -> dyadic_seg t' -> dyadic_pt p' ->
  (is_parallel s t = true <-> (px (sj s') - px (si s')) * (py (sj t') - py (si t')) = (py (sj s') - py (si s')) * (px (sj t') - px (si t'))) /\
  is_intersecting s t = negb (is_parallel s t) /\
  (exists col, is_collinear s t = Ok col /\ (col = true <-> orient (si s') (sj s') (si t') = 0 /\ orient (si s') (sj s') (sj t') = 0)) /\
  (touch s t = true <-> si s' = si t' \/ si s' = sj t' \/ sj s' = si t' \/ sj s' = sj t') /\
  (continuous s t = true <-> sj s' = si t' \/ si s' = sj t') /\
  (seg_eqb s t = true <-> s' = t') /\ (seg_sameb s t = true <-> s' = t') /\ (isnull s = true <-> si s' = sj s') /\
  (ls_is_internal_point s p = true <-> Rmin (px (si s')) (px (sj s')) <= px p' <= Rmax (px (si s')) (px (sj s')) /\ Rmin (py (si s')) (py (sj s')) <= py p' <= Rmax (py (si s')) (py (sj s'))).
Proof. exact relations_exact. Qed.
Print Assumptions C88_relations.

(** C88: whether a chain of segments is continuous, closed or open is decided as with exact numbers, and
    its points and its point set are the exact ones, in the same order. *)
Theorem C88_polygon : forall L (l : list (seg (FA L))) (l' : list (seg RA)), Forall2 exact_seg l l' -> Forall dyadic_seg l' ->
  iscontinuous l = iscontinuous l' /\ isclosed l = isclosed l' /\ isopen l = isopen l' /\
  Forall2 exact_pt (all_points l) (all_points l') /\ Forall2 exact_pt (point_set l) (point_set l') /\
  (iscontinuous l = true <-> forall s t, In (s, t) (pairs l') -> sj s = si t \/ si s = sj t).
Proof. exact polygon_exact. Qed.
Print Assumptions C88_polygon.

(** C88: the convex hull of doubles that are multiples of 1/256: with fewer than two distinct points no
    polygon is returned, otherwise the result is, without any error, the closed path through the
    corners of the hull, counter-clockwise from the lexicographically smallest point, every input
    point on or left of every edge, turning left strictly at every corner unless all points are
    collinear. *)
Theorem C88_hull : forall L (ps : list (F * F)) (qs : list (R * R)), Forall2 exact_pair ps qs -> Forall dyadic_pair qs ->
  let pts : list (pt RA) := map (fun q => @mkpt RA (fst q) (snd q)) qs in
  let collinear := forall a b c, In a pts -> In b pts -> In c pts -> orient a b c = 0 in
  (~ (exists p q, In p pts /\ In q pts /\ p <> q) -> convex_hull (A := FA L) ps = Ok None) /\
  ((exists p q, In p pts /\ In q pts /\ p <> q) ->
   exists v vs hull, convex_hull (A := FA L) ps = Ok (Some hull) /\ Forall2 exact_seg hull (cycle_poly (v :: vs)) /\
     NoDup (v :: vs) /\ incl (v :: vs) pts /\
     (forall p, In p pts -> px v < px p \/ (px v = px p /\ py v <= py p)) /\
     (forall a b p, In (a, b) (cycle_edges (v :: vs)) -> In p pts -> 0 <= orient a b p) /\
     (collinear -> length (v :: vs) = 2%nat) /\
     (~ collinear -> (3 <= length (v :: vs))%nat /\ 0 < shoelace (v :: vs) /\
        forall a b c, In (a, b) (cycle_edges (v :: vs)) -> In (b, c) (cycle_edges (v :: vs)) -> 0 < orient a b c)).
Proof. exact hull_exact. Qed.
Print Assumptions C88_hull.

(** C88, limit: with decimals that are no multiples of a power of two exactness is lost: (0,0)-(0.1,0.3)
    and (0,0)-(0.3,0.9) lie on one line but are not parallel for the program, and their common part is
    reported to be a Point.  Coordinates that are too large have the same effect in the other
    direction: (2^27+1, 2^27) and (2^27, 2^27-1) are not parallel, but are for the program. *)
Theorem C88_parallel_refuted : forall L : Libm,
  let P x y : pt (FA L) := Point_new (A := FA L) x y in
  let o := P (FofZ 0) (FofZ 0) in
  let s := LineSegment o (P (Fdec 1 10) (Fdec 3 10)) in let t := LineSegment o (P (Fdec 3 10) (Fdec 9 10)) in
  let u := LineSegment o (P (FofZ 134217729) (FofZ 134217728)) in let v := LineSegment o (P (FofZ 134217728) (FofZ 134217727)) in
  is_parallel s t = false /\ is_collinear s t = Ok true /\ common_part_type s t = Ok TPoint /\
  is_parallel u v = true /\ (134217729 * 134217727 <> 134217728 * 134217728)%Z.
Proof. exact parallel_refuted. Qed.
Print Assumptions C88_parallel_refuted.

(** C88: six points, one repeated, one inside, one on an edge, with a coordinate 5/2: the hypotheses
    hold, the points are not collinear, and the hull is the triangle. *)
Example C88_example : forall L : Libm,
  let ps := [(FofZ 4, FofZ 0); (FofZ 1, FofZ 1); (FofZ 0, FofZ 0); (Fdec 5 2, FofZ 0); (FofZ 0, FofZ 3); (FofZ 0, FofZ 0)] in
  let qs := [(4, 0); (1, 1); (0, 0); (5 / 2, 0); (0, 3); (0, 0)] in
  Forall2 exact_pair ps qs /\ Forall dyadic_pair qs /\
  match convex_hull (A := FA L) ps with
  | Ok (Some hull) => map (fun s : seg (FA L) => ((px (si s), py (si s)) : F * F, (px (sj s), py (sj s)) : F * F)) hull =
      [((FofZ 0, FofZ 0), (FofZ 4, FofZ 0)); ((FofZ 4, FofZ 0), (FofZ 0, FofZ 3)); ((FofZ 0, FofZ 3), (FofZ 0, FofZ 0))]
  | _ => False
  end.
Proof. exact exact_example. Qed.
