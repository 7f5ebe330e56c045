(** GENERATED by tools/gen_props.py from PLine.v: the property theorems only. *)
From Coq Require Import Reals ZArith Lra Lia Bool List Psatz.
From Verif Require Import Base Arith ArithR MPoint MLine Spec PPoint.
Import ListNotations.
Local Open Scope R_scope.
#[local] Existing Instance RA.
From Verif Require Import PLine.

(** C07: antisymmetry/symmetry, sign change under reversal of one operand, invariance under
    translation of one operand. *)
Theorem C07_products : forall (s t : seg RA) (u v : R),
  crossproduct s t = - crossproduct t s /\ dotproduct s t = dotproduct t s /\
  crossproduct (seg_reverse s) t = - crossproduct s t /\ dotproduct (seg_reverse s) t = - dotproduct s t /\
  crossproduct (seg_translate u v s) t = crossproduct s t /\
  dotproduct (seg_translate u v s) t = dotproduct s t /\
  crossproduct s s = 0 /\ dotproduct s s = norm s * norm s.
Proof. exact products. Qed.
Print Assumptions C07_products.

(** C07: parallelity is reflexive, symmetric, direction-insensitive; [is_intersecting] is its negation. *)
Theorem C07_parallel : forall s t : seg RA,
  is_parallel s s = true /\ is_parallel s t = is_parallel t s /\
  is_parallel (seg_reverse s) t = is_parallel s t /\
  is_intersecting s t = negb (is_parallel s t) /\
  (is_parallel s t = true <->
   (px (sj s) - px (si s)) * (py (sj t) - py (si t)) = (py (sj s) - py (si s)) * (px (sj t) - px (si t))).
Proof. exact parallel_laws. Qed.
Print Assumptions C07_parallel.

(** C07: parallelity is transitive through a segment with distinct endpoints. *)
Theorem C07_parallel_trans : forall s t r : seg RA,
  (px (si t) <> px (sj t) \/ py (si t) <> py (sj t)) ->
  is_parallel s t = true -> is_parallel t r = true -> is_parallel s r = true.
Proof. exact parallel_trans. Qed.
Print Assumptions C07_parallel_trans.

(** C08: "right" is exactly negative signed area; the side queries never raise; left and right
    exclude each other; off the line exactly one holds. *)
Theorem C08_sides : forall (s : seg RA) (p : pt RA),
  (is_point_to_right s p = true <-> orient (si s) (sj s) p < 0) /\
  exists on left, is_point_on_line s p = Ok on /\ is_point_to_left s p = Ok left /\
    (left = true <-> on = false /\ 0 < orient (si s) (sj s) p) /\
    ~ (left = true /\ is_point_to_right s p = true) /\
    (on = false -> left = negb (is_point_to_right s p)).
Proof. exact sides. Qed.
Print Assumptions C08_sides.

(** C08: reversing the segment keeps the on-line answer and swaps the strict sides; translating
    segment and point together changes nothing. *)
Theorem C08_sides_reverse : forall (s : seg RA) (p : pt RA) (u v : R),
  is_point_on_line (seg_reverse s) p = is_point_on_line s p /\
  (is_point_on_line s p = Ok false ->
     is_point_to_left (seg_reverse s) p = Ok (is_point_to_right s p) /\
     is_point_to_left s p = Ok (is_point_to_right (seg_reverse s) p)) /\
  is_point_on_line (seg_translate u v s) (translate u v p) = is_point_on_line s p /\
  is_point_to_right (seg_translate u v s) (translate u v p) = is_point_to_right s p /\
  is_point_to_left (seg_translate u v s) (translate u v p) = is_point_to_left s p.
Proof. exact sides_reverse. Qed.
Print Assumptions C08_sides_reverse.

(** C09: the on-line test, and that every exact point of the line passes it. *)
Theorem C09_on_line_iff : forall (s : seg RA) (p : pt RA),
  (is_point_on_line s p = Ok true <->
     pt_eqb p (si s) = true \/ pt_eqb p (sj s) = true \/ Rabs (orient (si s) (sj s) p) < / 10^8) /\
  (on_line (si s) (sj s) p -> is_point_on_line s p = Ok true) /\
  (exists b, is_point_on_line s p = Ok b).
Proof. exact on_line_iff. Qed.
Print Assumptions C09_on_line_iff.

(** C09: apart from points [==] to an endpoint, the on-line test bounds the distance to the line:
    distance * length < 1e-8. *)
Theorem C09_on_line_distance : forall (s : seg RA) (p : pt RA) (d : R),
  pt_eqb p (si s) = false -> pt_eqb p (sj s) = false ->
  line_point_distance s p = Ok d ->
  (is_point_on_line s p = Ok true <-> d * norm s < / 10^8).
Proof. exact on_line_distance. Qed.
Print Assumptions C09_on_line_distance.

(** C09: the box test; only the left edge is exclusive; every point of the segment is internal. *)
Theorem C09_internal_iff : forall (s : seg RA) (p : pt RA),
  (ls_is_internal_point s p = true <->
   Rmin (px (si s)) (px (sj s)) - / 10^8 < px p /\ px p <= Rmax (px (si s)) (px (sj s)) + / 10^8 /\
   Rmin (py (si s)) (py (sj s)) - / 10^8 <= py p /\ py p <= Rmax (py (si s)) (py (sj s)) + / 10^8) /\
  ls_is_internal_point (seg_reverse s) p = ls_is_internal_point s p /\
  (on_segment (si s) (sj s) p -> ls_is_internal_point s p = true).
Proof. exact internal_iff. Qed.
Print Assumptions C09_internal_iff.

(** C09, finding: the box test is not invariant under mirroring: a point at exactly 1e-8 left of a
    segment is outside, its mirror image 1e-8 right of the mirrored segment is inside. *)
Theorem C09_internal_mirror_refuted : exists (s : seg RA) (p : pt RA),
  let m q := @mkpt RA (- px q) (py q) in
  ls_is_internal_point s p = false /\
  ls_is_internal_point (mkseg (sc s) (m (si s)) (m (sj s))) (m p) = true.
Proof. exact internal_mirror_refuted. Qed.
Print Assumptions C09_internal_mirror_refuted.

(** C09, finding: [is_internal_point] alone does not mean "on the segment". *)
Theorem C09_box_not_line_refuted : exists (s : seg RA) (p : pt RA),
  ls_is_internal_point s p = true /\ ~ on_line (si s) (sj s) p.
Proof. exact box_not_line_refuted. Qed.
Print Assumptions C09_box_not_line_refuted.

(** C10: None exactly for parallel segments, never an exception; otherwise the unique common point of
    the two lines, rounded to 8 decimals. *)
Theorem C10_intersection_point : forall s t : seg RA,
  (intersection_point s t = Ok None <-> is_parallel s t = true) /\
  (is_parallel s t = false ->
   exists q : pt RA, intersection_point s t = Ok (Some (Point_new (px q) (py q))) /\
     on_line (si s) (sj s) q /\ on_line (si t) (sj t) q /\
     forall q', on_line (si s) (sj s) q' -> on_line (si t) (sj t) q' -> q' = q).
Proof. exact intersection_point_spec. Qed.
Print Assumptions C10_intersection_point.

(** C10: the result depends neither on the order of the segments nor on their directions. *)
Theorem C10_intersection_symmetric : forall s t : seg RA,
  intersection_point s t = intersection_point t s /\
  intersection_point (seg_reverse s) t = intersection_point s t /\
  intersection_point s (seg_reverse t) = intersection_point s t.
Proof. exact intersection_symmetric. Qed.
Print Assumptions C10_intersection_symmetric.

(** C10: the returned point is within 1e-8 of the exact common point of both lines. *)
Theorem C10_intersection_error : forall (s t : seg RA) (p : pt RA),
  intersection_point s t = Ok (Some p) ->
  exists q, on_line (si s) (sj s) q /\ on_line (si t) (sj t) q /\ dist p q < / 10^8.
Proof. exact intersection_error. Qed.
Print Assumptions C10_intersection_error.

Example C10_example :
  intersection_point (LineSegment (@mkpt RA 0 0) (@mkpt RA 2 2)) (LineSegment (@mkpt RA 0 2) (@mkpt RA 2 0))
  = Ok (Some (@mkpt RA 1 1)).
Proof. exact intersection_example. Qed.

(** C11: the distance from the point to the nearest point of the infinite line; ZeroDivisionError
    exactly when the endpoints coincide. *)
Theorem C11_line_point_distance : forall (s : seg RA) (p : pt RA),
  (line_point_distance s p = Err ZeroDivisionError <-> px (si s) = px (sj s) /\ py (si s) = py (sj s)) /\
  (~ (px (si s) = px (sj s) /\ py (si s) = py (sj s)) ->
   exists d, line_point_distance s p = Ok d /\
     (exists q, on_line (si s) (sj s) q /\ dist p q = d) /\
     (forall q, on_line (si s) (sj s) q -> d <= dist p q)).
Proof. exact line_point_distance_spec. Qed.
Print Assumptions C11_line_point_distance.

(** C12: [touch] means that an endpoint of one is closer than 1e-8 to an endpoint of the other; where
    different endpoints are at least 1e-8 apart this is a common endpoint. It is symmetric. *)
Theorem C12_touch_iff : forall s t : seg RA,
  let near p q := dist p q < / 10^8 in
  (touch s t = true <->
     near (si s) (si t) \/ near (si s) (sj t) \/ near (sj s) (si t) \/ near (sj s) (sj t)) /\
  touch s t = touch t s /\
  ((forall p q, In p [si s; sj s] -> In q [si t; sj t] -> p = q \/ / 10^8 <= dist p q) ->
   (touch s t = true <-> si s = si t \/ si s = sj t \/ sj s = si t \/ sj s = sj t)).
Proof. exact touch_spec. Qed.
Print Assumptions C12_touch_iff.

(** C12: [continuous] is symmetric, implies [touch], and is exactly: touch and some end-to-start
    match. *)
Theorem C12_continuous : forall s t : seg RA,
  continuous s t = continuous t s /\
  (continuous s t = true -> touch s t = true) /\
  (continuous s t = true <-> touch s t = true /\ (pt_eqb (sj s) (si t) = true \/ pt_eqb (si s) (sj t) = true)).
Proof. exact continuous_spec. Qed.
Print Assumptions C12_continuous.

(** C12, finding: "only one of their endpoints common" is not what [touch] checks: every segment
    touches itself and its reverse. *)
Theorem C12_touch_only_one_refuted : forall s : seg RA, touch s s = true /\ touch s (seg_reverse s) = true.
Proof. exact touch_only_one_refuted. Qed.
Print Assumptions C12_touch_only_one_refuted.

(** C14: [intersection_on_segment] is symmetric, insensitive to direction, and excludes touching and
    parallel segments. *)
Theorem C14_intersection_on_segment_sym : forall s t : seg RA,
  intersection_on_segment s t = intersection_on_segment t s /\
  intersection_on_segment (seg_reverse s) t = intersection_on_segment s t /\
  (touch s t = true \/ is_parallel s t = true -> intersection_on_segment s t = Ok false) /\
  (exists b, intersection_on_segment s t = Ok b).
Proof. exact ios_sym. Qed.
Print Assumptions C14_intersection_on_segment_sym.

(** C15: [loose_equal] is: same class and the same endpoints, in either order. *)
Theorem C15_loose_equal_iff : forall s t : seg RA,
  seg_loose_equal s t = true <->
  sc s = sc t /\ ((si s = si t /\ sj s = sj t) \/ (si s = sj t /\ sj s = si t)).
Proof. exact loose_equal_iff. Qed.
Print Assumptions C15_loose_equal_iff.

(** C15: an equivalence relation, insensitive to reversal. *)
Theorem C15_loose_equal_equiv : forall s t r : seg RA,
  seg_loose_equal s s = true /\ seg_loose_equal s t = seg_loose_equal t s /\
  (seg_loose_equal s t = true -> seg_loose_equal t r = true -> seg_loose_equal s r = true) /\
  seg_loose_equal (seg_reverse s) t = seg_loose_equal s t /\
  seg_loose_equal s (seg_reverse s) = true.
Proof. exact loose_equal_equiv. Qed.
Print Assumptions C15_loose_equal_equiv.

(** C15, finding: two segments can be [==] and yet not [loose_equal]. *)
Theorem C15_eq_not_loose_refuted : exists s t : seg RA,
  stored (si s) /\ stored (sj s) /\ stored (si t) /\ stored (sj t) /\
  seg_eqb s t = true /\ seg_loose_equal s t = false.
Proof. exact eq_not_loose_refuted. Qed.
Print Assumptions C15_eq_not_loose_refuted.

(** C16: reversal is an involution with swapped endpoints that keeps length, class and bounding box;
    the copy of a plain segment is its reverse. *)
Theorem C16_reverse : forall s : seg RA,
  seg_reverse (seg_reverse s) = s /\
  si (seg_reverse s) = sj s /\ sj (seg_reverse s) = si s /\ sc (seg_reverse s) = sc s /\
  norm (seg_reverse s) = norm s /\ seg_bounding_box (seg_reverse s) = seg_bounding_box s /\
  si (line_reversed s) = sj s /\ sj (line_reversed s) = si s /\
  (sc s = CLineSegment -> line_reversed s = seg_reverse s).
Proof. exact reverse_spec. Qed.
Print Assumptions C16_reverse.

(** C16, finding, any arithmetic: [line_reversed] of a Wall or NonWall is a plain LineSegment and so
    is never equal or loosely equal to any Wall/NonWall - not even to the reverse of itself. *)
Theorem C16_line_reversed_class_refuted : forall (A : Arith) (s t : seg A),
  sc t <> CLineSegment ->
  seg_eqb (line_reversed s) t = false /\ seg_eqb t (line_reversed s) = false /\
  seg_loose_equal (line_reversed s) t = false /\ seg_loose_equal t (line_reversed s) = false.
Proof. exact line_reversed_class_refuted. Qed.
Print Assumptions C16_line_reversed_class_refuted.

(** C18: the length; the unit vector has length 1 and, times the length, gives the segment's vector. *)
Theorem C18_norm_unitvector : forall (s : seg RA) (u v : R),
  norm s = dist (si s) (sj s) /\ norm (seg_translate u v s) = norm s /\ 0 <= norm s /\
  (pt_eqb (si s) (sj s) = true -> unitvector s = Ok (0, 0)) /\
  (pt_eqb (si s) (sj s) = false -> exists x y, unitvector s = Ok (x, y) /\ x ^ 2 + y ^ 2 = 1 /\
     norm s * x = px (sj s) - px (si s) /\ norm s * y = py (sj s) - py (si s)).
Proof. exact norm_unitvector. Qed.
Print Assumptions C18_norm_unitvector.

(** C22: rejected outside [0,1]; endpoints at 0 and 1; otherwise the point dividing the segment in
    that ratio, rounded; always internal to the segment for stored endpoints. *)
Theorem C22_point_on_line_at_ratio : forall (s : seg RA) (r : R),
  ((r < 0 \/ 1 < r) -> point_on_line_at_ratio s r = Err AssertionError) /\
  (0 <= r <= 1 -> stored (si s) -> stored (sj s) ->
   exists p, point_on_line_at_ratio s r = Ok p /\
     p = Point_new (px (along (si s) (sj s) r)) (py (along (si s) (sj s) r)) /\
     (r = 0 -> p = si s) /\ (r = 1 -> p = sj s) /\
     ls_is_internal_point s p = true).
Proof. exact at_ratio_spec. Qed.
Print Assumptions C22_point_on_line_at_ratio.

(** C23: the two pieces join at p between the old endpoints; False exactly outside the widened box;
    for p on the segment the lengths add up. *)
Theorem C23_add_point_on_line : forall (s : seg RA) (p : pt RA),
  (add_point_on_line s p = None <-> ls_is_internal_point s p = false) /\
  (forall a b, add_point_on_line s p = Some (a, b) ->
     si a = si s /\ sj a = p /\ si b = p /\ sj b = sj s) /\
  (on_segment (si s) (sj s) p -> exists a b, add_point_on_line s p = Some (a, b) /\
     norm a + norm b = norm s).
Proof. exact add_point_on_line_spec. Qed.
Print Assumptions C23_add_point_on_line.

(** C21: exactly n pieces; piece k runs from the k-th to the (k+1)-st division point, the first of
    them being i and the last j; the others i + k/n (j - i) rounded to 8 decimals. *)
Theorem C21_divide_line : forall (s : seg RA) (n : nat), (1 <= n)%nat ->
  exists l, divide_line s (Z.of_nat n) = Ok l /\ length l = n /\
    exists P : nat -> pt RA,
      P 0%nat = si s /\ P n = sj s /\
      (forall k, (0 < k < n)%nat -> P k = Point_new (px (si s) + INR k / INR n * (px (sj s) - px (si s)))
                                                    (py (si s) + INR k / INR n * (py (sj s) - py (si s)))) /\
      (forall k, (k < n)%nat -> nth_error l k = Some (LineSegment (P k) (P (S k)))).
Proof. exact divide_line_spec. Qed.
Print Assumptions C21_divide_line.

(** C21: each piece has the n-th part of the length up to 2e-8. *)
Theorem C21_divide_line_error : forall (s : seg RA) (n : nat) l u, (1 <= n)%nat ->
  stored (si s) -> stored (sj s) ->
  divide_line s (Z.of_nat n) = Ok l -> In u l ->
  Rabs (norm u - norm s / INR n) <= 2 / 10^8.
Proof. exact divide_line_length. Qed.
Print Assumptions C21_divide_line_error.
