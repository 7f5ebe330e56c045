(** GENERATED by tools/gen_props.py from PExamples.v: the property theorems only. *)
From Coq Require Import Reals ZArith Lra Lia Bool List Psatz Permutation.
From Coq.Floats Require Import SpecFloat.
From Verif Require Import Base Arith ArithR ArithF MPoint MLine MPoly MHeap MCycles Spec SpecHeap SpecPurge.
From Verif Require Import PPoint PLine PTrig PPoly PShape PConvex PCommon PMore PHeap PTri PMake PPurge.
Import ListNotations.
Local Open Scope R_scope.
#[local] Existing Instance RA.
From Verif Require Import PExamples.

(** C02: three points that are pairwise separated or identical. *)
Example C02_example : let l := [zp 0 0; zp 1 0; zp 0 1; zp 0 0] in
  forall p q, In p l -> In q l -> p = q \/ 2 / 10^5 <= Rabs (px p - px q) \/ 2 / 10^5 <= Rabs (py p - py q).
Proof. exact eq_separated_example. Qed.

(** C04: a Point made from two numbers, queried, revoked and set again, still counts as valid. *)
Example C04_example : exists (o o' : ptobj RA),
  obj_new (ASeq true [VNum 1; VNum 2]) = Ok o /\ fst (obj_isvalid o) = Ok true /\ run_ops [OpEmpty; OpQuery; OpSet (ASeq false [VNum 3; VNum 4]); OpEmpty] (snd (obj_isvalid o)) = Ok o' /\ fst (obj_isvalid o') = Ok true /\ obj_isempty o' = true.
Proof. exact frozen_example. Qed.

(** C07: three parallel segments, none of them degenerate. *)
Example C07_example :
  let s := LineSegment (zp 0 0) (zp 2 1) in let t := LineSegment (zp 5 0) (zp 1 (-2)) in let r := LineSegment (zp 0 7) (zp 6 10) in
  px (si t) <> px (sj t) /\ is_parallel s t = true /\ is_parallel t r = true /\ is_parallel s r = true.
Proof. exact parallel_example. Qed.

(** C09: a point off both ends, on the line of a long segment. *)
Example C09_example : let s := LineSegment (zp 0 0) (zp 40 30) in let p := zp 8 6 in
  pt_eqb p (si s) = false /\ pt_eqb p (sj s) = false /\ line_point_distance s p = Ok 0 /\ on_segment (si s) (sj s) p /\
  is_point_on_line s p = Ok true.
Proof. exact on_line_example. Qed.

(** C12: two segments with integer end points sharing one of them. *)
Example C12_example : let s := LineSegment (zp 0 0) (zp 4 3) in let t := LineSegment (zp 9 1) (zp 4 3) in
  (forall p q, In p [si s; sj s] -> In q [si t; sj t] -> p = q \/ / 10^8 <= dist p q) /\ touch s t = true.
Proof. exact touch_example. Qed.

(** C14: two segments with integer end points crossing between them. *)
Example C14_example : let s := LineSegment (zp 0 0) (zp 4 4) in let t := LineSegment (zp 0 4) (zp 4 0) in
  lattice 2000 (si s) /\ lattice 2000 (sj s) /\ lattice 2000 (si t) /\ lattice 2000 (sj t) /\ intersection_on_segment s t = Ok true.
Proof. exact crossing_example. Qed.

(** C17: the wall of the triangle moved by (1/2, -3). *)
Example C17_example : let s := mkh CWall 2 3 in
  stored (tri_heap (hi s)) /\ stored (tri_heap (hj s)) /\ decimal8 (1/2) /\ decimal8 (-3) /\ hi s <> hj s /\
  seg_view (seg_move tri_heap s (1/2) (-3)) s = @mkseg RA CWall (@mkpt RA (9/2) (-3)) (@mkpt RA (9/2) 0) /\
  seg_view (seg_mirror tri_heap s (1/2)) s = @mkseg RA CWall (@mkpt RA (-3) 0) (@mkpt RA (-3) 3).
Proof. exact segment_move_example. Qed.

(** C19, C20: perpendicular, parallel and opposite segments, none of them degenerate. *)
Example C20_example : let s := LineSegment (zp 0 0) (zp 4 3) in let t := LineSegment (zp 1 1) (zp (-2) 5) in let r := LineSegment (zp 8 6) (zp 0 0) in
  si s <> sj s /\ si t <> sj t /\ si r <> sj r /\
  angle_between_lines s t = Ok 90 /\ angle_between_lines s r = Ok 180 /\ opposite_direction s r = true.
Proof. exact angle_example. Qed.

(** C21, C22: a segment with stored end points cut into three, and the point at a third of it. *)
Example C21_example : let s := LineSegment (zp 0 0) (zp 6 3) in
  (1 <= 3)%nat /\ stored (si s) /\ stored (sj s) /\
  exists l, divide_line s 3 = Ok l /\ length l = 3%nat.
Proof. exact divide_example. Qed.

(** C24: the bounding box of the triangle (0,0), (4,0), (4,3). *)
Example C24_example : let l := view tri_heap (hsegs tri_poly) in
  l <> [] /\ (forall p, In p (flat_map ij l) -> Rabs (px p) <= 10^11 /\ Rabs (py p) <= 10^11) /\
  bounding_box l = ((0, 4), (0, 3)).
Proof. exact box_example. Qed.

(** C27: the triangle with doubled corners is purged to three shared Point objects. *)
Example C27_example : sound tri_heap tri_poly /\ clustered tri_heap (hsegs tri_poly) /\ some_coincide tri_heap (hsegs tri_poly) /\
  (exists a b c, objects (hsegs (purge tri_heap tri_poly)) = [a; b; b; c; c; a]) /\
  ~ some_coincide tri_heap [mkh CLineSegment 0 1].
Proof. exact purge_example. Qed.

(** C28, C30: the triangle moved, mirrored and moved back; the Point object 9 keeps its coordinates. *)
Example C28_example : sound tri_heap tri_poly /\ all_stored tri_heap (hsegs tri_poly) /\
  Forall step_decimal8 [Shift (1/4) 2; Flip 3; Shift (-1) 0] /\
  let '(h, P) := run_steps [Shift (1/4) 2; Flip 3; Shift (-1) 0] tri_heap tri_poly in
  let a := @mkpt RA (19/4) 2 in let b := @mkpt RA (3/4) 2 in let c := @mkpt RA (3/4) 5 in
  view h (hsegs P) = [LineSegment a b; @mkseg RA CWall b c; LineSegment c a] /\ h 9%nat = zp 7 7.
Proof. exact history_example. Qed.

(** C28: a purged path through the objects 0, 1, 3 is closed with the object 5, which lies where 0 lies. *)
Example C28_appended_example : let P := mkhp [mkh CLineSegment 0 1; mkh CLineSegment 1 3] true in
  exists P1, hpurged P = true /\ In 0%nat (objects (hsegs P)) /\ tri_heap 5%nat = tri_heap 0%nat /\ stored (tri_heap 0%nat) /\ decimal8 2 /\
  happend_end P 5 = Ok P1 /\ (forall a, In a (objects (hsegs P1)) -> tri_heap a = tri_heap 0%nat -> a = 5%nat \/ a = 0%nat).
Proof. exact appended_example. Qed.

(** C29: the triangle turned by 90 degrees. *)
Example C29_example : let '(h, P) := rotate_about_origin (A := RA) 90%R tri_heap tri_poly in
  view h (hsegs P) = [LineSegment (zp 0 0) (zp 0 4); @mkseg RA CWall (zp 0 4) (zp (-3) 4); LineSegment (zp (-3) 4) (zp 0 0)].
Proof. exact rotate_example. Qed.

(** C25: an open path that is continuous is closed by one more segment. *)
Example C25_example : let p := [LineSegment (zp 0 0) (zp 4 0); LineSegment (zp 4 0) (zp 4 3)] in
  iscontinuous p = true /\ isclosed p = Ok false /\ MPoly.close p = Ok (p ++ [LineSegment (zp 4 3) (zp 0 0)]).
Proof. exact close_example. Qed.

(** C38: the area of the triangle (0,0), (4,0), (4,3), one side given backwards. *)
Example C38_example : let l := [LineSegment (zp 4 0) (zp 0 0); LineSegment (zp 4 0) (zp 4 3); LineSegment (zp 4 3) (zp 0 0)] in
  Forall2 joins (cycle_edges [zp 0 0; zp 4 0; zp 4 3]) l /\ triangle_area l = Ok 6.
Proof. exact heron_example. Qed.

(** C41: a square of side 3 at (10, 0.5). *)
Example C41_example : decimal8 (3 / 2) /\ 1/10^5 <= 3 / 2 /\ decimal8 10 /\ decimal8 (1/2) /\ Rabs 10 + 3 <= 10^11 /\ Rabs (1/2) + 3 <= 10^11.
Proof. exact square_example. Qed.

(** C42: a half circle of radius 2 in two steps meets the hypotheses; so does a full circle. *)
Example C42_example : (0 < 2)%nat /\ 0 <= 90 < 360 /\ 0 < 270 <= 360 /\ 90 < 270 /\ decimal8 5 /\
  1/10^5 <= 2 * sin ((270 - 90) / INR 2 * PI / 360) /\ 1/10^5 <= 2 * sin ((270 - 90) * PI / 360) /\
  1/10^5 <= 2 * sin ((360 - 0) / INR 4 * PI / 360).
Proof. exact arc_example. Qed.

(** C43: a triangle with a dangling segment; the triangle is kept, the dangling segment is dropped. *)
Example C43_example :
  let t := [LineSegment (zp 0 0) (zp 4 0); LineSegment (zp 4 0) (zp 4 3); LineSegment (zp 4 3) (zp 0 0)] in
  let d := LineSegment (zp 4 3) (zp 9 9) in
  Permutation (d :: t) (t ++ [d]) /\ Forall2 joins (cycle_edges [zp 0 0; zp 4 0; zp 4 3]) t /\ separated (flat_map ij (d :: t)) /\
  (forall s, In s t -> In s (remove_outlier_segments (d :: t))) /\ ~ In d (remove_outlier_segments (d :: t)).
Proof. exact outlier_example. Qed.

(** C61: a convex pentagon with a straight corner. *)
Example C61_example : let vs := [zp 0 0; zp 2 0; zp 4 0; zp 4 3; zp 0 3] in
  vs <> [] /\ separated vs /\ (forall a b c, In (a, b) (cycle_edges vs) -> In c vs -> 0 <= orient a b c).
Proof. exact convex_valid_example. Qed.

(** C63: the neighbours of a corner of a triangle. *)
Example C63_example :
  let t := [LineSegment (zp 0 0) (zp 4 0); LineSegment (zp 4 0) (zp 4 3); LineSegment (zp 4 3) (zp 0 0)] in
  separated (zp 4 0 :: flat_map ij t) /\ (forall s, In s t -> si s <> sj s) /\
  In (zp 0 0) (neighbour t (zp 4 0)) /\ In (zp 4 3) (neighbour t (zp 4 0)) /\ ~ In (zp 4 0) (neighbour t (zp 4 0)).
Proof. exact neighbour_example. Qed.

(** C65: the midpoint of a triangle's corners, each of which ends two segments. *)
Example C65_example :
  let t := [LineSegment (zp 0 0) (zp 6 0); LineSegment (zp 6 0) (zp 6 3); LineSegment (zp 6 3) (zp 0 0)] in
  let vs := [zp 0 0; zp 6 0; zp 6 3] in
  NoDup vs /\ (forall p, In p vs <-> exists s, In s t /\ (p = si s \/ p = sj s)) /\ poly_midpoint t = Ok (Point_new 4 1).
Proof. exact midpoint_example. Qed.

(** C66: in a closed triangle every side has a next one. *)
Example C66_example :
  let a := LineSegment (zp 0 0) (zp 4 0) in let b := LineSegment (zp 4 0) (zp 4 3) in let c := LineSegment (zp 4 3) (zp 0 0) in
  isclosed [a; b; c] = Ok true /\ next_segment [a; b; c] a = Ok b /\ next_segment [a; b; c] c = Ok a.
Proof. exact next_example. Qed.
