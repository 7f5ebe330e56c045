(** GENERATED by tools/gen_props.py from PWhole.v: the property theorems only. *)
From Coq Require Import ZArith Reals Lra Lia Bool List Permutation Arith Floats.SpecFloat.
From Flocq Require Import Core BinarySingleNaN Relative.
From Verif Require Import Base Arith ArithR ArithF MPoint MLine MPoly MHeap Spec SpecHeap SpecDouble PPoint PLine PTrig PCommon PShape PConvex POrder PHull PFlocq PHeap PDouble PExact.
Import ListNotations.
Local Open Scope R_scope.
#[local] Existing Instance RA.
#[local] Existing Instance P53.
#[local] Existing Instance P1024.
From Verif Require Import PWhole.

(** C90: whole coordinates up to 2000. Parallel segments are recognised without error; for the others the program's
    intersection point exists and misses the exact common point q of the two lines by at most 0.51e-8 and
    |q| * 2^-51 in each coordinate. *)
Theorem C90_intersection : forall L (s t : seg (FA L)) (u v : seg RA), exact_seg s u -> exact_seg t v -> whole_seg u -> whole_seg v ->
  (crossproduct u v = 0 -> intersection_point s t = Ok None) /\
  (crossproduct u v <> 0 -> exists (p : pt (FA L)) (q : pt RA), intersection_point s t = Ok (Some p) /\
     on_line (si u) (sj u) q /\ on_line (si v) (sj v) q /\ double (px p) /\ double (py p) /\
     Rabs (value (px p) - px q) <= 51 / 10 ^ 10 + Rabs (px q) / 2 ^ 51 /\ Rabs (value (py p) - py q) <= 51 / 10 ^ 10 + Rabs (py q) / 2 ^ 51).
Proof. exact intersection_whole. Qed.
Print Assumptions C90_intersection.

(** C90: [intersection_on_segment] of the program is the exact answer: true exactly if the segments are not parallel, have a
    common point, and no common end point. *)
Theorem C90_crossing : forall L (s t : seg (FA L)) (u v : seg RA), exact_seg s u -> exact_seg t v -> whole_seg u -> whole_seg v ->
  exists b, intersection_on_segment s t = Ok b /\
   (b = true <-> crossproduct u v <> 0 /\ (exists q, shared u v q) /\ si u <> si v /\ si u <> sj v /\ sj u <> si v /\ sj u <> sj v).
Proof. exact crossing_whole. Qed.
Print Assumptions C90_crossing.

(** C90: the common part of two segments that are not parallel: none if they have no common point, else a Point that misses
    the common point q by less than 0.6e-8 in each coordinate. *)
Theorem C90_common : forall L (s t : seg (FA L)) (u v : seg RA), exact_seg s u -> exact_seg t v -> whole_seg u -> whole_seg v -> crossproduct u v <> 0 ->
  (common_part s t = Ok None /\ forall q, ~ shared u v q) \/
  (exists (p : pt (FA L)) (q : pt RA), common_part s t = Ok (Some (CPoint p)) /\ (forall q', shared u v q' <-> q' = q) /\ double (px p) /\ double (py p) /\
     Rabs (value (px p) - px q) < 6 / 10 ^ 9 /\ Rabs (value (py p) - py q) < 6 / 10 ^ 9).
Proof. exact common_whole. Qed.
Print Assumptions C90_common.

(** C90: a polygon line with whole coordinates up to 2000 is valid for the program exactly if it has a segment, of consecutive
    segments one ends where the other starts, and no two segments that share no end point, and are not parallel,
    have a common point. *)
Theorem C90_valid : forall L (l : list (seg (FA L))) (l' : list (seg RA)), Forall2 exact_seg l l' -> Forall whole_seg l' ->
  exists b : bool, poly_isvalid l = Ok b /\
  (b = true <-> l' <> [] /\
     (forall k u v, nth_error l' k = Some u -> nth_error l' (S k) = Some v -> sj u = si v \/ si u = sj v) /\
     (forall u v, distinct_positions l' u v -> ~ (crossproduct u v <> 0 /\ (exists q, shared u v q) /\ si u <> si v /\ si u <> sj v /\ sj u <> si v /\ sj u <> sj v))).
Proof. exact valid_whole. Qed.
Print Assumptions C90_valid.

(** C90: [isconvex] of the program raises for lines that are not valid, and otherwise says without error whether left and right
    turns both occur. *)
Theorem C90_convex : forall L (l : list (seg (FA L))) (l' : list (seg RA)), Forall2 exact_seg l l' -> Forall whole_seg l' ->
  (poly_isvalid l = Ok false -> isconvex l = Err AssertionError) /\
  (poly_isvalid l = Ok true -> exists b, isconvex l = Ok b /\
     (b = false <-> (exists u v, In (u, v) (cycle_edges l') /\ 0 < crossproduct u v) /\ (exists u v, In (u, v) (cycle_edges l') /\ crossproduct u v < 0))).
Proof. exact convex_whole. Qed.
Print Assumptions C90_convex.

(** C90: if every vertex is on or left of every directed edge and the area is positive, the closed line through the vertices is
    valid, convex and counter-clockwise for the program (up to a hundred million vertices). *)
Theorem C90_orientation : forall L (vs : list (pt (FA L))) (vs' : list (pt RA)), Forall2 exact_pt vs vs' -> Forall (lattice 2000) vs' -> (Z.of_nat (length vs) <= 10 ^ 8)%Z ->
  (forall a b, In (a, b) (cycle_edges vs') -> a <> b) ->
  (forall a b c, In (a, b) (cycle_edges vs') -> In c vs' -> 0 <= orient a b c) ->
  0 < shoelace vs' ->
  poly_isvalid (cycle_poly vs) = Ok true /\ isconvex (cycle_poly vs) = Ok true /\ iscw (cycle_poly vs) = Ok false /\ isccw (cycle_poly vs) = Ok true.
Proof. exact orientation_whole. Qed.
Print Assumptions C90_orientation.

(** C90: the Points made of two integers up to 2000 are those integers, in the program and exactly: the hypotheses of the
    theorems above hold for every polygon with such vertices. *)
Theorem C90_points : forall L (vs : list (Z * Z)), Forall (fun v => (Z.abs (fst v) <= 2000)%Z /\ (Z.abs (snd v) <= 2000)%Z) vs ->
  Forall2 exact_pt (zpts (FA L) vs) (zpts RA vs) /\ Forall (lattice 2000) (zpts RA vs) /\
  Forall2 exact_seg (cycle_poly (zpts (FA L) vs)) (cycle_poly (zpts RA vs)) /\ Forall whole_seg (cycle_poly (zpts RA vs)) /\
  zpts RA vs = map (fun v => @mkpt RA (IZR (fst v)) (IZR (snd v))) vs.
Proof. exact points_whole. Qed.
Print Assumptions C90_points.

(** C90: an integer polygon with a crossing is not valid for the program; without it, it is. *)
Example C90_example : forall L : Libm,
  let bow := [(0, 0); (1999, 1000); (2000, -7); (3, 900)]%Z in let quad := [(0, 0); (2000, -7); (1999, 1000); (3, 900)]%Z in
  Forall (fun v => (Z.abs (fst v) <= 2000)%Z /\ (Z.abs (snd v) <= 2000)%Z) (bow ++ quad) /\
  poly_isvalid (cycle_poly (zpts (FA L) bow)) = Ok false /\ poly_isvalid (cycle_poly (zpts (FA L) quad)) = Ok true /\
  isccw (cycle_poly (zpts (FA L) quad)) = Ok true.
Proof. exact whole_example. Qed.
