(** GENERATED by tools/gen_props.py from PMore.v: the property theorems only. *)
From Coq Require Import Reals ZArith Lra Lia Bool List Psatz Permutation.
From Verif Require Import Base Arith ArithR MPoint MLine MPoly Spec PPoint PLine.
Import ListNotations.
Local Open Scope R_scope.
#[local] Existing Instance RA.
From Verif Require Import PMore.

(** C62: False for parallel segments; otherwise True exactly if the segments touch or the common point
    of the two lines, rounded to 8 decimals, is == to one of the four end points.  Symmetric,
    insensitive to direction, never an exception. *)
Theorem C62_intersection_on_endpoint : forall s t : seg RA,
  (is_parallel s t = true -> intersection_on_endpoint s t = Ok false) /\
  (is_parallel s t = false -> exists q : pt RA,
     (forall q', on_line (si s) (sj s) q' /\ on_line (si t) (sj t) q' <-> q' = q) /\
     (intersection_on_endpoint s t = Ok true <->
        touch s t = true \/
        exists e, In e [si s; sj s; si t; sj t] /\
          Rabs (Rround8 (px q) - px e) < 1/10^5 /\ Rabs (Rround8 (py q) - py e) < 1/10^5)) /\
  intersection_on_endpoint s t = intersection_on_endpoint t s /\
  intersection_on_endpoint (seg_reverse s) t = intersection_on_endpoint s t /\
  (exists b, intersection_on_endpoint s t = Ok b).
Proof. exact ioe_spec. Qed.
Print Assumptions C62_intersection_on_endpoint.

(** C62, finding: the answer can be True for segments without a common point. *)
Theorem C62_disjoint_refuted : exists s t : seg RA,
  lattice 9 (si s) /\ lattice 9 (sj s) /\ lattice 9 (si t) /\ lattice 9 (sj t) /\
  intersection_on_endpoint s t = Ok true /\ forall q, ~ shared s t q.
Proof. exact ioe_disjoint_refuted. Qed.
Print Assumptions C62_disjoint_refuted.

(** C63: the segments that start in p / end in p / have p as an end, in the order of the polygon, up to
    the tolerance of ==. *)
Theorem C63_find_segment_by_point : forall (A : Arith) (l : list (seg A)) (p : pt A),
  find_segment_by_point l p WStart = filter (fun s => pt_eqb p (si s)) l /\
  find_segment_by_point l p WEnd = filter (fun s => pt_eqb p (sj s)) l /\
  find_segment_by_point l p WBoth = filter (fun s => pt_eqb p (si s) || pt_eqb p (sj s)) l.
Proof. exact find_segment_spec. Qed.
Print Assumptions C63_find_segment_by_point.

(** C63: on a polygon whose points are identical or separated and whose segments are not null, the
    neighbours of p are exactly the other ends of the segments at p, one per segment. *)
Theorem C63_neighbour : forall (l : list (seg RA)) (p : pt RA),
  separated (p :: flat_map ij l) -> (forall s, In s l -> si s <> sj s) ->
  (forall q, In q (neighbour l p) <-> exists s, In s l /\ joins (p, q) s) /\
  length (neighbour l p) = length (find_segment_by_point l p WBoth).
Proof. exact neighbour_spec. Qed.
Print Assumptions C63_neighbour.

(** C64: polygons of different length are not loosely equal; otherwise, for plain segments: every
    segment of the first polygon is a segment of the second one, in either direction.  Asking for the
    direction raises TypeError whenever the lengths agree. *)
Theorem C64_loose_equal : forall a b : list (seg RA),
  (length a <> length b -> forall d, poly_loose_equal a b d = Ok false) /\
  (length a = length b -> poly_loose_equal a b true = Err TypeError) /\
  (length a = length b -> (forall s, In s a \/ In s b -> sc s = CLineSegment) ->
   exists r, poly_loose_equal a b false = Ok r /\
     (r = true <-> forall s, In s a -> exists t, In t b /\ (t = s \/ t = seg_reverse s))).
Proof. exact loose_equal_spec. Qed.
Print Assumptions C64_loose_equal.

(** C64, finding: the relation is not symmetric. *)
Theorem C64_loose_equal_asymmetric_refuted : exists a b : list (seg RA),
  poly_loose_equal a b false = Ok true /\ poly_loose_equal b a false = Ok false.
Proof. exact loose_equal_asym_refuted. Qed.
Print Assumptions C64_loose_equal_asymmetric_refuted.

(** C64: loose_subset compares end points only, by exact coordinates. *)
Theorem C64_loose_subset : forall a b : list (seg RA),
  loose_subset a b = true <-> incl (flat_map ij b) (flat_map ij a).
Proof. exact loose_subset_spec. Qed.
Print Assumptions C64_loose_subset.

(** C65: the midpoint is the mean of the distinct vertices vs (rounded), however they are listed; the
    empty polygon raises ZeroDivisionError. *)
Theorem C65_midpoint : forall (l : list (seg RA)) (vs : list (pt RA)),
  NoDup vs -> (forall p, In p vs <-> exists s, In s l /\ (p = si s \/ p = sj s)) ->
  (l = [] -> poly_midpoint l = Err ZeroDivisionError) /\
  (l <> [] -> poly_midpoint l =
     Ok (Point_new (fold_right Rplus 0 (map (fun p : pt RA => px p) vs) / INR (length vs))
                   (fold_right Rplus 0 (map (fun p : pt RA => py p) vs) / INR (length vs)))).
Proof. exact midpoint_spec. Qed.
Print Assumptions C65_midpoint.

(** C66, any arithmetic: next_segment raises AssertionError unless the polygon is closed; otherwise it
    is the first segment of the list that starts where the given one ends, whether or not it is the
    following one, and Exception if there is none. *)
Theorem C66_next_segment : forall (A : Arith) (l : list (seg A)) (s : seg A),
  (isclosed l = Ok false -> next_segment l s = Err AssertionError) /\
  (isclosed l = Ok true ->
    (forall t, next_segment l s = Ok t <->
       exists a b, l = a ++ t :: b /\ pt_eqb (si t) (sj s) = true /\ forall u, In u a -> pt_eqb (si u) (sj s) = false) /\
    (next_segment l s = Err OtherException <-> forall u, In u l -> pt_eqb (si u) (sj s) = false)).
Proof. exact next_segment_spec. Qed.
Print Assumptions C66_next_segment.
