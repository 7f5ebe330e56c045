(** GENERATED by tools/gen_props.py from PCommon.v: the property theorems only. *)
From Coq Require Import Reals ZArith Lra Lia Bool List Psatz Permutation.
From Verif Require Import Base Arith ArithR MPoint MLine Spec PPoint PLine PTrig.
Import ListNotations.
Local Open Scope R_scope.
#[local] Existing Instance RA.
From Verif Require Import PCommon.

(** C13: on the integer grid [common_part] never fails and returns the set-theoretic common part, for
    all non-null segments of one class. *)
Theorem C13_common_part : forall s t : seg RA,
  lattice 2000 (si s) -> lattice 2000 (sj s) -> lattice 2000 (si t) -> lattice 2000 (sj t) ->
  si s <> sj s -> si t <> sj t -> sc s = sc t ->
  exists r, common_part s t = Ok r /\ is_common_part s t r.
Proof. exact common_part_spec. Qed.
Print Assumptions C13_common_part.

(** C13: whether there is a common part, and whether it is a point or a segment, does not depend on
    the order of the two segments. *)
Theorem C13_common_part_sym : forall s t : seg RA,
  lattice 2000 (si s) -> lattice 2000 (sj s) -> lattice 2000 (si t) -> lattice 2000 (sj t) ->
  si s <> sj s -> si t <> sj t -> sc s = sc t ->
  exists r r', common_part s t = Ok r /\ common_part t s = Ok r' /\
    match r, r' with
    | None, None => True
    | Some (CPoint p), Some (CPoint p') => p = p'
    | Some (CSeg u), Some (CSeg u') => forall q, on_segment (si u) (sj u) q <-> on_segment (si u') (sj u') q
    | _, _ => False
    end.
Proof. exact common_part_sym. Qed.
Print Assumptions C13_common_part_sym.

(** C14: on the integer grid [intersection_on_segment] holds exactly for non-parallel segments that
    share a point but no endpoint. *)
Theorem C14_proper_crossing : forall s t : seg RA,
  lattice 2000 (si s) -> lattice 2000 (sj s) -> lattice 2000 (si t) -> lattice 2000 (sj t) ->
  exists b, intersection_on_segment s t = Ok b /\
   (b = true <-> crossproduct s t <> 0 /\ (exists q, shared s t q) /\
                 si s <> si t /\ si s <> sj t /\ sj s <> si t /\ sj s <> sj t).
Proof. exact proper_crossing. Qed.
Print Assumptions C14_proper_crossing.

(** A grid case meeting the hypotheses: two overlapping, oppositely directed collinear segments. *)
Example C13_example_overlap :
  let s := LineSegment (@mkpt RA 0 0) (@mkpt RA 6 3) in
  let t := LineSegment (@mkpt RA 8 4) (@mkpt RA 2 1) in
  (lattice 2000 (si s) /\ lattice 2000 (sj s) /\ lattice 2000 (si t) /\ lattice 2000 (sj t)) /\
  (si s <> sj s /\ si t <> sj t /\ sc s = sc t) /\
  shared s t (@mkpt RA 4 2) /\ shared s t (@mkpt RA 2 1).
Proof. exact common_part_example. Qed.

(** C13, finding: two non-null segments of different classes with the same end points have no common
    part: the call raises. *)
Theorem C13_class_refuted : forall (a b : pt RA) (c c' : scls), a <> b -> c <> c' ->
  common_part (mkseg c a b) (mkseg c' a b) = Err OtherException.
Proof. exact common_class_refuted. Qed.
Print Assumptions C13_class_refuted.

(** C13, finding: off the integer grid the box tolerance reports a common point of disjoint
    segments. *)
Theorem C13_tolerance_refuted : exists (s t : seg RA) (p : pt RA),
  stored (si s) /\ stored (sj s) /\ stored (si t) /\ stored (sj t) /\
  common_part s t = Ok (Some (CPoint p)) /\ forall q, ~ shared s t q.
Proof. exact common_tolerance_refuted. Qed.
Print Assumptions C13_tolerance_refuted.

(** C13, finding: a null segment counts as collinear with everything, and the answer depends on the
    argument order. *)
Theorem C13_null_segment_refuted : exists (s t : seg RA) (u : seg RA),
  lattice 10 (si s) /\ lattice 10 (sj s) /\ lattice 10 (si t) /\ lattice 10 (sj t) /\
  common_part s t = Ok (Some (CSeg u)) /\ common_part t s = Ok None /\ forall q, ~ shared s t q.
Proof. exact common_null_refuted. Qed.
Print Assumptions C13_null_segment_refuted.
