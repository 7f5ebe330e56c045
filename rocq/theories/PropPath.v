(** GENERATED by tools/gen_props.py from PPath.v: the property theorems only. *)
From Coq Require Import Reals ZArith Lra Lia Bool List Psatz Permutation.
From Verif Require Import Base Arith ArithR ArithF MPoint MLine MPoly MTri Spec SpecInside SpecTri
  PPoint PLine PCommon POrder PMore PInside PCorner PCollinear PEar PEar2 PArea PRel PExamples.
Import ListNotations.
Local Open Scope R_scope.
#[local] Existing Instance RA.
From Verif Require Import PPath.

(** C72 (every arithmetic): two polygons are reported disjunct exactly when no two of their triangles (all
    triangles of both polygons in one list) were reported to overlap or have equal corner lists. *)
Theorem C72_polygons : forall (A : Arith) (inside : nat -> nat -> list (seg A) -> pt A -> res bool) (ts : list (list (seg A))),
  (poly_disjunct inside ts = Ok true ->
     ForallOrdPairs (fun x y => congruent x y = false /\ exists k, MTri.overlap (inside k) x y = Ok false) ts) /\
  (poly_disjunct inside ts = Ok false ->
     exists l1 x l2 y l3 k o, ts = l1 ++ x :: l2 ++ y :: l3 /\ MTri.overlap (inside k) x y = Ok o /\ (o = true \/ congruent x y = true)).
Proof. exact poly_disjunct_spec. Qed.
Print Assumptions C72_polygons.

(** C73: for distinct points (also for the tolerant ==), if the paths are shorter than 1e11, segments_from_pointset returns a path through all
    of them, in the order of the distance from its first point; no such path from another first point
    is shorter.  [starts] is the set of the points in any order. *)
Theorem C73_path : forall starts points : list (pt RA), Permutation starts points -> points <> [] -> NoDup points -> separated points ->
  (forall ps, Permutation ps points -> path_length ps < 10^11) ->
  exists p ps, segments_from_pointset starts points = Ok (map (fun '(a, b) => LineSegment a b) (pairs ps)) /\
    In p points /\ by_distance points p ps /\
    forall p', In p' points -> exists ps', by_distance points p' ps' /\ path_length ps <= path_length ps'.
Proof. exact path_spec. Qed.
Print Assumptions C73_path.

(** C73: two points that are == make the call raise IndexError. *)
Theorem C73_duplicates : forall starts points : list (pt RA), incl starts points -> starts <> [] ->
  (exists l1 p l2 q l3, points = l1 ++ p :: l2 ++ q :: l3 /\ pt_eqb p q = true) ->
  segments_from_pointset starts points = Err IndexError.
Proof. exact path_duplicates. Qed.
Print Assumptions C73_duplicates.

(** C73 (every arithmetic): without points the call raises NameError. *)
Theorem C73_empty : forall A : Arith, segments_from_pointset (A := A) [] [] = Err NameError.
Proof. exact path_empty. Qed.
Print Assumptions C73_empty.

(** C73 (finding), binary64: the path returned is not the shortest, contrary to the docstring. *)
Theorem C73_not_shortest_refuted : forall L : Libm, exists (segs : list (seg (FA L))) (ps : list (pt (FA L))),
  let points := zpts (FA L) [(3, 4); (4, 2); (0, 4); (0, 0); (3, 0)]%Z in
  segments_from_pointset points points = Ok segs /\ Permutation ps points /\
  nltb (nsum (map norm (map (fun '(a, b) => LineSegment a b) (pairs ps)))) (nsum (map norm segs)) = true.
Proof. exact path_not_shortest. Qed.
Print Assumptions C73_not_shortest_refuted.

Example C73_example : let points := [PExamples.zp 0 0; PExamples.zp 4 0; PExamples.zp 4 3] in
  points <> [] /\ NoDup points /\ separated points /\ (forall ps, Permutation ps points -> path_length ps < 10^11).
Proof. exact path_example. Qed.
