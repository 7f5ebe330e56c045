(** GENERATED by tools/gen_props.py from PHull.v: the property theorems only. *)
From Coq Require Import Reals ZArith Lra Lia Bool List Psatz Permutation Sorted.
From Verif Require Import Base Arith ArithR MPoint MLine MPoly Spec PPoint PLine PShape PConvex POrder.
Import ListNotations.
Local Open Scope R_scope.
#[local] Existing Instance RA.
From Verif Require Import PHull.

(** C37: with fewer than two distinct points no polygon is returned (the code returns the sorted list
    of points). *)
Theorem C37_hull_few : forall ps : list (R * R),
  convex_hull (A := RA) ps = Ok None <-> ~ exists p q, In p ps /\ In q ps /\ p <> q.
Proof. exact hull_few. Qed.
Print Assumptions C37_hull_few.

(** C37: only the set of the points matters, not their order or repetition. *)
Theorem C37_hull_set : forall ps qs : list (R * R), (forall p, In p ps <-> In p qs) ->
  convex_hull (A := RA) ps = convex_hull (A := RA) qs.
Proof. exact hull_set. Qed.
Print Assumptions C37_hull_set.

(** C37: any reals with two distinct points.  The returned polygon is the path through the hull
    vertices vs, each rounded to 8 decimals; it is closed by a last segment unless first and last
    vertex are == already. *)
Theorem C37_hull_any : forall ps : list (R * R),
  let point (p : R * R) := @mkpt RA (fst p) (snd p) in
  let rounded (p : R * R) := @mkpt RA (Rround8 (fst p)) (Rround8 (snd p)) in
  (exists p q, In p ps /\ In q ps /\ p <> q) ->
  exists v vs l, convex_hull (A := RA) ps = Ok (Some l) /\
    (pt_eqb (rounded v) (last (map rounded vs) (rounded v)) = false -> l = cycle_poly (map rounded (v :: vs))) /\
    (pt_eqb (rounded v) (last (map rounded vs) (rounded v)) = true -> map si l = removelast (map rounded (v :: vs)) /\ map sj l = map rounded vs) /\
    NoDup (v :: vs) /\ incl (v :: vs) ps /\
    (forall p, In p ps -> fst v < fst p \/ (fst v = fst p /\ snd v <= snd p)) /\
    (forall a b p, In (a, b) (cycle_edges (v :: vs)) -> In p ps -> 0 <= orient (point a) (point b) (point p)) /\
    ((forall a b c, In a ps -> In b ps -> In c ps -> orient (point a) (point b) (point c) = 0) -> length (v :: vs) = 2%nat) /\
    (~ (forall a b c, In a ps -> In b ps -> In c ps -> orient (point a) (point b) (point c) = 0) ->
       (3 <= length (v :: vs))%nat /\
       forall a b c, In (a, b) (cycle_edges (v :: vs)) -> In (b, c) (cycle_edges (v :: vs)) -> 0 < orient (point a) (point b) (point c)).
Proof. exact hull_any. Qed.
Print Assumptions C37_hull_any.

(** C37: coordinates that are multiples of 1e-8, points identical or separated, not all the same.  The
    result is the closed, valid polygon through vs: input points without repetition, beginning with the
    lexicographically smallest one, every input point on or left of every edge.  Unless all points are
    collinear it is convex, counter-clockwise, of positive area and turns left strictly at every
    vertex.  Collinear points give the two end points there and back, which counts as clockwise. *)
Theorem C37_hull : forall ps : list (R * R),
  let pts : list (pt RA) := map (fun p => @mkpt RA (fst p) (snd p)) ps in
  let collinear := forall a b c, In a pts -> In b pts -> In c pts -> orient a b c = 0 in
  (forall p, In p pts -> stored p) -> separated pts -> (exists p q, In p pts /\ In q pts /\ p <> q) ->
  exists v vs, let hull := cycle_poly (v :: vs) in
    convex_hull (A := RA) ps = Ok (Some hull) /\
    NoDup (v :: vs) /\ incl (v :: vs) pts /\
    (forall p, In p pts -> px v < px p \/ (px v = px p /\ py v <= py p)) /\
    (forall a b p, In (a, b) (cycle_edges (v :: vs)) -> In p pts -> 0 <= orient a b p) /\
    isclosed hull = Ok true /\ poly_isvalid hull = Ok true /\
    (collinear -> length (v :: vs) = 2%nat /\ iscw hull = Ok true) /\
    (~ collinear -> (3 <= length (v :: vs))%nat /\ isconvex hull = Ok true /\ isccw hull = Ok true /\ 0 < shoelace (v :: vs) /\
       forall a b c, In (a, b) (cycle_edges (v :: vs)) -> In (b, c) (cycle_edges (v :: vs)) -> 0 < orient a b c).
Proof. exact hull_spec. Qed.
Print Assumptions C37_hull.

(** Six points, one of them repeated, one in the interior, one on an edge: the hypotheses of C37_hull
    hold, and the points are not collinear. *)
Example C37_example :
  let pts := map (fun p => @mkpt RA (fst p) (snd p)) [(4, 0); (1, 1); (0, 0); (2, 0); (0, 3); (0, 0)] in
  (forall p, In p pts -> stored p) /\ separated pts /\ (exists p q, In p pts /\ In q pts /\ p <> q) /\
  ~ (forall a b c, In a pts -> In b pts -> In c pts -> orient a b c = 0).
Proof. exact hull_example. Qed.
