(** Specification vocabulary: triangulations of the plane.

    The interior of a triangle and the triangle itself are given by the signs of [orient], whatever the
    orientation of its corners. *)
From Coq Require Import Reals List.
From Verif Require Import Base Arith ArithR MPoint MDelaunay Spec SpecDelaunay.
Import ListNotations.
Local Open Scope R_scope.

(** p is an inner point of the triangle a b c; p is a point of the triangle a b c. *)
Definition in_open (a b c p : pt RA) : Prop :=
  (0 < orient a b p /\ 0 < orient b c p /\ 0 < orient c a p) \/
  (orient a b p < 0 /\ orient b c p < 0 /\ orient c a p < 0).
Definition in_closed (a b c p : pt RA) : Prop :=
  (0 <= orient a b p /\ 0 <= orient b c p /\ 0 <= orient c a p) \/
  (orient a b p <= 0 /\ orient b c p <= 0 /\ orient c a p <= 0).

(** The triangle number k of the triangulation has the corners a, b, c. *)
Definition corners (st : dst RA) (k : nat) (a b c : pt RA) : Prop :=
  exists x y z, nth_error (dtris st) k = Some (x, y, z) /\
    nth_error (dpts st) x = Some a /\ nth_error (dpts st) y = Some b /\ nth_error (dpts st) z = Some c.

(** A planar triangulation: no triangle is degenerate and no two have a common inner point. *)
Definition planar (st : dst RA) : Prop :=
  (forall k a b c, corners st k a b c -> orient a b c <> 0) /\
  (forall k l a b c d e f p, corners st k a b c -> corners st l d e f -> in_open a b c p -> in_open d e f p -> k = l).

(** p belongs to some triangle. *)
Definition covered (st : dst RA) (p : pt RA) : Prop :=
  exists k a b c, corners st k a b c /\ in_closed a b c p.

(** Every edge i j with two triangles and the opposite corners u, w has angles there which add up to 180
    degrees at most, up to the tolerance of the code. *)
Definition delaunay (st : dst RA) : Prop :=
  forall k l i j u w a b o1 o2 al1 al2, k <> l -> i <> j ->
    has st k i -> has st k j -> has st k u -> u <> i -> u <> j ->
    has st l i -> has st l j -> has st l w -> w <> i -> w <> j ->
    nth_error (dpts st) i = Some a -> nth_error (dpts st) j = Some b ->
    nth_error (dpts st) u = Some o1 -> nth_error (dpts st) w = Some o2 ->
    angle_at o1 a b al1 -> angle_at o2 a b al2 -> al1 + al2 <= PI * (1 + 1 / 10 ^ 8).

(** The vertex v belongs to some triangle; exactly one triangle has the edge i j. *)
Definition used (st : dst RA) (v : nat) : Prop := exists k, has st k v.
Definition sole (st : dst RA) (i j : nat) : Prop := exists k, forall k', has st k' i /\ has st k' j <-> k' = k.

(** Twice the area of all triangles together. *)
Definition on_tri (f : pt RA -> pt RA -> pt RA -> R) (ps : list (pt RA)) (t : tri) : R :=
  let '(x, y, z) := t in
  match nth_error ps x, nth_error ps y, nth_error ps z with Some a, Some b, Some c => f a b c | _, _, _ => 0 end.
Fixpoint fsum (f : tri -> R) (l : list tri) : R := match l with [] => 0 | t :: r => f t + fsum f r end.
Definition total_area (st : dst RA) : R := fsum (on_tri (fun a b c => Rabs (orient a b c)) (dpts st)) (dtris st).

(** No three points are (nearly) on one line: twice the area of every triangle of them is more than 1e-8. *)
Definition general (ps : list (pt RA)) : Prop :=
  forall i j k a b c, i <> j -> i <> k -> j <> k ->
    nth_error ps i = Some a -> nth_error ps j = Some b -> nth_error ps k = Some c -> 1 / 10 ^ 8 < Rabs (orient a b c).

(** The boundary edges are those of a convex polygon around all triangles: each belongs to one triangle,
    has all the other vertices on its left, and follows and is followed by another boundary edge; and every
    point on the left of (or on) all of them, and no other, belongs to a triangle. *)
Record outline (st : dst RA) : Prop := {
  ol_nd : NoDup (dbnd st);
  ol_edge : forall i j, In (i, j) (dbnd st) -> i <> j /\ sole st i j;
  ol_left : forall i j v a b c, In (i, j) (dbnd st) -> used st v -> v <> i -> v <> j ->
    nth_error (dpts st) i = Some a -> nth_error (dpts st) j = Some b -> nth_error (dpts st) v = Some c -> 0 < orient a b c;
  ol_next : forall i j, In (i, j) (dbnd st) -> exists k, In (j, k) (dbnd st);
  ol_prev : forall i j, In (i, j) (dbnd st) -> exists k, In (k, i) (dbnd st);
  ol_hull : forall p, covered st p <->
    forall i j a b, In (i, j) (dbnd st) -> nth_error (dpts st) i = Some a -> nth_error (dpts st) j = Some b -> 0 <= orient a b p }.

(** p belongs to the convex hull of the points: to every half plane to which all the points belong. *)
Definition in_hull (ps : list (pt RA)) (p : pt RA) : Prop :=
  forall u v w, (forall r, In r ps -> u * px r + v * py r <= w) -> u * px p + v * py p <= w.
