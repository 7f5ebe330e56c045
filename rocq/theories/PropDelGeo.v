(** GENERATED by tools/gen_props.py from PDelGeo.v: the property theorems only. *)
From Coq Require Import Reals ZArith Lra Lia Bool List Psatz.
From Verif Require Import Base Arith ArithR MPoint MLine MPoly MDelaunay Spec SpecDelaunay PPoint PLine PTrig PDelaunay.
Import ListNotations.
Local Open Scope R_scope.
#[local] Existing Instance RA.
From Verif Require Import PDelGeo.

(** C45: makeCounterClockwise keeps the vertices; the triangle that results has an area of at least -1e-8
    (twice the signed area, as getArea computes it); it swaps the last two vertices if and only if the
    area was below. *)
Theorem C45_ccw : forall (ps : list (pt RA)) a b c t, makeCounterClockwise ps (a, b, c) = Ok t ->
  (t = (a, b, c) \/ t = (a, c, b)) /\
  (exists ar, getArea ps (fst (fst t)) (snd (fst t)) (snd t) = Ok ar /\ - (1 / 10 ^ 8) <= ar) /\
  (forall ar, getArea ps a b c = Ok ar -> - (1 / 10 ^ 8) <= ar -> t = (a, b, c)).
Proof. exact ccw_spec. Qed.
Print Assumptions C45_ccw.

(** C45: an edge with the end points a, b and two triangles with the other vertices o1, o2 is flipped if
    and only if the angles at o1 and o2 add up to more than 180 degrees, by the factor 1 + 1e-8. *)
Theorem C45_flip_iff : forall (st : dst RA) i j k1 k2 u w a b o1 o2 al1 al2, consistent st -> Forall stored (dpts st) ->
  In ((i, j), [k1; k2]) (de2t st) -> has st k1 u -> u <> i -> u <> j -> has st k2 w -> w <> i -> w <> j ->
  nth_error (dpts st) i = Some a -> nth_error (dpts st) j = Some b -> nth_error (dpts st) u = Some o1 -> nth_error (dpts st) w = Some o2 ->
  o1 <> a -> o1 <> b -> o2 <> a -> o2 <> b -> angle_at o1 a b al1 -> angle_at o2 a b al2 ->
  exists st' r, flipOneEdge st (i, j) = Ok (st', r) /\ (r <> [] <-> PI * (1 + 1 / 10 ^ 8) < al1 + al2) /\ (r = [] -> st' = st).
Proof. exact flip_iff. Qed.
Print Assumptions C45_flip_iff.

(** C45: let o1 and o2 be on opposite sides of the edge a b, which is flipped.  Then o2 was inside the
    circumcircle of a, b, o1, and after the flip b is outside that of the new triangle o1, a, o2; the new
    triangles have the orientation of the old ones (the quadrilateral was convex) and together the same
    area; and the new edge is not flipped back. *)
Theorem C45_flip_delaunay : forall (st st' : dst RA) i j k1 k2 u w a b o1 o2 r, consistent st -> Forall stored (dpts st) ->
  In ((i, j), [k1; k2]) (de2t st) -> has st k1 u -> u <> i -> u <> j -> has st k2 w -> w <> i -> w <> j ->
  nth_error (dpts st) i = Some a -> nth_error (dpts st) j = Some b -> nth_error (dpts st) u = Some o1 -> nth_error (dpts st) w = Some o2 ->
  orient a b o1 * orient a b o2 < 0 -> flipOneEdge st (i, j) = Ok (st', r) -> r <> [] ->
  nth_error (dtris st') k1 = Some (u, i, w) /\ nth_error (dtris st') k2 = Some (u, w, j) /\
  (forall c, dist c a = dist c b -> dist c a = dist c o1 -> dist c o2 < dist c a) /\
  (forall c, dist c o1 = dist c a -> dist c o1 = dist c o2 -> dist c o1 < dist c b) /\
  0 < orient o1 a o2 * orient a b o1 /\ 0 < orient o1 o2 b * orient a b o1 /\
  Rabs (orient o1 a o2) + Rabs (orient o1 o2 b) = Rabs (orient a b o1) + Rabs (orient a b o2) /\
  flipOneEdge st' (Nat.min u w, Nat.max u w) = Ok (st', []).
Proof. exact flip_delaunay. Qed.
Print Assumptions C45_flip_delaunay.

(** C45: the area computed for three stored points is twice the signed area of their triangle, and an edge
    is visible from a point if and only if this is less than 1e-8 for the point and the ends of the edge
    (the point is right of the directed edge, or on its line). *)
Theorem C45_visible : forall (ps : list (pt RA)) i j k p a b, nth_error ps k = Some p -> nth_error ps i = Some a -> nth_error ps j = Some b ->
  stored p -> stored a -> stored b ->
  getArea ps k i j = Ok (orient p a b) /\
  isEdgeVisible ps k (i, j) = Ok (if Rlt_dec (orient p a b) (1 / 10 ^ 8) then true else false).
Proof. exact visible_spec. Qed.
Print Assumptions C45_visible.
