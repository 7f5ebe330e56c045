(** GENERATED by tools/gen_props.py from PTriang.v: the property theorems only. *)
From Coq Require Import Reals ZArith Lra Lia Bool List Psatz Permutation Sorted.
From Verif Require Import Base Arith ArithR MPoint MLine MPoly MDelaunay Spec SpecDelaunay SpecPlanar PPoint PLine PTrig PDelaunay PDelAdd PDelGeo PPlane PFlip PFlipLoop PInsert.
Import ListNotations.
Local Open Scope R_scope.
#[local] Existing Instance RA.
From Verif Require Import PTriang.

(** C86: triangulating at least three points of which no three are (nearly) on one line ends, whatever the
    order in which Python visits its sets, with a consistent, planar Delaunay triangulation of the convex
    hull of the points: every triangle has corners among the points, no two triangles have a common inner
    point, the points they cover are exactly those of the convex hull, and the boundary edges are the
    edges of a convex polygon around it, each with all other vertices on its left.  If the set of the
    remaining indices is emptied in ascending order, every point is a vertex of some triangle. *)
Theorem C86_triangulate : forall (ord : list edge -> list edge) (pop : list nat -> list nat) (points : list (pt RA)),
  (forall es, incl es (ord es)) -> (forall l, Permutation (pop l) l) ->
  Forall stored points -> (3 <= length points)%nat -> general points ->
  exists n st, (forall fuel, (n <= fuel)%nat -> triangulate fuel ord pop points = Ok (Some st)) /\
    Permutation (dpts st) points /\ consistent st /\ planar st /\ delaunay st /\ outline st /\
    (forall p, covered st p <-> in_hull points p) /\
    ((forall l, pop l = l) -> forall v, (v < length points)%nat -> used st v).
Proof. exact triangulate_spec. Qed.
Print Assumptions C86_triangulate.

(** C86: adding a point to a consistent, planar triangulation of a convex polygon ends, whatever the order in
    which Python visits its sets, with a consistent, planar Delaunay triangulation of a convex polygon, which
    covers what was covered before and the new point.  The new point becomes a vertex if and only if it was
    not covered before; no other vertex is gained or lost. *)
Theorem C86_add : forall (ord : list edge -> list edge) (st : dst RA) ip q, (forall es, incl es (ord es)) ->
  consistent st -> Forall stored (dpts st) -> planar st -> outline st -> general (dpts st) -> ~ used st ip -> nth_error (dpts st) ip = Some q ->
  exists n st', (forall fuel, (n <= fuel)%nat -> addPoint fuel ord st ip = Ok (Some st')) /\
    consistent st' /\ planar st' /\ outline st' /\ delaunay st' /\ dpts st' = dpts st /\
    (forall p, covered st p \/ p = q -> covered st' p) /\
    (forall v, used st' v <-> used st v \/ (v = ip /\ ~ covered st q)).
Proof. exact add_spec. Qed.
Print Assumptions C86_add.

(** C86: the general position matters.  Adding a point on the line of a boundary edge makes a triangle without
    area of the two. *)
Theorem C86_flat : forall (st : dst RA) ip i j q a b, consistent st -> Forall stored (dpts st) ->
  (forall a b, In (a, b) (dbnd st) -> a <> b /\ a <> ip /\ b <> ip /\ exists k, has st k a /\ has st k b) ->
  In (i, j) (dbnd st) -> nth_error (dpts st) ip = Some q -> nth_error (dpts st) i = Some a -> nth_error (dpts st) j = Some b -> orient a b q = 0 ->
  exists st', addPoint_insert st ip = Ok st' /\ ~ planar st'.
Proof. exact insert_flat. Qed.
Print Assumptions C86_flat.

(** Four points in general position. *)
Example C86_example : Forall stored ex_pts /\ (3 <= length ex_pts)%nat /\ general ex_pts.
Proof. exact triangulate_example. Qed.

(** The triangle of the first three of them meets the hypotheses about adding the fourth. *)
Example C86_add_example : exists st, first_triangle ex_pts = Ok (Some st) /\ consistent st /\ Forall stored (dpts st) /\ planar st /\ outline st /\
  general (dpts st) /\ ~ used st 3 /\ nth_error (dpts st) 3 = Some (@mkpt RA 2 (-1)).
Proof. exact add_example. Qed.

(** The point (8,0) is on the line of the edge (0,0)-(4,0) of the first triangle. *)
Example C86_flat_example : let ps := [@mkpt RA 0 0; @mkpt RA 4 0; @mkpt RA 1 3; @mkpt RA 8 0] in
  exists st, first_triangle ps = Ok (Some st) /\ consistent st /\ Forall stored (dpts st) /\
  (forall a b, In (a, b) (dbnd st) -> a <> b /\ a <> 3%nat /\ b <> 3%nat /\ exists k, has st k a /\ has st k b) /\
  In (0, 1)%nat (dbnd st) /\ orient (@mkpt RA 0 0) (@mkpt RA 4 0) (@mkpt RA 8 0) = 0.
Proof. exact flat_example. Qed.
