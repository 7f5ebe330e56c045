(** Vocabulary for collinear corners and triangulations. *)
From Coq Require Import Reals ZArith List Permutation.
From Verif Require Import Base Arith ArithR MPoint MLine MPoly Spec SpecInside.
Import ListNotations.
Local Open Scope R_scope.

(** The same cycle, read from another corner on. *)
Definition rotation {X} (l l' : list X) : Prop := exists u w, l = u ++ w /\ l' = w ++ u.

(** a, p, b are consecutive corners of the closed cycle vs (of distinct corners). *)
Definition consecutive {X} (vs : list X) (a p b : X) : Prop := In (a, p) (cycle_edges vs) /\ In (p, b) (cycle_edges vs).
(** p and q are joined by an edge of the cycle. *)
Definition adjacent {X} (vs : list X) (p q : X) : Prop := In (p, q) (cycle_edges vs) \/ In (q, p) (cycle_edges vs).

(** The triangle a, p, b has (twice) an area below the tolerance 1e-8. *)
Definition flat (a p b : pt RA) : Prop := Rabs (orient a p b) < / 10^8.

(** The corners cs are cut off one after the other from the cycle vs, each with its two neighbours at
    that moment, and vs' is left.  Each cut a, p, b from the cycle us of that moment satisfies P. *)
Inductive clipped {X} (P : list X -> X -> X -> X -> Prop) : list X -> list (X * X * X) -> list X -> Prop :=
| clip_end : forall vs, clipped P vs [] vs
| clip_corner : forall vs a p b r cs vs', rotation vs (a :: p :: b :: r) -> P vs a p b -> clipped P (a :: b :: r) cs vs' ->
    clipped P vs ((a, p, b) :: cs) vs'.

(** Every three corners, in the order of the cycle, turn left (or do not turn). *)
Definition convex_ccw (vs : list (pt RA)) : Prop :=
  forall i j k a b c, (i < j < k)%nat -> nth_error vs i = Some a -> nth_error vs j = Some b -> nth_error vs k = Some c ->
  0 <= orient a b c.

(** Both coordinates are integers. *)
Definition integral (p : pt RA) : Prop := exists a b : Z, px p = IZR a /\ py p = IZR b.

(** The mean of three points, as stored. *)
Definition mean3 (a b c : pt RA) : pt RA := @Point_new RA ((px a + px b + px c) / 3) ((py a + py b + py c) / 3).
(** The ear a, p, b of the cycle us is acceptable: not flat; the mean of its corners is inside the
    polygon, no other corner is inside the triangle, according to the answers [inside]; and no segments
    of the polygon and the triangle cross. *)
Definition good_ear (inside : nat -> list (seg RA) -> pt RA -> res bool) (us : list (pt RA)) (a p b : pt RA) : Prop :=
  / 10^8 <= Rabs (orient a p b) /\
  exists c t, polygon_of us c /\ polygon_of [a; p; b] t /\
    inside 0%nat c (mean3 a p b) = Ok true /\
    (forall q, In q us -> ~ In q [a; p; b] -> exists n, inside (S n) t q = Ok false) /\
    ForallOrdPairs (fun x y => intersection_on_segment x y = Ok false) (c ++ t).

(** Three numbers of points in the list ap, and the points. *)
Definition numbered (ap : list (pt RA)) (ijk : nat * nat * nat) (abc : pt RA * pt RA * pt RA) : Prop :=
  let '(i, j, k) := ijk in let '(a, b, c) := abc in
  nth_error ap i = Some a /\ nth_error ap j = Some b /\ nth_error ap k = Some c.
(** The sum of the areas of those triangles whose flag is set. *)
Definition flagged_area (flags : list bool) (tris : list (pt RA * pt RA * pt RA)) : R :=
  fold_right Rplus 0 (map (fun '(f, (a, b, c)) => if f : bool then Rabs (orient a b c) / 2 else 0) (combine flags tris)).
(** The coordinates of a point. *)
Definition xy (p : pt RA) : R * R := (px p, py p).
(** The segments of l, with their ends given by their numbers in the list ap. *)
Definition asked (ap : list (pt RA)) (l : list (seg RA)) (ij : list (nat * nat)) : Prop :=
  Forall2 (fun s '(i, j) => nth_error ap i = Some (si s) /\ nth_error ap j = Some (sj s)) l ij.
(** The decision f about the triangle a, b, c of the polygon l with the corners vs follows the answers
    [inside]: accepted if the mean of its corners is inside the polygon and no other corner of the polygon
    is inside the triangle. *)
Definition decided (inside : nat -> list (seg RA) -> pt RA -> res bool) (vs : list (pt RA)) (l : list (seg RA)) (f : bool) (a b c : pt RA) : Prop :=
  exists t, polygon_of [a; b; c] t /\
    (f = true -> inside 0%nat l (mean3 a b c) = Ok true /\ forall q, In q vs -> ~ In q [a; b; c] -> exists n, inside (S n) t q = Ok false) /\
    (f = false -> inside 0%nat l (mean3 a b c) = Ok false \/ exists q n, In q vs /\ ~ In q [a; b; c] /\ inside (S n) t q = Ok true).
(** The same three corners. *)
Definition same_corners (t u : pt RA * pt RA * pt RA) : Prop :=
  let '(a, b, c) := t in let '(x, y, z) := u in Permutation [a; b; c] [x; y; z].

(** s is a triangle with the corners a, b, c: its segments are the sides, the corners are integers of
    absolute value at most 2000 and not on a line. *)
Definition grid_triangle (s : list (seg RA)) (a b c : pt RA) : Prop :=
  polygon_of [a; b; c] s /\ Forall (fun x => sc x = CLineSegment) s /\ Forall (lattice 2000) [a; b; c] /\ orient a b c <> 0.
(** The segments x and y have exactly the point q in common. *)
Definition meet_at (x y : seg RA) (q : pt RA) : Prop := forall q', shared x y q' <-> q' = q.
(** The segments x and y have more than one point in common. *)
Definition share_length (x y : seg RA) : Prop := exists q q', q <> q' /\ shared x y q /\ shared x y q'.
(** Some sides of s and t meet in one point that (rounded to 8 decimals) differs from every corner in vs
    by 1e-5 or more in a coordinate. *)
Definition cross_away (s t : list (seg RA)) (vs : list (pt RA)) : Prop :=
  exists x y q, In x s /\ In y t /\ meet_at x y q /\
    forall v, In v vs -> / 10^5 <= Rabs (Rround8 (px q) - px v) \/ / 10^5 <= Rabs (Rround8 (py q) - py v).
(** Exactly one side of s has more than one point in common with a side of t, and with one side only. *)
Definition share_once (s t : list (seg RA)) : Prop :=
  exists x y, In x s /\ In y t /\ share_length x y /\
    forall x' y', In x' s -> In y' t -> share_length x' y' -> x' = x /\ y' = y.

(** The length of the path through the points. *)
Fixpoint path_length (ps : list (pt RA)) : R :=
  match ps with
  | p :: (q :: _) as r => dist p q + path_length r
  | _ => 0
  end.
(** ps visits all the points, starting at p and going on in the order of the distance from p. *)
Definition by_distance (points : list (pt RA)) (p : pt RA) (ps : list (pt RA)) : Prop :=
  Permutation ps points /\ nth_error ps 0 = Some p /\
  forall i j a b, (i <= j)%nat -> nth_error ps i = Some a -> nth_error ps j = Some b -> dist a p <= dist b p.
