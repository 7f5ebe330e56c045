(** GENERATED by tools/gen_props.py from PRest.v: the property theorems only. *)
From Coq Require Import String.
From Coq Require Import ZArith Reals Lra Lia Bool List Permutation Sorted Arith Psatz.
From Verif Require Import Base Arith ArithR ArithF MPoint MLine MPoly MGroup MTri MVessel MRest Spec SpecHeap SpecGroup SpecDouble SpecWhole SpecRest PPoint PLine PMore PConvex POrder PWalk PCorner PGraph PWhole.
Import ListNotations.
Local Open Scope list_scope.
Local Open Scope R_scope.
#[local] Existing Instance RA.
From Verif Require Import PRest.

(** C93: refine_boundaries keeps the points and adds points on the sides only (up to 1e-8): along each side a
    chain of them leads from one end to the other in steps not longer (by more than 2e-8) than the shortest
    side. *)
Theorem C93_refine : forall (sides : list (seg RA)) (points : list (pt RA)), sides <> [] -> (forall c, In c sides -> stored (si c) /\ stored (sj c) /\ si c <> sj c) ->
  exists shortest new, In shortest sides /\ (forall c, In c sides -> norm shortest <= norm c) /\ refine_boundaries Int_part sides points = Ok (points ++ new) /\
    (forall p, In p new -> exists c t, In c sides /\ 0 <= t <= 1 /\ within (1 / 10 ^ 8) p (along (si c) (sj c) t)) /\
    (forall c, In c sides -> exists n P, P 0%nat = si c /\ P n = sj c /\ (forall k, (k <= n)%nat -> In (P k) new) /\ (forall k, (k < n)%nat -> pt_distance (P k) (P (S k)) <= norm shortest + 2 / 10 ^ 8)).
Proof. exact refine_spec. Qed.
Print Assumptions C93_refine.

(** C93: without sides ValueError is raised; with a side of length zero ZeroDivisionError. *)
Theorem C93_refine_refused : (forall points, refine_boundaries Int_part ([] : list (seg RA)) points = Err ValueError) /\
  (forall (sides : list (seg RA)) points c, In c sides -> si c = sj c -> refine_boundaries Int_part sides points = Err ZeroDivisionError).
Proof. exact refine_refused. Qed.
Print Assumptions C93_refine_refused.

(** C93: a side of length 2 and a side of length 5. *)
Example C93_refine_example : let sides := [LineSegment (@mkpt RA 0 0) (@mkpt RA 2 0); LineSegment (@mkpt RA 2 0) (@mkpt RA 5 4)] in
  sides <> [] /\ (forall c, In c sides -> stored (si c) /\ stored (sj c) /\ si c <> sj c).
Proof. exact refine_example. Qed.

(** C93, any arithmetic: as many of the drawn points as wanted are appended, in the order in which they are
    drawn, and only such that lie inside. *)
Theorem C93_internal_points : forall (A : Arith) (inside : pt A -> res bool) (draw : nat -> pt A) (fuel wanted : nat) (points r : list (pt A)),
  add_internal_points inside draw fuel 0 wanted points = Ok (Some r) ->
  exists ks, r = points ++ map draw ks /\ length ks = wanted /\ StronglySorted lt ks /\
    (forall k, In k ks -> inside (draw k) = Ok true) /\ (forall k last, In last ks -> (k < last)%nat -> ~ In k ks -> inside (draw k) = Ok false).
Proof. exact internal_points_spec. Qed.
Print Assumptions C93_internal_points.

(** C93, any arithmetic: if among the first n draws as many lie inside as are wanted, the loop ends; if no
    draw lies inside, it never does. *)
Theorem C93_internal_points_end : forall (A : Arith) (inside : pt A -> res bool) (draw : nat -> pt A),
  (forall k, exists b, inside (draw k) = Ok b) ->
  (forall ks wanted points, NoDup ks -> (wanted <= length ks)%nat -> (forall k, In k ks -> inside (draw k) = Ok true) ->
    exists fuel r, add_internal_points inside draw fuel 0 wanted points = Ok (Some r)) /\
  ((forall k, inside (draw k) = Ok false) -> forall fuel wanted points, (0 < wanted)%nat -> add_internal_points inside draw fuel 0 wanted points = Ok None).
Proof. exact internal_points_end. Qed.
Print Assumptions C93_internal_points_end.

Example C93_internal_example : let draw k := @mkpt RA (INR k) 0 in let inside := fun p : pt RA => Ok (if Rlt_dec 1 (px p) then true else false) in
  (forall k, exists b, inside (draw k) = Ok b) /\ NoDup [2; 3]%nat /\ (forall k, In k [2; 3]%nat -> inside (draw k) = Ok true) /\ inside (draw 0%nat) = Ok false.
Proof. exact internal_example. Qed.

(** C93: with whole coordinates, in binary64, intersectsConstraint is true of the edge between two points
    exactly if it crosses one of the sides; an index outside the points is an IndexError. *)
Theorem C93_constraint : forall L (points : list (pt (FA L))) (sides : list (seg (FA L))) (points' : list (pt RA)) (sides' : list (seg RA)) a b,
  Forall2 exact_pt points points' -> exact_segs sides sides' -> Forall (lattice 2000) points' -> Forall whole_seg sides' ->
  match nth_error points' a, nth_error points' b with
  | Some p, Some q => exists r, intersects_constraint points sides (a, b) = Ok r /\ (r = true <-> crosses_some sides' p q)
  | _, _ => intersects_constraint points sides (a, b) = Err IndexError
  end.
Proof. exact constraint_whole. Qed.
Print Assumptions C93_constraint.

(** C93, any arithmetic: if tell_relpos prints "disjunct", it prints none of "touch", "overlap", "congruent". *)
Theorem C93_relpos : forall (A : Arith) (inside : list (seg A) -> pt A -> res bool) s t out, tell_relpos inside s t = Ok out ->
  In "disjunct"%string out -> ~ In "touch"%string out /\ ~ In "overlap"%string out /\ ~ In "congruent"%string out.
Proof. exact relpos_spec. Qed.
Print Assumptions C93_relpos.

(** C93, a finding: ordered_copy returns no copy.  On the shuffled edges of a cycle it answers True and leaves
    the polygon as it was. *)
Theorem C93_ordered_copy_refuted : forall (vs : list (pt RA)) (given cyc : list (seg RA)),
  (3 <= length vs < 250)%nat -> NoDup vs -> separated vs -> Forall2 joins (cycle_edges vs) cyc -> Permutation given cyc -> ordered_copy given = Ok (true, given).
Proof. exact ordered_copy_spec. Qed.
Print Assumptions C93_ordered_copy_refuted.

(** C93: segments_from_points returns polygons, not segments: in order, those with a segment both of whose ends
    are among the points. *)
Theorem C93_from_points : forall (polygons : list (list (seg RA))) (points : list (pt RA)), separated (points ++ flat_map ij (concat polygons)) ->
  (forall P, In P (segments_from_points polygons points) <-> In P polygons /\ spanned_by points P) /\
  exists keep : list (seg RA) -> bool, segments_from_points polygons points = filter keep polygons.
Proof. exact from_points_spec. Qed.
Print Assumptions C93_from_points.

Example C93_from_points_example : let A := @mkpt RA 0 0 in let B := @mkpt RA 1 0 in let C := @mkpt RA 0 1 in let D := @mkpt RA 1 1 in
  let polygons := [[LineSegment A B; LineSegment B C; LineSegment C A]; [LineSegment C D; LineSegment D A; LineSegment A C]] in
  separated ([A; B] ++ flat_map ij (concat polygons)) /\ spanned_by [A; B] (nth 0 polygons []) /\ ~ spanned_by [A; B] (nth 1 polygons []).
Proof. exact from_points_example. Qed.

(** C93: node_degree of an end point is the number of segments that meet there; any other point is refused. *)
Theorem C93_degree : forall (l : list (seg RA)) (p : pt RA), separated (flat_map ij l) -> (forall s, In s l -> si s <> sj s) ->
  (In p (flat_map ij l) -> node_degree (adjacency l) p = Ok (incident l p)) /\ (~ In p (flat_map ij l) -> node_degree (adjacency l) p = Err AssertionError).
Proof. exact degree_query. Qed.
Print Assumptions C93_degree.

(** C93, any arithmetic: the polygon of a room consists of the Wall segments of the parts of its inner and
    outer cycles, each as often as its part occurs there. *)
Theorem C93_room : forall (A : Arith) (r : room A) (s : seg A),
  (In s (as_polygon r) <-> sc s = CWall /\ exists cyc part, (In cyc (rm_innere r) \/ In cyc (rm_aussere r)) /\ In part cyc /\ In s part) /\
  length (as_polygon r) = list_sum (map (fun part => length (wall_segments part)) (concat (rm_innere r) ++ concat (rm_aussere r))).
Proof. exact room_polygon. Qed.
Print Assumptions C93_room.

(** C93: characteristic_size is half of the smallest diameter; without diameters it is a ValueError. *)
Theorem C93_size : (forall d : list R, d <> [] -> exists m, In m d /\ (forall x, In x d -> m <= x) /\ characteristic_size (A := RA) d = Ok (m / 2)) /\
  characteristic_size (A := RA) [] = Err ValueError.
Proof. exact size_spec. Qed.
Print Assumptions C93_size.

(** C93: two triangles far from each other are told to be disjunct. *)
Example C93_relpos_example : forall L, let P a b := @mkpt (FA L) (FofZ a) (FofZ b) in let T a := [LineSegment (P a 0%Z) (P (a + 2) 0)%Z; LineSegment (P (a + 2) 0)%Z (P a 2%Z); LineSegment (P a 2%Z) (P a 0%Z)] in
  tell_relpos (fun _ _ => Ok false) (T 0%Z) (T 10%Z) = Ok ["disjunct"%string].
Proof. exact relpos_example. Qed.

(** C93: the edge from (0, 0) to (2, 2) crosses the side from (0, 2) to (2, 0). *)
Example C93_constraint_example : let sides := [LineSegment (@mkpt RA 0 2) (@mkpt RA 2 0)] in
  Forall (lattice 2000) [@mkpt RA 0 0; @mkpt RA 2 2] /\ Forall whole_seg sides /\ crosses_some sides (@mkpt RA 0 0) (@mkpt RA 2 2).
Proof. exact constraint_example. Qed.

(** C93: two sides of a triangle and a third segment from their common corner. *)
Example C93_degree_example : let l := [LineSegment (@mkpt RA 0 0) (@mkpt RA 1 0); LineSegment (@mkpt RA 0 0) (@mkpt RA 0 1); LineSegment (@mkpt RA 1 1) (@mkpt RA 0 0)] in
  separated (flat_map ij l) /\ (forall s, In s l -> si s <> sj s) /\ incident l (@mkpt RA 0 0) = 3%nat.
Proof. exact degree_example. Qed.
