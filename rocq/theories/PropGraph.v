(** GENERATED by tools/gen_props.py from PGraph.v: the property theorems only. *)
From Coq Require Import Reals ZArith Lra Lia Bool List Permutation Arith Psatz.
From Verif Require Import Base Arith ArithR ArithF MPoint MLine MPoly MGroup Spec SpecGroup SpecInside PPoint PLine PMore PConvex POrder PWalk.
Import ListNotations.
#[local] Existing Instance RA.
From Verif Require Import PGraph.

(** C47: the number of neighbours of an end point in the adjacency list is the number of segments that
    meet there. *)
Theorem C47_degree : forall (l : list (seg RA)) (p : pt RA) (ns : list (pt RA)),
  separated (flat_map ij l) -> (forall s, In s l -> si s <> sj s) ->
  In (p, ns) (adjacency l) -> In p (flat_map ij l) /\ length ns = incident l p.
Proof. exact degree_spec. Qed.
Print Assumptions C47_degree.

(** C47: the degree rules hold exactly when two, three or at least ten segments meet in every point, at
    least three points have two segments and the number of points with three segments is even. *)
Theorem C47_degrees : forall (l : list (seg RA)) (vs : list (pt RA)),
  separated (flat_map ij l) -> (forall s, In s l -> si s <> sj s) -> nodes l vs ->
  (degrees_ok l = true <->
   (forall p, In p vs -> incident l p = 2%nat \/ incident l p = 3%nat \/ (10 <= incident l p)%nat) /\
   (3 <= of_degree l vs 2)%nat /\ Nat.Even (of_degree l vs 3)).
Proof. exact degrees_ok_spec. Qed.
Print Assumptions C47_degrees.

(** C47 (handshake lemma): the numbers of segments that meet in the points add up to twice the number of
    segments. *)
Theorem C47_handshake : forall (l : list (seg RA)) (vs : list (pt RA)),
  (forall s, In s l -> si s <> sj s) -> nodes l vs -> list_sum (map (incident l) vs) = (2 * length l)%nat.
Proof. exact handshake. Qed.
Print Assumptions C47_handshake.

(** C47: as long as fewer than ten segments meet in every point, the test for an odd number of branches
    decides nothing: the rules hold exactly when two or three segments meet everywhere and at least three
    points have two. *)
Theorem C47_parity : forall (l : list (seg RA)) (vs : list (pt RA)),
  separated (flat_map ij l) -> (forall s, In s l -> si s <> sj s) -> nodes l vs ->
  (forall p, In p vs -> (incident l p < 10)%nat) ->
  (degrees_ok l = true <->
   (forall p, In p vs -> incident l p = 2%nat \/ incident l p = 3%nat) /\ (3 <= of_degree l vs 2)%nat).
Proof. exact parity. Qed.
Print Assumptions C47_parity.

(** C47: the group is valid exactly when the degree rules hold for all segments of its polygons together
    and every polygon of the group is valid. *)
Theorem C47_group : forall (polygons : list (list (seg RA))),
  group_isvalid polygons (concat polygons) = Ok true <->
  degrees_ok (concat polygons) = true /\ forall p, In p polygons -> poly_isvalid p = Ok true.
Proof. exact group_valid_spec. Qed.
Print Assumptions C47_group.

(** C47: the sides of every simple closed polygon line with at least three vertices satisfy the degree
    rules, in whatever order and direction they are given. *)
Theorem C47_cycle : forall (vs : list (pt RA)) (l : list (seg RA)),
  NoDup vs -> (3 <= length vs)%nat -> separated vs -> polygon_of vs l -> degrees_ok l = true.
Proof. exact degrees_cycle. Qed.
Print Assumptions C47_cycle.

(** C47, finding (binary64): a group with a point where ten segments meet is valid, although at most
    three are allowed and four to nine are rejected. *)
Theorem C47_many_refuted : forall L : Libm,
  let s a b c d := [LineSegment (Point_new (nofZ a) (nofZ b)) (Point_new (nofZ c) (nofZ d))] : list (seg (FA L)) in
  let hub := Point_new (nofZ 0%Z) (nofZ 0%Z) : pt (FA L) in
  let spokes := map (fun '(x, y) => s 0%Z 0%Z x y) [(4,0);(4,2);(4,4);(2,4);(0,4);(-4,4);(-4,0);(-4,-4);(0,-4);(4,-4)]%Z in
  let rim := [s 4 0 4 2; s 4 2 4 4; s 4 4 2 4; s 2 4 0 4; s 0 4 (-4) 4; s (-4) 4 (-4) 2; s (-4) 2 (-4) 0; s (-4) 0 (-4) (-2);
    s (-4) (-2) (-4) (-4); s (-4) (-4) (-2) (-4); s (-2) (-4) 0 (-4); s 0 (-4) 4 (-4); s 4 (-4) 4 0]%Z in
  let g := spokes ++ rim in
  group_isvalid g (concat g) = Ok true /\ length (neighbour (concat g) hub) = 10%nat.
Proof. exact hub_valid. Qed.
Print Assumptions C47_many_refuted.

(** C47: the hypotheses hold for a concrete triangle with partly reversed edges. *)
Example C47_example : let vs := [@mkpt RA 3 1; @mkpt RA 9 2; @mkpt RA 4 7]%R in
  let l := [LineSegment (@mkpt RA 3 1) (@mkpt RA 9 2); LineSegment (@mkpt RA 4 7) (@mkpt RA 9 2); LineSegment (@mkpt RA 4 7) (@mkpt RA 3 1)]%R in
  NoDup vs /\ (3 <= length vs)%nat /\ separated vs /\ polygon_of vs l /\ degrees_ok l = true.
Proof. exact cycle_example. Qed.
