(** GENERATED by tools/gen_props.py from PInConvex.v: the property theorems only. *)
From Coq Require Import Reals ZArith Lra Lia Bool List Psatz Permutation.
From Verif Require Import Base Arith ArithR ArithF MPoint MLine MPoly Spec SpecInside PPoint PLine PShape PPoly PCommon PConvex PInside.
Import ListNotations.
Local Open Scope R_scope.
#[local] Existing Instance RA.
From Verif Require Import PInConvex.

(** The even-odd rule of the specification is the obvious notion for a convex polygon with
    counterclockwise vertices: inside is strictly to the left of every edge. *)
Theorem C35_even_odd_convex : forall (vs : list (pt RA)) (p : pt RA), vs <> [] -> NoDup vs ->
  (forall a b v, In (a, b) (cycle_edges vs) -> In v vs -> v <> a -> v <> b -> 0 < orient a b v) ->
  ((forall a b, In (a, b) (cycle_edges vs) -> 0 < orient a b p) -> even_odd vs p = true) /\
  ((exists a b, In (a, b) (cycle_edges vs) /\ orient a b p < 0) -> even_odd vs p = false).
Proof. exact even_odd_convex. Qed.
Print Assumptions C35_even_odd_convex.

(** C35: a point that is == one of the vertices is never internal, whatever the draws. *)
Theorem C35_vertex : forall (l : list (seg RA)) (s : seg RA) (p : pt RA) (draws : nat -> R * R) (fuel : nat),
  In s l -> pt_eqb (si s) p = true \/ pt_eqb (sj s) p = true ->
  poly_is_internal_point l p draws fuel = Ok (Some false).
Proof. exact vertex_not_internal. Qed.
Print Assumptions C35_vertex.

(** C35: the order of the segments does not matter. *)
Theorem C35_permutation : forall (l l' : list (seg RA)) (p : pt RA) (draws : nat -> R * R) (fuel : nat),
  Permutation l l' -> poly_is_internal_point l p draws fuel = poly_is_internal_point l' p draws fuel.
Proof. exact internal_permutation. Qed.
Print Assumptions C35_permutation.

(** The hypotheses of C35_even_odd can be met: a polygon that is not convex, a point inside and one outside. *)
Example C35_example :
  even_odd ell (@mkpt RA (3/2) 3) = true /\ even_odd ell (@mkpt RA (1/2) (5/2)) = false /\
  poly_is_internal_point (cycle_poly ell) (@mkpt RA (3/2) 3) ell_draw 1 = Ok (Some true) /\
  poly_is_internal_point (rev (cycle_poly ell)) (@mkpt RA (1/2) (5/2)) ell_draw 1 = Ok (Some false).
Proof. exact internal_example. Qed.

(** C35, finding: for a polygon on the negative side of the axes the rays end inside it, and an inner
    point is reported as not internal, whatever the draws. *)
Theorem C35_negative_refuted : exists (vs : list (pt RA)) (p : pt RA),
  even_odd vs p = true /\
  forall (draws : nat -> R * R) (fuel : nat),
    (forall k, / 10^6 <= fst (draws k) <= 1 /\ / 10^6 <= snd (draws k) <= 1) ->
    poly_is_internal_point (cycle_poly vs) p draws (S fuel) = Ok (Some false).
Proof. exact negative_refuted. Qed.
Print Assumptions C35_negative_refuted.
