(** Vocabulary for the statements about the choice of the rooms among the loops found. *)
From Coq Require Import Reals ZArith Bool List Permutation Arith.
From Verif Require Import Base Arith ArithR MPoint MLine MPoly MTri MGroup Spec.
Import ListNotations.

(** Some elements of the list, in their order. *)
Inductive sublist {X} : list X -> list X -> Prop :=
| sub_nil : sublist [] []
| sub_skip : forall x a b, sublist a b -> sublist a (x :: b)
| sub_take : forall x a b, sublist a b -> sublist (x :: a) (x :: b).

(** No two of the triangles are congruent or overlap, as far as Triangle.congruent and Triangle.overlap say. *)
Definition clash_free {A : Arith} (inside : list (seg A) -> pt A -> res bool) (ts : list (list (seg A))) : Prop :=
  ForallOrdPairs (fun t u => congruent t u = false /\ MTri.overlap (fun _ => inside) t u = Ok false) ts.

(** The segments are the edges of one cycle, in any order and with any directions. *)
Definition cycle_of (l : list (seg RA)) (vs : list (pt RA)) : Prop :=
  (3 <= length vs < 250)%nat /\ NoDup vs /\ separated vs /\
  exists cyc, Forall2 joins (cycle_edges vs) cyc /\ Permutation l cyc.

(** Loops made of segment objects of a heap, all of one class (plain LineSegments, or walls), which they may
    share; all end points are identical or different for ==, and no two loops are equal. *)
Definition loops (h : list (seg RA)) (polygons : list (list nat)) : Prop :=
  (exists k, forall s, In s h -> sc s = k) /\ separated (flat_map ij h) /\
  (forall p, In p polygons -> NoDup p /\ (forall k, In k p -> (k < length h)%nat) /\ exists vs, cycle_of (value h p) vs) /\
  (forall i j p q, i <> j -> nth_error polygons i = Some p -> nth_error polygons j = Some q ->
     poly_eqb (value h p) (value h q) = false).
(** All corners of b are inside (not inside) a, as is_internal_point says. *)
Definition all_points_are (io : bool) (inside : list (seg RA) -> pt RA -> res bool) (a b : list (seg RA)) : Prop :=
  forall p, In p (point_set b) -> inside a p = Ok io.

(** r is made of the segments of l, some reversed, and is a continuous closed polygon. *)
Definition room_of (r l : list (seg RA)) : Prop :=
  rearranged r l /\ iscontinuous r = true /\ isclosed r = Ok true.

(** The sum of the areas of triangles. *)
Definition total_area (ts : list (list (seg RA))) (a : R) : Prop :=
  exists as_, Forall2 (fun t x => triangle_area t = Ok x) ts as_ /\ a = fold_right Rplus 0%R as_.

(** Equally many segments, and every segment of a joins the same points as some segment of b. *)
Definition alike (a b : list (seg RA)) : Prop :=
  length a = length b /\ forall s, In s a -> exists t, In t b /\ (s = t \/ s = mkseg (sc t) (sj t) (si t)).

(** The sum of the areas of the loops with these numbers. *)
Definition area_sum (area_of : nat -> R) (c : list nat) : R := fold_right Rplus 0%R (map area_of c).
(** b has more loops than c, or equally many and at least their area. *)
Definition not_worse (area_of : nat -> R) (b c : list nat) : Prop :=
  (length c < length b)%nat \/ (length c = length b /\ (area_sum area_of c <= area_sum area_of b)%R).

(** Loop number k. *)
Definition loop (h : list (seg RA)) (polygons : list (list nat)) (k : nat) : list (seg RA) := value h (nth k polygons []).
(** The triangles and the areas of the loops, as triangle_mesh and area give them. *)
Definition triangulated (lib : mesh_lib RA) (inside : list (seg RA) -> pt RA -> res bool) (h : list (seg RA)) (polygons : list (list nat))
  (tris : nat -> list (list (seg RA))) (area_of : nat -> R) : Prop :=
  forall k, (k < length polygons)%nat ->
    triangle_mesh lib (fun _ _ => inside) (loop h polygons k) = Ok (tris k) /\
    area lib (fun _ _ => inside) (fun _ _ => inside) (loop h polygons k) = Ok (area_of k).
(** The area of loop x is, up to 1e-8, the area of the triangles of two or more of the n loops. *)
Definition sums_up (tris : nat -> list (list (seg RA))) (area_of : nat -> R) (n x : nat) : Prop :=
  exists c a, sublist c (seq 0 n) /\ (2 <= length c)%nat /\ total_area (flat_map tris c) a /\ (Rabs (area_of x - a) < 1 / 10^8)%R.
(** Loop x has the segments of another one. *)
Definition repeated (h : list (seg RA)) (polygons : list (list nat)) (x : nat) : Prop :=
  exists y, (y < length polygons)%nat /\ y <> x /\ alike (loop h polygons x) (loop h polygons y).

(** ** Concrete cases: loops that are triangles with integer corners *)

(** The triangulation library for a triangle. *)
Definition one_triangle (A : Arith) : mesh_lib A := fun vs _ => Some (vs, [(0, 1, 2)%nat]).
(** The answers of is_internal_point for these random numbers, five rounds. *)
Definition decided_by {A : Arith} (draws : nat -> num * num) (l : list (seg A)) (p : pt A) : res bool :=
  r <- poly_is_internal_point l p draws 5 ;; match r with Some b => Ok b | None => Err OtherException end.
(** Triangles, each made of its own segment objects. *)
Definition triangle_loops (A : Arith) (ts : list (list (Z * Z))) : list (seg A) := flat_map (fun t => cycle_poly (zpts A t)) ts.
Definition triangle_ids (ts : list (list (Z * Z))) : list (list nat) := map (fun k => [3 * k; 3 * k + 1; 3 * k + 2]%nat) (seq 0 (length ts)).
