(** GENERATED by tools/gen_props.py from PTri.v: the property theorems only. *)
From Coq Require Import Reals ZArith Lra Lia Bool List Psatz Permutation.
From Verif Require Import Base Arith ArithR ArithF MPoint MLine MPoly Spec PPoint PLine PTrig PShape PConvex.
Import ListNotations.
Local Open Scope R_scope.
#[local] Existing Instance RA.
From Verif Require Import PTri.

(** C38: for three segments joining a, b, c pairwise, in any directions, the area is half the
    absolute value of the cross product (no exception). *)
Theorem C38_heron : forall (a b c : pt RA) (l : list (seg RA)), Forall2 joins (cycle_edges [a; b; c]) l ->
  triangle_area l = Ok (Rabs (orient a b c) / 2).
Proof. exact heron_area. Qed.
Print Assumptions C38_heron.

(** C38: positive exactly for non-collinear vertices, and invariant under translation, mirroring,
    vertex order and segment direction. *)
Theorem C38_area_laws : forall (a b c : pt RA) (l : list (seg RA)) (u v : R) (A : R),
  Forall2 joins (cycle_edges [a; b; c]) l -> triangle_area l = Ok A ->
  0 <= A /\ (A = 0 <-> orient a b c = 0) /\
  (forall l', Forall2 joins (cycle_edges [translate u v a; translate u v b; translate u v c]) l' -> triangle_area l' = Ok A) /\
  (forall l', Forall2 joins (cycle_edges [b; a; c]) l' -> triangle_area l' = Ok A) /\
  (forall l', Forall2 joins (cycle_edges [b; c; a]) l' -> triangle_area l' = Ok A) /\
  (forall l', Forall2 joins (cycle_edges (map (fun p => @mkpt RA (2 * u - px p) (py p)) [a; b; c])) l' -> triangle_area l' = Ok A).
Proof. exact area_laws. Qed.
Print Assumptions C38_area_laws.

(** C39: the three angles of a triangle with vertices p, q, r that differ by more than the tolerance,
    its segments in any directions: each lies in [0, 180], and they sum to 180. *)
Theorem C39_angles : forall (p q r : pt RA) (l : list (seg RA)),
  pt_eqb p q = false -> pt_eqb q r = false -> pt_eqb p r = false ->
  Forall2 joins (cycle_edges [p; q; r]) l ->
  exists x y z : R, triangle_angles l = Ok [x; y; z] /\
    0 <= x <= 180 /\ 0 <= y <= 180 /\ 0 <= z <= 180 /\ x + y + z = 180 /\
    dist q p * dist q r * cos (x * PI / 180) = (px p - px q) * (px r - px q) + (py p - py q) * (py r - py q) /\
    dist p q * dist p r * cos (y * PI / 180) = (px q - px p) * (px r - px p) + (py q - py p) * (py r - py p) /\
    dist r p * dist r q * cos (z * PI / 180) = (px p - px r) * (px q - px r) + (py p - py r) * (py q - py r).
Proof. exact triangle_angles_spec. Qed.
Print Assumptions C39_angles.

(** C39: quality is non-negative and zero exactly for equilateral triangles. *)
Theorem C39_quality : forall (p q r : pt RA) (l : list (seg RA)),
  pt_eqb p q = false -> pt_eqb q r = false -> pt_eqb p r = false ->
  Forall2 joins (cycle_edges [p; q; r]) l ->
  exists x : R, triangle_quality l = Ok x /\ 0 <= x /\
    (x = 0 <-> dist p q = dist q r /\ dist q r = dist r p).
Proof. exact quality_spec. Qed.
Print Assumptions C39_quality.

Example C39_example : let p := @mkpt RA 0 0 in let q := @mkpt RA 3 0 in let r := @mkpt RA 0 4 in
  pt_eqb p q = false /\ pt_eqb q r = false /\ pt_eqb p r = false /\
  Forall2 joins (cycle_edges [p; q; r]) [LineSegment q p; LineSegment q r; LineSegment p r].
Proof. exact angles_example. Qed.

(** C58: determinant 1, orthogonal, identity at 0, additive composition. *)
Theorem C58_rotationsmatrix : forall f g : R,
  let mul := fun m n : (R * R) * (R * R) =>
    ((fst (fst m) * fst (fst n) + snd (fst m) * fst (snd n), fst (fst m) * snd (fst n) + snd (fst m) * snd (snd n)),
     (fst (snd m) * fst (fst n) + snd (snd m) * fst (snd n), fst (snd m) * snd (fst n) + snd (snd m) * snd (snd n))) in
  let m := rotationsmatrix f in
  fst (fst m) * snd (snd m) - snd (fst m) * fst (snd m) = 1 /\
  mul m ((fst (fst m), fst (snd m)), (snd (fst m), snd (snd m))) = ((1, 0), (0, 1)) /\
  rotationsmatrix 0 = ((1, 0), (0, 1)) /\
  mul (rotationsmatrix f) (rotationsmatrix g) = rotationsmatrix (f + g) /\
  (forall x y, x * fst (fst m) + y * fst (snd m) = x * cos (f * PI / 180) - y * sin (f * PI / 180) /\
               x * snd (fst m) + y * snd (snd m) = x * sin (f * PI / 180) + y * cos (f * PI / 180)).
Proof. exact rotationsmatrix_spec. Qed.
Print Assumptions C58_rotationsmatrix.
