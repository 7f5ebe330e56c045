(** GENERATED by tools/gen_props.py from PExRel.v: the property theorems only. *)
From Coq Require Import Reals ZArith Lra Lia Bool List Psatz Permutation.
From Verif Require Import Base Arith ArithR ArithF MPoint MLine MPoly MTri Spec SpecInside SpecTri
  PPoint PShape PCommon PInside PExamples POrder PMore PCorner PCollinear PEar PEar2 PArea PRel.
Import ListNotations.
Local Open Scope R_scope.
#[local] Existing Instance RA.
From Verif Require Import PExRel.

(** C71 (finding): the triangle (1,1), (5,1), (1,5) lies in the triangle (1,1), (9,1), (1,9) and the two
    share parts of two sides; if the corners of the one, which are on the boundary or outside of the other, are reported not inside, the
    triangles are reported disjunct (and not touching). *)
Theorem C71_nested_refuted :
  let s := tri3 (zp 1 1) (zp 9 1) (zp 1 9) in let t := tri3 (zp 1 1) (zp 5 1) (zp 1 5) in
  grid_triangle s (zp 1 1) (zp 9 1) (zp 1 9) /\ grid_triangle t (zp 1 1) (zp 5 1) (zp 1 5) /\
  on_segment (zp 1 1) (zp 9 1) (zp 5 1) /\ on_segment (zp 1 9) (zp 1 1) (zp 1 5) /\
  tri_touch s t = Ok false /\
  forall io1 io2 io3,
    (forall n q, In q [zp 1 1; zp 5 1; zp 1 5] -> io1 n s q = Ok false /\ io2 n s q = Ok false /\ io3 n s q = Ok false) ->
    (forall n q, In q [zp 1 1; zp 9 1; zp 1 9] -> io1 n t q = Ok false /\ io2 n t q = Ok false /\ io3 n t q = Ok false) ->
    tri_disjunct io1 io2 io3 s t = Ok true.
Proof. exact nested_disjunct. Qed.
Print Assumptions C71_nested_refuted.

(** C71 (finding), binary64: the program's own test reports those corners not inside (with these draws). *)
Theorem C71_nested_inside_refuted : forall L : Libm,
  let draws := fun k : nat => (@ndiv (FA L) (nofZ 3) (nofZ 10), @ndiv (FA L) (nofZ (2 + Z.of_nat k)) (nofZ 10)) in
  let tri := fun zs => map (fun e : pt (FA L) * pt (FA L) => LineSegment (fst e) (snd e)) (cycle_edges (zpts (FA L) zs)) in
  map (fun p => poly_is_internal_point (tri [(1, 1); (9, 1); (1, 9)]%Z) p draws 5) (zpts (FA L) [(1, 1); (5, 1); (1, 5)]%Z) = [Ok (Some false); Ok (Some false); Ok (Some false)] /\
  map (fun p => poly_is_internal_point (tri [(1, 1); (5, 1); (1, 5)]%Z) p draws 5) (zpts (FA L) [(1, 1); (9, 1); (1, 9)]%Z) = [Ok (Some false); Ok (Some false); Ok (Some false)].
Proof. exact nested_inside. Qed.
Print Assumptions C71_nested_inside_refuted.
