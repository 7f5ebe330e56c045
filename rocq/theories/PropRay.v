(** GENERATED by tools/gen_props.py from PRay.v: the property theorems only. *)
From Coq Require Import ZArith Reals Lra Lia Bool List Permutation Arith Psatz Floats.SpecFloat.
From Flocq Require Import Core BinarySingleNaN Relative.
From Verif Require Import Base Arith ArithR ArithF MPoint MLine MPoly MHeap Spec SpecHeap SpecDouble SpecWhole SpecInside SpecRay PPoint PLine PTrig PCommon PShape PConvex POrder PHull PFlocq PHeap PDouble PExact PWhole PInside.
From Verif Require PWholeLoops.
Import ListNotations.
Local Open Scope R_scope.
#[local] Existing Instance RA.
#[local] Existing Instance P53.
#[local] Existing Instance P1024.
From Verif Require Import PRay.

(** C94: in binary64, for a closed polygon with whole coordinates up to 2000 whose edges are given in any
    order and direction, and a point with whole coordinates that is on no edge: if the rays of the first
    round clear the corners, is_internal_point answers as the even-odd rule, is_external_point the
    opposite, and is_on_boundary False. *)
Theorem C94_even_odd : forall L (vs : list (pt RA)) (l : list (seg (FA L))) (l' : list (seg RA)) (p : pt (FA L)) (p' : pt RA) (xm ym : R) (draws d2 : nat -> F * F) (fuel : nat),
  exact_segs l l' -> Forall whole_seg l' -> polygon_of vs l' -> NoDup l' -> vs <> [] ->
  exact_pt p p' -> lattice 2000 p' -> (forall s, In s l' -> ~ on_segment (si s) (sj s) p') ->
  (exists v, In v vs /\ px v = xm) -> (forall v, In v vs -> px v <= xm) -> (exists v, In v vs /\ py v = ym) -> (forall v, In v vs -> py v <= ym) ->
  (forall k, (k < 3)%nat -> drawn (draws k) /\ clears vs p' (target xm ym (draws k))) ->
  (forall k, (k < 3)%nat -> drawn (d2 k) /\ clears vs p' (target xm ym (d2 k))) ->
  poly_is_internal_point l p draws (S fuel) = Ok (Some (even_odd vs p')) /\
  poly_is_external_point l p draws (S fuel) = Ok (Some (negb (even_odd vs p'))) /\
  is_on_boundary l p draws d2 (S fuel) = Ok (Some false).
Proof. exact internal_double. Qed.
Print Assumptions C94_even_odd.

(** C94: an L-shaped polygon with its edges in mixed order and direction, a point inside it and a point
    in its notch, and the draws 1/2, 1/2: the hypotheses hold, and the answers are True and False. *)
Example C94_example : forall L : Libm,
  let ds := [(0, 0, 1000, 0); (1000, 1000, 1000, 0); (0, 500, 500, 500); (500, 500, 500, 1000); (500, 1000, 1000, 1000); (0, 0, 0, 500)]%Z in
  let l := map (fun '(a, b, c, d) => LineSegment (Point_new (nofZ a) (nofZ b)) (Point_new (nofZ c) (nofZ d)) : seg (FA L)) ds in
  let l' := map (fun '(a, b, c, d) => LineSegment (@mkpt RA (IZR a) (IZR b)) (@mkpt RA (IZR c) (IZR d))) ds in
  let vs := map (fun '(a, b) => @mkpt RA (IZR a) (IZR b)) [(0, 0); (1000, 0); (1000, 1000); (500, 1000); (500, 500); (0, 500)]%Z in
  let p := Point_new (A := FA L) (nofZ 700) (nofZ 700) in let q := Point_new (A := FA L) (nofZ 200) (nofZ 800) in
  let p' := @mkpt RA 700 700 in let q' := @mkpt RA 200 800 in let d := (Fdec 1 2, Fdec 1 2) in
  exact_segs l l' /\ Forall whole_seg l' /\ polygon_of vs l' /\ NoDup l' /\ exact_pt p p' /\ lattice 2000 p' /\ exact_pt q q' /\ lattice 2000 q' /\
  (forall s, In s l' -> ~ on_segment (si s) (sj s) p') /\ (forall s, In s l' -> ~ on_segment (si s) (sj s) q') /\
  drawn d /\ clears vs p' (target 1000 1000 d) /\ clears vs q' (target 1000 1000 d) /\
  poly_is_internal_point l p (fun _ => d) 1 = Ok (Some true) /\ poly_is_internal_point l q (fun _ => d) 1 = Ok (Some false).
Proof. exact ray_example. Qed.
