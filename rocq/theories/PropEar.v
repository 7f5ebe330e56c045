(** GENERATED by tools/gen_props.py from PEar.v: the property theorems only. *)
From Coq Require Import Reals ZArith Lra Lia Bool List Psatz Permutation.
From Verif Require Import Base Arith ArithR ArithF MPoint MLine MPoly MTri Spec SpecInside SpecGroup SpecTri
  PPoint PLine PShape PPoly PCommon PConvex POrder PMore PInside PTri PSplit PCorner PCollinear.
Import ListNotations.
Local Open Scope R_scope.
#[local] Existing Instance RA.
From Verif Require Import PEar.

(** C67: of a closed cycle, collinear_points reports as midpoints the flat corners where a segment starts
    (all flat corners if the segments run one way round), as sides the neighbours of midpoints that are
    not midpoints themselves, and it counts exactly the sides. *)
Theorem C67_collinear_points : forall (vs : list (pt RA)) (l : list (seg RA)),
  polygon_of vs l -> (3 <= length vs)%nat -> NoDup vs -> separated vs ->
  exists c, collinear_points l = Ok c /\
    (forall p, In p (c_mids c) <-> In p (map si l) /\ exists a b, consecutive vs a p b /\ flat a p b) /\
    (directed_cycle vs l -> forall p, In p (c_mids c) <-> exists a b, consecutive vs a p b /\ flat a p b) /\
    (forall q, In q (c_sides c) <-> ~ In q (c_mids c) /\ exists m, In m (c_mids c) /\ adjacent vs m q) /\
    NoDup (map fst (c_count c)) /\ (forall q, In q (map fst (c_count c)) <-> In q (c_sides c)).
Proof. exact collinear_spec. Qed.
Print Assumptions C67_collinear_points.
