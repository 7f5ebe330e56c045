(** GENERATED by tools/gen_props.py from PEar2.v: the property theorems only. *)
From Coq Require Import Reals ZArith Lra Lia Bool List Psatz Permutation.
From Verif Require Import Base Arith ArithR ArithF MPoint MLine MPoly MTri Spec SpecInside SpecGroup SpecTri
  PPoint PLine PShape PPoly PCommon PConvex POrder PMore PInside PTri PSplit PCorner PCollinear PEar.
Import ListNotations.
Local Open Scope R_scope.
#[local] Existing Instance RA.
From Verif Require Import PEar2.

(** C69: whatever order sets are listed in, whatever is drawn at random and whatever the inside test
    answers (as long as it answers): ear clipping of a closed cycle returns.  The triangles it reports are
    corners cut off one after the other, each an acceptable ear of the polygon of that moment.  It reports
    success exactly when two corners are left, that is, with n - 2 triangles. *)
Theorem C69_ear_clipping : forall (o : ear_oracle RA) (vs : list (pt RA)) (l : list (seg RA)),
  (forall k s, Permutation (eo_list o k s) s) ->
  polygon_of vs l -> (3 <= length vs)%nat -> NoDup vs -> separated vs ->
  ((forall k n q x, exists b, eo_inside o k n q x = Ok b) -> exists b ts, ear_clipping o l = Ok (b, ts)) /\
  (forall b ts, ear_clipping o l = Ok (b, ts) ->
    exists cs vs', clipped (fun us a p b => exists k, good_ear (eo_inside o k) us a p b) vs cs vs' /\
      Forall2 (fun '(a, p, b) t => polygon_of [a; p; b] t) cs ts /\
      (b = true <-> length vs' = 2%nat) /\ (b = true <-> (length ts + 2)%nat = length vs)).
Proof. exact ear_clipping_spec. Qed.
Print Assumptions C69_ear_clipping.

(** C69: the areas of the reported triangles add up to at least the area of the polygon when ear clipping
    succeeds, and to exactly the area when the polygon is convex. *)
Theorem C69_areas : forall (o : ear_oracle RA) (vs : list (pt RA)) (l : list (seg RA)) (ts : list (list (seg RA))),
  (forall k s, Permutation (eo_list o k s) s) ->
  polygon_of vs l -> (3 <= length vs)%nat -> NoDup vs -> separated vs ->
  ear_clipping o l = Ok (true, ts) ->
  exists areas, mapM triangle_area ts = Ok areas /\
    Rabs (shoelace vs) / 2 <= fold_right Rplus 0 areas /\
    (convex_ccw vs -> fold_right Rplus 0 areas = shoelace vs / 2).
Proof. exact ear_areas. Qed.
Print Assumptions C69_areas.
