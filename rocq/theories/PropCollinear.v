(** GENERATED by tools/gen_props.py from PCollinear.v: the property theorems only. *)
From Coq Require Import Reals ZArith Lra Lia Bool List Psatz Permutation.
From Verif Require Import Base Arith ArithR ArithF MPoint MLine MPoly MTri Spec SpecInside SpecGroup SpecTri
  PPoint PLine PShape PPoly PCommon PConvex POrder PMore PInside PTri PSplit PCorner.
Import ListNotations.
Local Open Scope R_scope.
#[local] Existing Instance RA.
From Verif Require Import PCollinear.

(** C68: on a closed cycle, remove_collinear_points cuts off corners one after the other, each of them
    flat (area below half the tolerance) when it is cut; what remains is a closed cycle of at least three
    corners, and twice its area has changed by at most 1e-8 for every corner removed. *)
Theorem C68_remove_collinear : forall (vs : list (pt RA)) (l : list (seg RA)),
  directed_cycle vs l -> (3 <= length vs < 250)%nat -> NoDup vs -> separated vs ->
  INR (length vs) / 10^8 <= Rabs (shoelace vs) ->
  exists cs vs' l', remove_collinear_points l = Ok l' /\ clipped (fun _ => flat) vs cs vs' /\
    polygon_of vs' l' /\ (3 <= length vs')%nat /\
    Rabs (shoelace vs' - shoelace vs) <= INR (length vs - length vs') / 10^8.
Proof. exact remove_collinear_spec. Qed.
Print Assumptions C68_remove_collinear.

(** C68: with integer corners the result is exact: only corners on the line of their neighbours are cut
    off, the area is unchanged, and no three consecutive corners of what remains are on a line. *)
Theorem C68_integer_corners : forall (vs : list (pt RA)) (l : list (seg RA)),
  directed_cycle vs l -> (3 <= length vs < 250)%nat -> NoDup vs -> Forall integral vs -> shoelace vs <> 0 ->
  exists cs vs' l', remove_collinear_points l = Ok l' /\ clipped (fun _ a p b => orient a p b = 0) vs cs vs' /\
    polygon_of vs' l' /\ shoelace vs' = shoelace vs /\
    (forall a p b, consecutive vs' a p b -> orient a p b <> 0).
Proof. exact remove_collinear_integer. Qed.
Print Assumptions C68_integer_corners.

(** C68: a polygon without flat corners is left as it is (in any order and direction of its segments). *)
Theorem C68_nothing_to_remove : forall (vs : list (pt RA)) (l : list (seg RA)),
  polygon_of vs l -> (3 <= length vs)%nat -> NoDup vs -> separated vs ->
  (forall a p b, consecutive vs a p b -> ~ flat a p b) ->
  remove_collinear_points l = Ok l.
Proof. exact remove_collinear_none. Qed.
Print Assumptions C68_nothing_to_remove.

(** C68: with more than 250 corners the first flat corner makes the call raise (order() gives up). *)
Theorem C68_limit : forall (vs : list (pt RA)) (l : list (seg RA)),
  directed_cycle vs l -> (250 < length vs)%nat -> NoDup vs -> separated vs ->
  (exists a p b, consecutive vs a p b /\ flat a p b) ->
  remove_collinear_points l = Err OtherException.
Proof. exact remove_collinear_limit. Qed.
Print Assumptions C68_limit.

(** Finding (C68), binary64: when two segments start at a flat corner, the corner is visited twice and the
    second visit fails the assertion that the chord is a valid segment. *)
Theorem C68_mixed_directions_refuted : forall L : Libm, exists l : list (seg (FA L)),
  polygon_of (zpts (FA L) [(0, 0); (1, 0); (2, 0); (2, 2); (0, 2)]%Z) l /\
  remove_collinear_points l = Err AssertionError.
Proof. exact remove_collinear_mixed. Qed.
Print Assumptions C68_mixed_directions_refuted.
