(** GENERATED by tools/gen_props.py from PHead.v: the property theorems only. *)
From Coq Require Import Reals ZArith Lra Lia Bool List Permutation Arith Psatz Ratan.
From Verif Require Import Base Arith ArithR ArithF MPoint MLine MPoly MHeap MVessel Spec SpecHeap SpecInside SpecVessel SpecPurge PPoint PLine PPoly PShape PHeap PTri PMake PConvex POrder PInside PPurge PVessel.
Import ListNotations.
#[local] Existing Instance RA.
From Verif Require Import PHead.

(** A head is a closed outline of 16 walls and one opening; its vertices are, within 4e-8, those of the ideal torispherical
    outline at the requested place; coinciding corners are one Point object. *)
Theorem C54_shape : forall k (pos_v pos_h d h1 : R) up, decimal8 pos_v -> decimal8 pos_h -> 1 / 100 <= d -> 2 / 10^5 <= h1 ->
  exists h P ws, head_part (A := RA) k pos_v pos_h d h1 up = Ok (h, P) /\
    Forall2 (within (4 / 10^8)) ws (map (placed up pos_h pos_v) (outline k d h1)) /\
    map (fun s => (si s, sj s)) (view h (hsegs P)) = cycle_edges ws /\
    map (@sc RA) (view h (hsegs P)) = repeat CWall 16 ++ [CNonWall] /\
    isclosed (view h (hsegs P)) = Ok true /\ one_object_per_place h (hsegs P).
Proof. exact head_spec. Qed.
Print Assumptions C54_shape.

(** The part reaches from the opening exactly to the crown height, and is exactly as wide as the diameter (up to 4e-8). *)
Theorem C54_extent : forall k (pos_v pos_h d h1 : R) up, decimal8 pos_v -> decimal8 pos_h -> 1 / 100 <= d -> 2 / 10^5 <= h1 ->
  exists h P, head_part (A := RA) k pos_v pos_h d h1 up = Ok (h, P) /\
    (forall s p, In s (view h (hsegs P)) -> (p = si s \/ p = sj s) ->
      Rabs (px p - pos_h) <= d / 2 + 4 / 10^8 /\
      - (4 / 10^8) <= (if up then py p - pos_v else pos_v - py p) <= h1 + (crown k d - depth k d) + 4 / 10^8) /\
    (exists s, In s (view h (hsegs P)) /\ within (4 / 10^8) (si s) (placed up pos_h pos_v (@mkpt RA (d / 2) 0))) /\
    (exists s, In s (view h (hsegs P)) /\ within (4 / 10^8) (si s) (placed up pos_h pos_v (@mkpt RA (- (d / 2)) 0))) /\
    (exists s, In s (view h (hsegs P)) /\ within (4 / 10^8) (si s) (placed up pos_h pos_v (@mkpt RA 0 (h1 + (crown k d - depth k d))))).
Proof. exact head_extent. Qed.
Print Assumptions C54_extent.

(** Crown and knuckle meet in one point, seen from both centres under the same angle (the normals agree, no kink), on the right
    and on the left; the knuckles end vertically on the cylinder. *)
Theorem C54_tangent : forall k (d h1 : R), 1 / 100 <= d -> let a := half_angle k in let c := d / 2 - knuckle k d in
  circle_pt 0 (h1 - depth k d) (crown k d) (90 - a) = circle_pt c h1 (knuckle k d) (90 - a) /\
  circle_pt 0 (h1 - depth k d) (crown k d) (90 + a) = circle_pt (- c) h1 (knuckle k d) (90 + a) /\
  circle_pt c h1 (knuckle k d) 0 = @mkpt RA (d / 2) h1 /\ circle_pt (- c) h1 (knuckle k d) 180 = @mkpt RA (- (d / 2)) h1 /\ 0 < a < 90.
Proof. exact head_tangent. Qed.
Print Assumptions C54_tangent.

(** Without a cylindrical part (h1 = 0) the two ends of that piece coincide, and placing the head moves only one of them:
    the wall piece is torn from its neighbours. *)
Theorem C54_flat_refuted : forall (p : pt RA) (u v : R), stored p -> decimal8 u -> decimal8 v ->
  let '(h, P) := place (A := RA) true u v (wall_piece p p) in
  view h (hsegs P) = [@mkseg RA CWall (translate u v p) p].
Proof. exact head_flat. Qed.
Print Assumptions C54_flat_refuted.

(** A Klopperboden of diameter 2 with a cylindrical part of 0.1, hanging at height 0.5: all premises hold, and the lowest
    point is at 0.5 - 0.1 - (2 - sqrt (1.8^2 - 0.8^2)). *)
Example C54_example : exists h P, head_part (A := RA) Klopper (1 / 2) 0 2 (1 / 10) false = Ok (h, P) /\
  exists s, In s (view h (hsegs P)) /\ Rabs (py (si s) - (4 / 10 - (2 - sqrt (26 / 10)))) <= 4 / 10^8.
Proof. exact head_example. Qed.
