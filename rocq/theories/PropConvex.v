(** GENERATED by tools/gen_props.py from PConvex.v: the property theorems only. *)
From Coq Require Import Reals ZArith Lra Lia Bool List Psatz Permutation.
From Verif Require Import Base Arith ArithR ArithF MPoint MLine MPoly Spec PPoint PLine PShape.
Import ListNotations.
Local Open Scope R_scope.
#[local] Existing Instance RA.
From Verif Require Import PConvex.

(** C61: a polygon line is valid exactly if it has a segment, consecutive segments are continuous,
    and no two of its segments cross. *)
Theorem C61_isvalid : forall l : list (seg RA), exists b : bool, poly_isvalid l = Ok b /\
  (b = true <-> l <> [] /\
     (forall k s t, nth_error l k = Some s -> nth_error l (S k) = Some t -> continuous s t = true) /\
     (forall s t, distinct_positions l s t -> intersection_on_segment s t = Ok false)).
Proof. exact isvalid_spec. Qed.
Print Assumptions C61_isvalid.

(** C34: isconvex raises for invalid polygons; otherwise it says whether turns in both senses occur
    (a turn is the cross product of a segment with the next one, cyclically). *)
Theorem C34_isconvex : forall l : list (seg RA),
  (poly_isvalid l = Ok false -> isconvex l = Err AssertionError) /\
  (poly_isvalid l = Ok true -> exists b, isconvex l = Ok b /\
     (b = false <-> (exists s t, In (s, t) (cycle_edges l) /\ 0 < crossproduct s t) /\
                    (exists s t, In (s, t) (cycle_edges l) /\ crossproduct s t < 0))).
Proof. exact isconvex_spec. Qed.
Print Assumptions C34_isconvex.

(** C34: the reversed polygon is valid and convex together with the original; a translated polygon,
    if valid, is convex together with the original. *)
Theorem C34_isconvex_invariant : forall (l : list (seg RA)) (u v : R), poly_isvalid l = Ok true ->
  poly_isvalid (rev (map seg_reverse l)) = Ok true /\
  isconvex (rev (map seg_reverse l)) = isconvex l /\
  (poly_isvalid (map (seg_translate u v) l) = Ok true -> isconvex (map (seg_translate u v) l) = isconvex l).
Proof. exact isconvex_invariant. Qed.
Print Assumptions C34_isconvex_invariant.

(** C34: for a convex polygon with a non-zero sum of turns, iscw and isccw are opposite, and swap
    when the polygon is reversed. *)
Theorem C34_iscw_reversed : forall l : list (seg RA), isconvex l = Ok true ->
  fold_right Rplus 0 (map (fun e => crossproduct (fst e) (snd e)) (cycle_edges l)) <> 0 ->
  exists b, iscw l = Ok b /\ isccw l = Ok (negb b) /\
    iscw (rev (map seg_reverse l)) = Ok (negb b) /\ isccw (rev (map seg_reverse l)) = Ok b /\
    (b = true <-> fold_right Rplus 0 (map (fun e => crossproduct (fst e) (snd e)) (cycle_edges l)) < 0).
Proof. exact iscw_reversed. Qed.
Print Assumptions C34_iscw_reversed.

(** C34: a triangle a b c is always valid and convex, and iscw tells the sign of its area. *)
Theorem C34_triangle_orientation : forall a b c : pt RA,
  poly_isvalid (cycle_poly [a; b; c]) = Ok true /\
  isconvex (cycle_poly [a; b; c]) = Ok true /\
  iscw (cycle_poly [a; b; c]) = Ok (negb (Rltb 0 (orient a b c))).
Proof. exact triangle_orientation. Qed.
Print Assumptions C34_triangle_orientation.

(** C61: a closed polygon line is valid if every vertex is on or left of every directed edge (convex,
    counter-clockwise) and the vertices are identical or separated. *)
Theorem C61_convex_valid : forall vs : list (pt RA), vs <> [] -> separated vs ->
  (forall a b c, In (a, b) (cycle_edges vs) -> In c vs -> 0 <= orient a b c) ->
  poly_isvalid (cycle_poly vs) = Ok true.
Proof. exact convex_valid. Qed.
Print Assumptions C61_convex_valid.

(** C34: if every vertex is on or left of every directed edge (the counter-clockwise traversal of a
    convex polygon, area positive) and the vertices are identical or separated, the closed polygon line
    through the vertices is valid and reported convex and counter-clockwise, its reversal clockwise. *)
Theorem C34_convex_orientation : forall vs : list (pt RA),
  (forall a b, In (a, b) (cycle_edges vs) -> a <> b) ->
  (forall a b c, In (a, b) (cycle_edges vs) -> In c vs -> 0 <= orient a b c) ->
  0 < shoelace vs -> separated vs ->
  poly_isvalid (cycle_poly vs) = Ok true /\
  isconvex (cycle_poly vs) = Ok true /\ iscw (cycle_poly vs) = Ok false /\ isccw (cycle_poly vs) = Ok true /\
  iscw (rev (map seg_reverse (cycle_poly vs))) = Ok true.
Proof. exact convex_orientation. Qed.
Print Assumptions C34_convex_orientation.

(** The hypotheses of C34_convex_orientation hold for a triangle. *)
Example C34_orientation_example : let vs := [@mkpt RA 0 0; @mkpt RA 4 0; @mkpt RA 0 3] in
  (forall a b, In (a, b) (cycle_edges vs) -> a <> b) /\
  (forall a b c, In (a, b) (cycle_edges vs) -> In c vs -> 0 <= orient a b c) /\
  0 < shoelace vs /\ separated vs.
Proof. exact orientation_example. Qed.

(** C34, finding: a valid counter-clockwise polygon (positive area) that is reported clockwise, and
    one for which iscw raises. *)
Theorem C34_iscw_nonconvex_refuted : forall L : Libm,
  (exists vs, (0 < zshoelace vs)%Z /\ poly_isvalid (cycle_poly (zpts (FA L) vs)) = Ok true /\
              iscw (cycle_poly (zpts (FA L) vs)) = Ok true) /\
  (exists vs, (0 < zshoelace vs)%Z /\ poly_isvalid (cycle_poly (zpts (FA L) vs)) = Ok true /\
              iscw (cycle_poly (zpts (FA L) vs)) = Err OtherException).
Proof. exact iscw_nonconvex. Qed.
Print Assumptions C34_iscw_nonconvex_refuted.

(** C34, finding: a line that runs clockwise around a triangle and overshoots every corner is
    reported valid, convex and counter-clockwise. *)
Theorem C34_spike_refuted : forall L : Libm, exists vs, (zshoelace vs < 0)%Z /\
  poly_isvalid (cycle_poly (zpts (FA L) vs)) = Ok true /\
  isconvex (cycle_poly (zpts (FA L) vs)) = Ok true /\ iscw (cycle_poly (zpts (FA L) vs)) = Ok false.
Proof. exact spike_refuted. Qed.
Print Assumptions C34_spike_refuted.

(** C61, finding: a line running back over itself is valid. *)
Theorem C61_overlap_refuted : forall L : Libm,
  poly_isvalid (cycle_poly (zpts (FA L) [(0,0);(10,0);(5,0);(20,0)]%Z)) = Ok true.
Proof. exact overlap_valid. Qed.
Print Assumptions C61_overlap_refuted.
