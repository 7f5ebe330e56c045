(** GENERATED by tools/gen_props.py from PTrig.v: the property theorems only. *)
From Coq Require Import Reals ZArith Lra Lia Bool List Psatz.
From Verif Require Import Base Arith ArithR MPoint MLine Spec PPoint PLine.
Import ListNotations.
Local Open Scope R_scope.
#[local] Existing Instance RA.
From Verif Require Import PTrig.

(** C19: the direction is an angle in [0, 360) whose cosine and sine, times the length, give the
    segment's vector - for every segment; for non-null segments it is the only such angle. *)
Theorem C19_direction : forall s : seg RA,
  0 <= direction s < 360 /\
  norm s * cos (direction s * PI / 180) = px (sj s) - px (si s) /\
  norm s * sin (direction s * PI / 180) = py (sj s) - py (si s) /\
  (si s <> sj s -> forall d, 0 <= d < 360 ->
     norm s * cos (d * PI / 180) = px (sj s) - px (si s) ->
     norm s * sin (d * PI / 180) = py (sj s) - py (si s) -> d = direction s).
Proof. exact direction_spec. Qed.
Print Assumptions C19_direction.

(** C19: two non-null segments have the same direction exactly when the vector of one is a positive
    multiple of the vector of the other. *)
Theorem C19_direction_equal : forall s t : seg RA, si s <> sj s -> si t <> sj t ->
  (direction s = direction t <->
   exists k, 0 < k /\ px (sj t) - px (si t) = k * (px (sj s) - px (si s)) /\
             py (sj t) - py (si t) = k * (py (sj s) - py (si s))).
Proof. exact direction_equal. Qed.
Print Assumptions C19_direction_equal.

(** C19: [opposite_direction] of non-null segments holds exactly when the vector of one is a negative
    multiple of the other's; in particular for a segment and its reverse; it is symmetric. *)
Theorem C19_opposite_direction : forall s t : seg RA, si s <> sj s -> si t <> sj t ->
  (opposite_direction s t = true <->
   exists k, k < 0 /\ px (sj t) - px (si t) = k * (px (sj s) - px (si s)) /\
             py (sj t) - py (si t) = k * (py (sj s) - py (si s))) /\
  opposite_direction s t = opposite_direction t s /\
  opposite_direction s (seg_reverse s) = true.
Proof. exact opposite_direction_spec. Qed.
Print Assumptions C19_opposite_direction.

(** C20: exact arithmetic: for non-null segments the angle exists, is symmetric, lies in [0, 180] and
    satisfies the cosine law; a null segment is a ZeroDivisionError. *)
Theorem C20_angle_between_lines : forall s t : seg RA,
  (si s = sj s \/ si t = sj t -> angle_between_lines s t = Err ZeroDivisionError) /\
  (si s <> sj s -> si t <> sj t ->
   exists a, angle_between_lines s t = Ok a /\ angle_between_lines t s = Ok a /\ 0 <= a <= 180 /\
     dotproduct s t = dist (si s) (sj s) * dist (si t) (sj t) * cos (a * PI / 180)).
Proof. exact angle_spec. Qed.
Print Assumptions C20_angle_between_lines.

(** C20: 0 exactly for equal directions, 180 exactly for opposite directions, 90 exactly for
    perpendicular segments. *)
Theorem C20_angle_extremes : forall s t : seg RA, si s <> sj s -> si t <> sj t ->
  (angle_between_lines s t = Ok 0 <-> direction s = direction t) /\
  (angle_between_lines s t = Ok 180 <-> opposite_direction s t = true) /\
  (angle_between_lines s t = Ok 90 <-> dotproduct s t = 0).
Proof. exact angle_extremes. Qed.
Print Assumptions C20_angle_extremes.

(** C20: the angle at the start point is the angle between the segment and the segment to p, and is
    refused for p equal to the start point. *)
Theorem C20_angle_from_start_point : forall (s : seg RA) (p : pt RA),
  (pt_eqb p (si s) = true -> angle_from_start_point s p = Err AssertionError) /\
  (pt_eqb p (si s) = false -> angle_from_start_point s p = angle_between_lines s (LineSegment (si s) p)).
Proof. exact angle_from_start_spec. Qed.
Print Assumptions C20_angle_from_start_point.
