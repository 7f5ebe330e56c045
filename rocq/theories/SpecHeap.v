(** Vocabulary for statements about objects: which Point objects a polygon uses, and when it is in a
    state on which the in-place transformations are meant to work. *)
From Coq Require Import Reals ZArith List.
From Verif Require Import Base Arith ArithR MPoint MLine MHeap Spec.
Import ListNotations.
Local Open Scope R_scope.

(** The Point objects the segments refer to, with repetitions. *)
Definition objects (l : list hseg) : list nat := flat_map (fun s => [hi s; hj s]) l.

(** Two end points at the same place are the same object. *)
Definition one_object_per_place (h : heap RA) (l : list hseg) : Prop :=
  forall a b, In a (objects l) -> In b (objects l) -> h a = h b -> a = b.

(** No segment has its two ends at the same place. *)
Definition proper (h : heap RA) (l : list hseg) : Prop := forall s, In s l -> h (hi s) <> h (hj s).

(** End points are identical or clearly apart, segments are proper, and the flag [purged] is only set
    if coincident end points are shared. *)
Definition sound (h : heap RA) (P : hpoly) : Prop :=
  separated (map h (objects (hsegs P))) /\ proper h (hsegs P) /\
  (hpurged P = true -> one_object_per_place h (hsegs P)).

(** Multiples of 1e-8. *)
Definition decimal8 (x : R) : Prop := exists k : Z, x = IZR k / 10^8.
Definition all_stored (h : heap RA) (l : list hseg) : Prop := forall o, In o (objects l) -> stored (h o).

(** Mirror image on the vertical line at x0, rotation about the origin by phi degrees. *)
Definition mirror (x0 : R) (p : pt RA) : pt RA := @mkpt RA (2 * x0 - px p) (py p).
Definition rotate (phi : R) (p : pt RA) : pt RA :=
  let a := phi * PI / 180 in @mkpt RA (px p * cos a - py p * sin a) (px p * sin a + py p * cos a).
Definition seg_image (f : pt RA -> pt RA) (s : seg RA) : seg RA := mkseg (sc s) (f (si s)) (f (sj s)).

(** A history of translations and reflections. *)
Inductive step := Shift (u v : R) | Flip (x0 : R).
Definition step_image (t : step) : pt RA -> pt RA :=
  match t with Shift u v => translate u v | Flip x0 => mirror x0 end.
Definition step_decimal8 (t : step) : Prop :=
  match t with Shift u v => decimal8 u /\ decimal8 v | Flip x0 => decimal8 x0 end.
Fixpoint run_steps (ts : list step) (h : heap RA) (P : hpoly) : heap RA * hpoly :=
  match ts with
  | [] => (h, P)
  | Shift u v :: r => let '(h', P') := move (A := RA) u v h P in run_steps r h' P'
  | Flip x0 :: r => let '(h', P') := mirror_vertical (A := RA) x0 h P in run_steps r h' P'
  end.

(** p and q differ by at most e in either coordinate. *)
Definition within (e : R) (p q : pt RA) : Prop := Rabs (px p - px q) <= e /\ Rabs (py p - py q) <= e.
(** Rotation about (x0, y0). *)
Definition rotate_about (x0 y0 phi : R) (p : pt RA) : pt RA :=
  translate x0 y0 (rotate phi (translate (- x0) (- y0) p)).
(** The point of the circle about (cx, cy) with radius r at the angle deg (in degrees). *)
Definition circle_pt (cx cy r deg : R) : pt RA :=
  @mkpt RA (cx + r * cos (deg * PI / 180)) (cy + r * sin (deg * PI / 180)).
(** The segments joining consecutive points. *)
Definition chain (ps : list (pt RA)) : list (seg RA) := map (fun e => LineSegment (fst e) (snd e)) (pairs ps).
