(** The ideal shape of a torispherical head, independent of how the program computes it. *)
From Coq Require Import Reals List Ratan.
From Verif Require Import Base Arith ArithR MPoint MLine Spec SpecHeap MVessel.
Import ListNotations.
Local Open Scope R_scope.

(** Radii of crown and knuckle as fractions of the diameter (DIN 28011, DIN 28013). *)
Definition crown (k : head) (d : R) : R := match k with Klopper => d | Korbbogen => 8 / 10 * d end.
Definition knuckle (k : head) (d : R) : R := match k with Klopper => d / 10 | Korbbogen => 154 / 1000 * d end.
(** Half the opening angle of the crown, in degrees: the crown ends where the knuckle begins. *)
Definition half_angle (k : head) : R := match k with Klopper => asin (4 / 9) | Korbbogen => asin (173 / 323) end * 180 / PI.
(** The centre of the crown is this much below the tangent line at height h1. *)
Definition depth (k : head) (d : R) : R := sqrt ((crown k d - knuckle k d) ^ 2 - (d / 2 - knuckle k d) ^ 2).

(** The vertices of the outline of an upright head above the origin, counter-clockwise from the lower right corner:
    cylindrical part of height h1, knuckle about (d/2 - R2, h1) in 3 steps, crown about (0, h1 - depth) in 8 steps,
    left knuckle, left corner. *)
Definition outline (k : head) (d h1 : R) : list (pt RA) :=
  let a := half_angle k in
  [@mkpt RA (d / 2) 0] ++
  map (fun j => circle_pt (d / 2 - knuckle k d) h1 (knuckle k d) (INR j * (90 - a) / 3)) (seq 0 4) ++
  map (fun j => circle_pt 0 (h1 - depth k d) (crown k d) (90 - a + INR j * (2 * a) / 8)) (seq 1 7) ++
  map (fun j => circle_pt (- (d / 2 - knuckle k d)) h1 (knuckle k d) (90 + a + INR j * (90 - a) / 3)) (seq 0 4) ++
  [@mkpt RA (- (d / 2)) 0].

(** Where the part stands: upright or turned by 180 degrees, then moved to (u, v). *)
Definition placed (up : bool) (u v : R) (p : pt RA) : pt RA :=
  translate u v (if up then p else @mkpt RA (- px p) (- py p)).
