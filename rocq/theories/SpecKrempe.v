(** Vocabulary for the statements about the transition between a cone and a shell. *)
From Coq Require Import Reals ZArith List.
From Verif Require Import Base Arith ArithR MPoint MLine MPoly MVessel MKrempe Spec SpecHeap.
Import ListNotations.
Local Open Scope R_scope.

(** A cone below a shell on a common axis: axis, height of the seam, heights and diameters of the two parts, and
    the lengths by which the transition reaches down the cone and up the shell. *)
Record joint := mkjoint { axis : R; seam : R; cone_h : R; shell_h : R; d_low : R; d_mid : R; d_top : R; down : R; up : R }.
Definition cone (j : joint) : mpart RA := mantel (A := RA) (seam j - cone_h j) (axis j) (d_low j) (d_mid j) (cone_h j).
Definition shell (j : joint) : mpart RA := mantel (A := RA) (seam j) (axis j) (d_mid j) (d_top j) (shell_h j).
(** All numbers have 8 decimals; the diameters, the cuts and what is left of the parts are 1e-5 or more. *)
Definition fits (j : joint) : Prop :=
  (decimal8 (axis j) /\ decimal8 (seam j) /\ decimal8 (cone_h j) /\ decimal8 (shell_h j) /\ decimal8 (d_low j / 2) /\
   decimal8 (d_mid j / 2) /\ decimal8 (d_top j / 2) /\ decimal8 (down j) /\ decimal8 (up j)) /\
  1 / 10^5 <= d_low j < d_mid j /\ 1 / 10^5 <= d_top j /\
  1 / 10^5 <= down j <= cone_h j - 1 / 10^5 /\ 1 / 10^5 <= up j <= shell_h j - 1 / 10^5.
(** The corners of the right walls, and the points of these walls where the transition starts and ends. *)
Definition foot (j : joint) : pt RA := @mkpt RA (axis j + d_low j / 2) (seam j - cone_h j).
Definition bend (j : joint) : pt RA := @mkpt RA (axis j + d_mid j / 2) (seam j).
Definition head (j : joint) : pt RA := @mkpt RA (axis j + d_top j / 2) (seam j + shell_h j).
Definition start (j : joint) : pt RA := along (bend j) (foot j) (down j / cone_h j).
Definition stop (j : joint) : pt RA := along (bend j) (head j) (up j / shell_h j).
(** The nearest point with 8-decimal coordinates. *)
Definition rounded (p : pt RA) : pt RA := Point_new (A := RA) (px p) (py p).
(** The outline of a part with the right wall from p up to q. *)
Definition outline (x : R) (p q : pt RA) : list (seg RA) :=
  [Wall p q; NonWall q (mirror x q); Wall (mirror x q) (mirror x p); NonWall (mirror x p) p].
(** The outline of a part below that is joined to the point e: from its own foot up to e. *)
Definition joined (x : R) (e : pt RA) (u : mpart RA) : list (seg RA) :=
  let p := rounded (@mkpt RA (m_h u + m_d0 u / 2) (m_v u)) in let q := rounded (@mkpt RA (m_h u - m_d0 u / 2) (m_v u)) in
  [Wall p e; NonWall e (mirror x e); Wall (mirror x e) q; (if m_zarge u then Wall else NonWall) q p].
(** The outline of the part below that is joined to the cone at the bend. *)
Definition below_outline (j : joint) (u : mpart RA) : list (seg RA) := joined (axis j) (bend j) u.
(** The parts given to the transition: the shell, and possibly one part that begins lower. *)
Inductive given (j : joint) : list (mpart RA) -> option (mpart RA) -> Prop :=
  | given_shell : given j [shell j] None
  | given_first (u : mpart RA) : m_v u < seam j -> given j [u; shell j] (Some u)
  | given_second (u : mpart RA) : m_v u < seam j -> given j [shell j; u] (Some u).

(** ** A knuckle of radius r *)
Definition spread (j : joint) : R := (d_mid j - d_low j) / 2.
(** The angle between the wall of the cone and the axis. *)
Definition lean (j : joint) : R := atan (spread j / cone_h j).
(** The length of the tangents from the bend to the circle that touches both walls. *)
Definition tangent (j : joint) (r : R) : R := r * tan (lean j / 2).
(** A cylindrical shell, a cone that is neither nearly a cylinder nor very small, a radius with 8 decimals that is less than that
    of the shell, an arc that is not tiny, and a transition that reaches 1e-4 beyond the arc on both sides. *)
Definition round_fits (j : joint) (r : R) : Prop :=
  fits j /\ d_top j = d_mid j /\ 1 / 10^3 <= spread j /\ cone_h j <= 100 * spread j /\
  decimal8 r /\ 0 < r <= d_mid j / 2 - 1 / 10^5 /\ 1 / 10^4 <= r * sin (lean j / 6) /\
  tangent j r * cos (lean j) + 1 / 10^4 <= down j /\ tangent j r + 1 / 10^4 <= up j.
(** Distance of a point from the line through a and b. *)
Definition line_dist (a b p : pt RA) : R := Rabs ((px b - px a) * (py p - py a) - (py b - py a) * (px p - px a)) / dist a b.
(** The circle about c touches both walls from inside (up to 3e-8). *)
Definition touching (j : joint) (r : R) (c : pt RA) : Prop :=
  px c = axis j + d_mid j / 2 - r /\ Rabs (line_dist (foot j) (bend j) c - r) <= 3 / 10^8 /\ Rabs (py c - (seam j + tangent j r)) <= 2 / 10^6.
(** Four points of this circle, at equal angles from the lower to the upper point of contact. *)
Definition arc_points (j : joint) (r : R) (c : pt RA) (vs : list (pt RA)) : Prop :=
  length vs = 4%nat /\ forall k p, nth_error vs k = Some p -> let a := (1 - INR k / 3) * lean j in
    within (15 / 10^9) p (@mkpt RA (px c + r * cos a) (py c - r * sin a)) /\ stored p.
(** Walls from each point to the next. *)
Definition wall_chain (vs : list (pt RA)) : list (seg RA) := map (fun e => Wall (fst e) (snd e)) (pairs vs).
