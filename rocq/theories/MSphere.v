(** Model of geometry/additional_stuff.py. *)
From Coq Require Import List Bool ZArith.
From Verif Require Import Base Arith MPoint MLine.
Import ListNotations.

Section Sphere.
Context {A : Arith}.
Local Open Scope num_scope.

(** The arguments are indexed with 0, 1 and 2 only. *)
Record vec3 := mkv { v0 : num; v1 : num; v2 : num }.

(** additional_stuff.py:38-42, 47-51, 55-59 *)
Definition line_at (l1 l2 : vec3) (mu : num) : vec3 :=
  mkv (v0 l1 + mu * (v0 l2 - v0 l1)) (v1 l1 + mu * (v1 l2 - v1 l1)) (v2 l1 + mu * (v2 l2 - v2 l1)).

(** additional_stuff.py:21-23 *)
Definition sli_a (l1 l2 : vec3) : num :=
  sqr (v0 l2 - v0 l1) + sqr (v1 l2 - v1 l1) + sqr (v2 l2 - v2 l1).
Definition sli_b (l1 l2 sp : vec3) : num :=
  n2 * ((v0 l2 - v0 l1) * (v0 l1 - v0 sp) + (v1 l2 - v1 l1) * (v1 l1 - v1 sp) + (v2 l2 - v2 l1) * (v2 l1 - v2 sp)).
(** additional_stuff.py:27-29 *)
Definition sli_c (l1 sp : vec3) (r : num) : num :=
  sqr (v0 sp) + sqr (v1 sp) + sqr (v2 sp) + sqr (v0 l1) + sqr (v1 l1) + sqr (v2 l1)
  - n2 * (v0 sp * v0 l1 + v1 sp * v1 l1 + v2 sp * v2 l1) - sqr r.

(** additional_stuff.py:5-61.  The branch for one intersection assigns to an element of the undefined
    name [p].  A NaN discriminant takes no branch. *)
Definition sphere_line_intersection (l1 l2 sp : vec3) (r : num) : res (option vec3 * option vec3) :=
  let a := sli_a l1 l2 in
  let b := sli_b l1 l2 sp in
  let c := sli_c l1 sp r in
  let i := b * b - nofZ 4 * a * c in
  if i <? n0 then Ok (None, None)
  else if i =? n0 then Err NameError
  else if n0 <? i then
    mu1 <- pdiv (nopp b + nsqrt i) (n2 * a) ;;
    mu2 <- pdiv (nopp b - nsqrt i) (n2 * a) ;;
    Ok (Some (line_at l1 l2 mu1), Some (line_at l1 l2 mu2))
  else Ok (None, None).
End Sphere.
Arguments vec3 _ : clear implicits.
