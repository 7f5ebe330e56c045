(** GENERATED by tools/gen_props.py from PSphere.v: the property theorems only. *)
From Coq Require Import Reals ZArith Lra Lia Bool List Psatz.
From Verif Require Import Base Arith ArithR MPoint MLine MSphere Spec PPoint PLine.
Import ListNotations.
Local Open Scope R_scope.
#[local] Existing Instance RA.
From Verif Require Import PSphere.

(** C57: [on] is the sphere, the line is l1 + mu (l2 - l1).  If l1 = l2: NameError.  Otherwise one of
    three cases applies: no point of the line is on the sphere and (None, None) is returned; exactly one
    is (a tangent) and NameError is raised; exactly two are and both are returned. *)
Theorem C57_sphere_line : forall (l1 l2 sp : vec3 RA) (r : R),
  let on (q : vec3 RA) := (v0 q - v0 sp) ^ 2 + (v1 q - v1 sp) ^ 2 + (v2 q - v2 sp) ^ 2 = r ^ 2 in
  (l1 = l2 -> sphere_line_intersection l1 l2 sp r = Err NameError) /\
  (l1 <> l2 ->
    (sphere_line_intersection l1 l2 sp r = Ok (None, None) /\ (forall mu, ~ on (line_at l1 l2 mu))) \/
    (sphere_line_intersection l1 l2 sp r = Err NameError /\ (exists mu, forall mu', on (line_at l1 l2 mu') <-> mu' = mu)) \/
    (exists mu nu, sphere_line_intersection l1 l2 sp r = Ok (Some (line_at l1 l2 mu), Some (line_at l1 l2 nu)) /\
       nu < mu /\ forall mu', on (line_at l1 l2 mu') <-> mu' = mu \/ mu' = nu)).
Proof. exact sphere_line. Qed.
Print Assumptions C57_sphere_line.

(** The unit sphere and the x axis: two points; the line y = 1, z = 0: tangent, NameError. *)
Example C57_example :
  sphere_line_intersection (@mkv RA 0 1 0) (@mkv RA 1 1 0) (@mkv RA 0 0 0) 1 = Err NameError /\
  exists mu nu : R, nu < mu /\ (forall m : R, m * m = 1 <-> m = mu \/ m = nu) /\
   sphere_line_intersection (@mkv RA 0 0 0) (@mkv RA 1 0 0) (@mkv RA 0 0 0) 1 =
    Ok (Some (line_at (@mkv RA 0 0 0) (@mkv RA 1 0 0) mu), Some (line_at (@mkv RA 0 0 0) (@mkv RA 1 0 0) nu)).
Proof. exact sphere_example. Qed.
