(** GENERATED by tools/gen_props.py from PExContain.v: the property theorems only. *)
From Coq Require Import Reals ZArith Lra Lia Bool List Psatz Permutation.
From Verif Require Import Base Arith ArithR ArithF MPoint MLine MPoly MTri MGroup MContain Spec SpecInside SpecGroup SpecBase SpecContain
  PPoint PShape PExamples PMore PConvex POrder PCorner PGroup PBase PBase2 PExBase PContain PContain2.
Import ListNotations.
Local Open Scope R_scope.
#[local] Existing Instance RA.
From Verif Require Import PExContain.

(** A triangle (cycle 1) in a square (cycle 0), with a test that is right for convex polygons: the hypotheses
    hold, and only the triangle is contained. *)
Example C75_example : let cycles := [(0, [x_square]); (1, [x_tri])]%nat in
  NoDup (map fst cycles) /\ right_for_convex x_inside /\
  (forall e pe, In (e, pe) cycles -> (forall p, point_of pe p -> stored p) /\ (exists p q, point_of pe p /\ point_of pe q /\ p <> q) /\
     forall p q, point_of pe p -> point_of pe q -> Rabs (px p - px q) < 1 / 10^5 -> Rabs (py p - py q) < 1 / 10^5 -> p = q) /\
  exists row, contained_cycles x_inside cycles = Ok [(0, row); (1, [])]%nat /\ In 1%nat row.
Proof. exact contained_example. Qed.

(** C75 (finding), binary64: a triangle in the notch of an L counts as contained in the L, although
    is_internal_point says that all its corners are outside of the L. *)
Theorem C75_notch_refuted : forall L,
  let el := cycle_poly (zpts (FA L) [(0, 0); (9, 0); (9, 3); (3, 3); (3, 9); (0, 9)]%Z) in
  let tri := zpts (FA L) [(4, 4); (5, 4); (4, 5)]%Z in
  contained_cycles (fun _ _ _ => decided_by (some_draws L)) [(0, [el]); (1, [cycle_poly tri])]%nat = Ok [(0, [1]); (1, [])]%nat /\
  forall p, In p tri -> decided_by (some_draws L) el p = Ok false.
Proof. exact contained_notch. Qed.
Print Assumptions C75_notch_refuted.

(** The hypotheses for two square rooms with a common wall, segment 1, and a dangling segment. *)
Example C76_example : forall k parts, In (k, parts) x_cycles -> NoDup (concat parts) /\ (forall i, In i (concat parts) -> (i < length (x_heap RA))%nat) /\
  exists vs, cycle_of (remove_outlier_segments (segments_at (x_heap RA) parts)) vs.
Proof. exact group_cycles_example. Qed.

(** C76 (finding), binary64: two square rooms with a common wall.  Putting the second in order turns the
    common wall round: the first polygon is not continuous any more. *)
Theorem C76_shared_refuted : forall L, exists ids1 ids2 h, group_cycles (x_heap (FA L)) x_cycles = Ok ([(0%nat, Some ids1); (1%nat, Some ids2)], h) /\
  iscontinuous (value h ids1) = false /\ iscontinuous (value h ids2) = true /\
  Permutation ids1 [0; 1; 2; 3]%nat /\ Permutation ids2 [4; 5; 6; 1]%nat.
Proof. exact group_shared. Qed.
Print Assumptions C76_shared_refuted.

(** The hypotheses of C77 for a triangle. *)
Example C77_example : let s := LineSegment (zp 0 0) (zp 4 0) in let t := LineSegment (zp 4 0) (zp 4 3) in let u := LineSegment (zp 4 3) (zp 0 0) in
  iscontinuous [s; t; u] = true /\ 2 / 10^5 <= Rabs (px (si s) - px (sj s)) /\ as_edgelist [[s; t; u]] = Err TypeError /\ as_edgelist [[s]; [s]] = Ok [(si s, sj s); (si s, sj s)].
Proof. exact edgelist_example. Qed.

(** Two triangles have their names; a triangle twice in the group has none. *)
Example C78_example : let a := cycle_poly [zp 0 0; zp 4 0; zp 4 3] in let b := cycle_poly [zp 10 0; zp 14 0; zp 14 3] in
  (forall x y, distinct_positions [(1%nat, a); (2%nat, b)] x y -> poly_eqb (snd x) (snd y) = false) /\
  fill_vect [(1%nat, a); (2%nat, b)] [b; a] = [2; 1]%nat /\ fill_vect [(1%nat, a); (2%nat, a)] [a; b] = [] /\
  polygon_from_repr [a; b] b = Ok b /\ polygon_from_repr [a; a] a = Err OtherException.
Proof. exact names_example. Qed.

(** C43 (finding), binary64: an indifferent point added for a dangling segment stays when simplify removes the segment. *)
Theorem C43_simplify_refuted : forall L, let o := LineSegment (@mkpt (FA L) (nofZ 4) (nofZ 3)) (@mkpt (FA L) (nofZ 9) (nofZ 9)) in
  let t := cycle_poly (zpts (FA L) [(0, 0); (4, 0); (4, 3)]%Z) in let q := @mkpt (FA L) (nofZ 5) (nofZ 5) in
  let p := simplify (mkip (t ++ [o]) [(q, o)] [(q, o)] [(q, o)]) in ip_segs p = t /\ ip_int p = [] /\ ip_ind p = [(q, o)] /\ ip_ext p = [].
Proof. exact simplify_refuted. Qed.
Print Assumptions C43_simplify_refuted.
