(** GENERATED by tools/gen_props.py from PContain.v: the property theorems only. *)
From Coq Require Import Reals ZArith Lra Lia Bool List Psatz Permutation Classical_Prop.
From Verif Require Import Base Arith ArithR ArithF MPoint MLine MPoly MTri MGroup MContain Spec SpecInside SpecContain
  SpecBase PPoint PShape PMore PConvex PHull PCorner PEar2 PBase.
Import ListNotations.
Local Open Scope R_scope.
#[local] Existing Instance RA.
From Verif Require Import PContain.

(** C75: whatever the answers.  If contained_cycles returns, there is an entry for every cycle e, in their
    order.  It lists exactly the other cycles z of which every point was, in some call, reported to be
    inside the convex hull of the points of e (a point occurs once for every part that contains it: call n
    is about the n-th). *)
Theorem C75_contained : forall inside (cycles : list (nat * list (list (seg RA)))) r, NoDup (map fst cycles) -> contained_cycles inside cycles = Ok r ->
  map fst r = map fst cycles /\
  forall e pe row, In (e, pe) cycles -> In (e, row) r ->
    NoDup row /\ incl row (map fst cycles) /\
    forall z pz, In (z, pz) cycles ->
      (In z row <-> z <> e /\ forall p, point_of pz p -> exists hull n,
         convex_hull (A := RA) (map (fun w => (px w, py w)) (flat_map point_set pe)) = Ok (Some hull) /\
         nth_error (flat_map point_set pz) n = Some p /\ inside e z n hull p = Ok true).
Proof. exact contained_spec. Qed.
Print Assumptions C75_contained.

(** C75: if the inside test is right for convex polygons and every cycle has two different points, then
    contained_cycles returns and lists for e exactly the other cycles that have all their points in the
    interior of the convex hull of the points of e. *)
Theorem C75_interior : forall inside (cycles : list (nat * list (list (seg RA)))), NoDup (map fst cycles) -> right_for_convex inside ->
  (forall e pe, In (e, pe) cycles -> (forall p, point_of pe p -> stored p) /\ (exists p q, point_of pe p /\ point_of pe q /\ p <> q) /\
     forall p q, point_of pe p -> point_of pe q -> Rabs (px p - px q) < 1 / 10^5 -> Rabs (py p - py q) < 1 / 10^5 -> p = q) ->
  exists r, contained_cycles inside cycles = Ok r /\ map fst r = map fst cycles /\
    forall e pe row, In (e, pe) cycles -> In (e, row) r -> incl row (map fst cycles) /\
      forall z pz, In (z, pz) cycles -> (In z row <-> z <> e /\ forall p, point_of pz p -> in_hull (point_of pe) p).
Proof. exact contained_interior. Qed.
Print Assumptions C75_interior.
