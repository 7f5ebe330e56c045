(** GENERATED by tools/gen_props.py from PInside.v: the property theorems only. *)
From Coq Require Import Reals ZArith Lra Lia Bool List Psatz Permutation.
From Verif Require Import Base Arith ArithR ArithF MPoint MLine MPoly Spec SpecInside PPoint PLine PShape PPoly PCommon PConvex.
Import ListNotations.
Local Open Scope R_scope.
#[local] Existing Instance RA.
From Verif Require Import PInside.

(** C35: for a closed polygon given by its edges in any order and direction, a point that is not == a
    vertex, and draws of the first round whose rays end to the right of the polygon and meet every edge
    either in a proper crossing or not at all, the answer is that of the even-odd rule. *)
Theorem C35_even_odd : forall (vs : list (pt RA)) (l : list (seg RA)) (p : pt RA) (xm ym : R)
    (draws : nat -> R * R) (fuel : nat),
  polygon_of vs l -> NoDup l -> vs <> [] ->
  (forall v, In v vs -> Rabs (px v) <= 10^11 /\ Rabs (py v) <= 10^11) ->
  (exists v, In v vs /\ px v = xm) -> (forall v, In v vs -> px v <= xm) ->
  (exists v, In v vs /\ py v = ym) -> (forall v, In v vs -> py v <= ym) ->
  (forall v, In v vs -> / 10^5 <= Rabs (px v - px p) \/ / 10^5 <= Rabs (py v - py p)) ->
  (forall k, (k < 3)%nat ->
     let P := @mkpt RA (Rround8 (xm + 499 * xm * fst (draws k))) (Rround8 (ym + 29 * ym * snd (draws k))) in
     xm < px P /\ forall a b, In (a, b) (cycle_edges vs) -> crosses p P a b \/ apart p P a b) ->
  poly_is_internal_point l p draws (S fuel) = Ok (Some (even_odd vs p)).
Proof. exact internal_even_odd. Qed.
Print Assumptions C35_even_odd.
