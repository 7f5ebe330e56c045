(** GENERATED by tools/gen_props.py from PStackWhole.v: the property theorems only. *)
From Coq Require Import ZArith Reals Lra Lia Bool List Permutation Arith Floats.SpecFloat.
From Flocq Require Import Core.
From Verif Require Import Base Arith ArithR ArithF MPoint MLine MPoly MHeap MVessel MGroup Spec SpecGroup SpecLoops SpecRing SpecHeap SpecDouble SpecWhole SpecStack SpecStackWhole
  PPoint PFlocq PHeap PDouble PExact.
From Verif Require Import PWhole.
From Verif Require PStack PPlainWhole.
Import ListNotations.
Local Open Scope R_scope.
#[local] Existing Instance RA.
From Verif Require Import PStackWhole.

(** C98 in binary64: a standing vessel of up to 60 shells with whole sizes (even diameters, nothing further than 2000 from the
    origin; heads with a diameter of one or more thousands), its parts given in any order: find_loops finds
    the one loop of all its walls, whatever the order of the sets; its coordinates are exact. *)
Theorem C98_whole : forall L (schs : nat -> sched (FA L)) wf fuel x0 bot top a l (ps : list (list (seg (FA L)))),
  zfits x0 (a :: l) -> zrising a l -> zend bot false a -> zend top true (last l a) -> l <> [] -> (length l <= 60)%nat ->
  Permutation ps (zparts (FA L) x0 bot top a l) -> (forall k, SpecGroup.fair (schs k)) -> ((4 * length l + 9) * (2 * length l + 5) <= wf)%nat -> (0 < fuel)%nat ->
  exists c h v, find_loops schs wf fuel (concat ps) = Ok (Some ([c], h)) /\ exact_segs (MGroup.value h c) v /\ rearranged v (concat (zparts RA x0 bot top a l)).
Proof. exact standing_whole. Qed.
Print Assumptions C98_whole.

(** C98: a vessel of diameter 1000 with a head below, a cylinder, a cone and a flat end above. *)
Example C98_whole_example : let a := (0, 500)%Z in let l := [(700, 500); (900, 200)]%Z in
  zfits 10 (a :: l) /\ zrising a l /\ zend Dome false a /\ zend Flat true (last l a).
Proof. exact standing_whole_example. Qed.
