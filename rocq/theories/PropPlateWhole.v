(** GENERATED by tools/gen_props.py from PPlateWhole.v: the property theorems only. *)
From Coq Require Import ZArith Reals Lra Lia Bool List Permutation Arith Floats.SpecFloat.
From Verif Require Import Base Arith ArithR ArithF MPoint MLine MPoly MVessel MGroup Spec SpecGroup SpecLoops SpecRing SpecHeap SpecDouble SpecWhole SpecStack SpecStackWhole
  SpecPlate SpecPlateWhole PPoint PWhole.
From Verif Require PStack PStackWhole PPlate PWholeLoops PLoops PBase PWalk.
Import ListNotations.
Local Open Scope R_scope.
#[local] Existing Instance RA.
From Verif Require Import PPlateWhole.

(** C99 in binary64: for a vessel with whole sizes (as in C98_whole) and a plate, its parts in any order, when
    the running walk_segments finds no loop first, find_loops reports the walls of both rooms and of the
    outline, with exact coordinates, and nothing else. *)
Theorem C99_whole : forall L (schs : nat -> sched (FA L)) wf fuel x0 bot top a l1 l2 (ps : list (list (seg (FA L)))),
  zfits x0 (a :: l1 ++ l2) -> zrising a (l1 ++ l2) -> zend bot false a -> zend top true (last (l1 ++ l2) a) -> l1 <> [] -> l2 <> [] -> (length (l1 ++ l2) <= 60)%nat ->
  Permutation ps (zplated (FA L) x0 bot top a l1 l2) -> (forall k, SpecGroup.fair (schs k)) -> walk_segments (schs fuel) wf (concat ps) None = Ok NoLoop ->
  exists cs h, find_loops schs wf fuel (concat ps) = Ok (Some (cs, h)) /\
    (forall W, In W (zloops RA x0 bot top a l1 l2) -> exists c v, In c cs /\ exact_segs (MGroup.value h c) v /\ rearranged v W) /\
    (forall c, In c cs -> exists W v, In W (zloops RA x0 bot top a l1 l2) /\ exact_segs (MGroup.value h c) v /\ rearranged v W).
Proof. exact plate_whole. Qed.
Print Assumptions C99_whole.

(** C99: two cones, 2 m wide at 0 m and at 6 m and 4 m wide at 3 m, where there is a plate: the hypotheses hold
    for every libm. *)
Example C99_whole_example : forall L : Libm, let a := (0, 1)%Z in let l1 := [(3, 2)]%Z in let l2 := [(6, 1)]%Z in
  zfits 0 (a :: l1 ++ l2) /\ zrising a (l1 ++ l2) /\ zend Flat false a /\ zend Flat true (last (l1 ++ l2) a) /\
  exists ps, Permutation ps (zplated (FA L) 0 Flat Flat a l1 l2) /\ SpecGroup.fair (PWalk.plain_sched (FA L)) /\ walk_segments (PWalk.plain_sched (FA L)) 20 (concat ps) None = Ok NoLoop.
Proof. exact plate_whole_example. Qed.
