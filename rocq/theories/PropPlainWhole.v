(** GENERATED by tools/gen_props.py from PPlainWhole.v: the property theorems only. *)
From Coq Require Import String Reals ZArith Lra Lia Bool List Psatz Permutation Arith Classical.
From Verif Require Import Base Arith ArithR ArithF MPoint MLine MPoly MTri MGroup MCycles MBase MContain MRaum MRooms
  Spec SpecGroup SpecLoops SpecBase SpecRooms SpecRing SpecDouble SpecWhole PPoint PLine PConvex POrder PGroup PLoops POneRoom PPlainLoop.
From Verif Require PWholeLoops PArea.
Import ListNotations.
Local Open Scope list_scope.
From Verif Require Import PPlainWhole.

(** C96: the running program finds the loop as well, when the walls have whole coordinates up to 2000. *)
Theorem C96_whole : forall L (schs : nat -> sched (FA L)) wf fuel (g : list (seg (FA L))) (g' : list (seg RA)), (forall k, fair (schs k)) ->
  exact_segs g g' -> Forall whole_seg g' ->
  ring g' -> (length g' < 125)%nat -> uncrossed g' -> ((2 * length g' + 1) * (length g' + 1) <= wf)%nat -> (0 < fuel)%nat ->
  (forall s, In s g' -> sc s <> CLineSegment) -> ~ one_way g' ->
  exists c h v, find_loops schs wf fuel g = Ok (Some ([c], h)) /\ exact_segs (MGroup.value h c) v /\ rearranged v g'.
Proof. exact ring_whole. Qed.
Print Assumptions C96_whole.

(** C96: the walls of a shell and its two flat ends, drawn as Mantel and the ends draw them, meet the
    hypotheses: find_loops finds the loop and raum_erstellen makes one room of the three parts. *)
Example C96_example : forall (schs : nat -> sched RA) H HC inside inside2 Hs, (forall k, fair (schs k)) ->
  let w := fun a b c d => mkseg CWall (@mkpt RA (IZR a) (IZR b)) (@mkpt RA (IZR c) (IZR d)) in
  let g := [w 10 0 10 20; w (-10) 20 (-10) 0; w (-10) 0 10 0; w (-10) 20 10 20]%Z in
  (exists c h, find_loops schs 45 1 g = Ok (Some ([c], h)) /\ rearranged (MGroup.value h c) g) /\
  exists walls, vessel_rooms schs 45 1 H HC (fun _ _ => None) inside inside2 Hs [[0; 1]; [2]; [3]]%nat g = Ok (Some [mkraum "R1" 0 [] [walls] []]).
Proof. exact ring_example. Qed.
