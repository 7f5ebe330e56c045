(** A vessel divided by a plate: when walking finds no loop first, each of its three loops is reported exactly once. *)
From Coq Require Import String Reals ZArith Lra Lia Bool List Psatz Permutation Arith.
From Verif Require Import Base Arith ArithR ArithF MPoint MLine MPoly MTri MGroup MCycles MVessel
  Spec SpecGroup SpecCycles SpecLoops SpecRing SpecHeap SpecStack SpecPlate
  PPoint PLine PConvex POrder PGroup PWalk PComponent PLoops POneRoom PPlainLoop PStack PPlate POnce.
From Verif Require PPlateRooms PExTwoRooms.
Import ListNotations.
Local Open Scope list_scope.
Local Open Scope R_scope.
#[local] Existing Instance RA.

(*@ C99_each_once *)
(** C99: when walking along the walls finds no loop first, find_loops has exactly three results: one has the walls of
    the room below the plate, one those of the room above it, and one those of the outline. *)
Lemma plate_each_once : forall x0 bot top a l1 l2 (g : list (seg RA)) (schs : nat -> sched RA) wf fuel,
  measured x0 (a :: l1 ++ l2) -> rising a (l1 ++ l2) -> l1 <> [] -> l2 <> [] -> (length (l1 ++ l2) <= 60)%nat ->
  Permutation g (concat (plated_parts x0 bot top a l1 l2)) ->
  walk_segments (schs fuel) wf g None = Ok NoLoop ->
  exists cs h below above both, find_loops schs wf fuel g = Ok (Some (cs, h)) /\ Permutation cs [below; above; both] /\
    rearranged (value h below) (below_plate x0 bot a l1) /\ rearranged (value h above) (above_plate x0 top a l1 l2) /\ rearranged (value h both) (around_both x0 bot top a l1 l2).
Proof.
  intros x0 bot top a l1 l2 g schs wf fuel M RI N1 N2 LL PG EW.
  destruct (plate_split x0 bot top a l1 l2 M RI N1 N2 LL) as (s & p & r & P1 & P2 & P3 & P4 & R1 & R2 & R3 & U1 & U2 & U3 & LE).
  assert (PG' : Permutation g (s :: p ++ r)) by (rewrite PG; exact P4).
  destruct (PPlateRooms.two_found s p r g R1 R2 R3 ltac:(lia) PG' U1 U2 U3 schs wf fuel EW) as (cs & h & cb & ca & co & E & _ & PC & B1 & B2 & B3 & _).
  exists cs, h, cb, ca, co. split; auto. split; auto. split; [|split].
  - apply (rearranged_perm2 _ _ _ B1). symmetry. exact P1.
  - apply (rearranged_perm2 _ _ _ B2). symmetry. exact P2.
  - apply (rearranged_perm2 _ _ _ B3). symmetry. exact P3.
Qed.

(*@ex C99_each_once_example *)
(** C99: the vessel of C100_example: the hypotheses can be met, and there are three results. *)
Lemma plate_each_once_example : exists ps (sch : sched RA) cs h, Permutation ps (plated_parts 0 Flat Flat PExTwoRooms.v_a [PExTwoRooms.v_m] [PExTwoRooms.v_t]) /\
  walk_segments sch 20 (concat ps) None = Ok NoLoop /\ find_loops (fun _ => sch) 20 5 (concat ps) = Ok (Some (cs, h)) /\ length cs = 3%nat.
Proof.
  destruct PExTwoRooms.two_rooms_example as (ps & sch & M & RI & PS & EW & _).
  destruct (plate_each_once 0 Flat Flat PExTwoRooms.v_a [PExTwoRooms.v_m] [PExTwoRooms.v_t] (concat ps) (fun _ => sch) 20 5) as (cs & h & cb & ca & co & E & PC & _); auto; try discriminate.
  - cbn. lia.
  - apply concat_perm. exact PS.
  - exists ps, sch, cs, h. split; auto. split; auto. split; auto. rewrite (Permutation_length PC). reflexivity.
Qed.
