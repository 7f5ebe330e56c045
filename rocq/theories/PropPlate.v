(** GENERATED by tools/gen_props.py from PPlate.v: the property theorems only. *)
From Coq Require Import String Reals ZArith Lra Lia Bool List Psatz Permutation Arith Classical.
From Verif Require Import Base Arith ArithR ArithF MPoint MLine MPoly MHeap MVessel MTri MGroup MCycles MBase MContain MRaum MRooms
  Spec SpecGroup SpecLoops SpecBase SpecRooms SpecRing SpecHeap SpecStack SpecPlate PPoint PLine PConvex POrder PGroup PComponent PLoops POneRoom PPlainLoop PStack.
From Verif Require PWalk PEndless PBase.
Import ListNotations.
Local Open Scope list_scope.
Local Open Scope R_scope.
#[local] Existing Instance RA.
From Verif Require Import PPlate.

(** C99: a standing vessel (up to 60 shells, flat ends or heads) with a flat plate between two of its levels
    has exactly three loops: the walls of the room below the plate, those of the room above it, and those
    around both; none of them crosses itself. *)
Theorem C99_loops : forall x0 bot top a l1 l2 (g : list (seg RA)),
  measured x0 (a :: l1 ++ l2) -> rising a (l1 ++ l2) -> l1 <> [] -> l2 <> [] -> (length (l1 ++ l2) <= 60)%nat ->
  Permutation g (concat (plated_parts x0 bot top a l1 l2)) ->
  let one_of w := rearranged w (below_plate x0 bot a l1) \/ rearranged w (above_plate x0 top a l1 l2) \/ rearranged w (around_both x0 bot top a l1 l2) in
  (forall w, loop_in g w -> one_of w) /\
  (forall W, In W [below_plate x0 bot a l1; above_plate x0 top a l1 l2; around_both x0 bot top a l1 l2] -> exists w, loop_in g w /\ uncrossed w /\ rearranged w W).
Proof. exact plate_loops. Qed.
Print Assumptions C99_loops.

(** C99: when walking along the walls finds no loop first, find_loops reports both rooms and the outline of
    the vessel, and nothing else, for every order of the walls and every order in which Python visits a set. *)
Theorem C99_all_found : forall x0 bot top a l1 l2 (g : list (seg RA)) (schs : nat -> sched RA) wf fuel,
  measured x0 (a :: l1 ++ l2) -> rising a (l1 ++ l2) -> l1 <> [] -> l2 <> [] -> (length (l1 ++ l2) <= 60)%nat ->
  Permutation g (concat (plated_parts x0 bot top a l1 l2)) ->
  walk_segments (schs fuel) wf g None = Ok NoLoop ->
  let loops := [below_plate x0 bot a l1; above_plate x0 top a l1 l2; around_both x0 bot top a l1 l2] in
  exists cs h, find_loops schs wf fuel g = Ok (Some (cs, h)) /\
    (forall W, In W loops -> exists c, In c cs /\ rearranged (value h c) W) /\
    (forall c, In c cs -> exists W, In W loops /\ rearranged (value h c) W).
Proof. exact plate_found. Qed.
Print Assumptions C99_all_found.

(** C99: in general, when find_loops ends, it reports at least one loop; every result is one of the two rooms
    or the outline, unless it was found by walking (then it consists of copies of walls), and a room is only
    missing if a result that was found by walking uses one of its walls. *)
Theorem C99_in_general : forall x0 bot top a l1 l2 (g : list (seg RA)) (schs : nat -> sched RA) wf fuel cs h,
  measured x0 (a :: l1 ++ l2) -> rising a (l1 ++ l2) -> l1 <> [] -> l2 <> [] -> (length (l1 ++ l2) <= 60)%nat ->
  Permutation g (concat (plated_parts x0 bot top a l1 l2)) -> (forall k, fair (schs k)) ->
  find_loops schs wf fuel g = Ok (Some (cs, h)) ->
  let loops := [below_plate x0 bot a l1; above_plate x0 top a l1 l2; around_both x0 bot top a l1 l2] in
  let walked c := forall k, In k c -> (length g <= k)%nat in
  cs <> [] /\
  (forall c, In c cs -> walked c \/ exists W, In W loops /\ rearranged (value h c) W) /\
  (forall W, In W loops -> (exists c, In c cs /\ rearranged (value h c) W) \/
     (exists c s t, In c cs /\ walked c /\ In s (value h c) /\ In t W /\ ((si s = si t /\ sj s = sj t) \/ (si s = sj t /\ sj s = si t)))).
Proof. exact plate_general. Qed.
Print Assumptions C99_in_general.

(** C99: a cylinder with a cone on it, a plate between them, a head at the bottom and a flat end at the top. *)
Example C99_example : measured 1 ((0, 2) :: [(5, 2)] ++ [(7, 1)]) /\ rising (0, 2) ([(5, 2)] ++ [(7, 1)]) /\
  map (@length (seg RA)) (plated_parts 1 Dome Flat (0, 2) [(5, 2)] [(7, 1)]) = [1; 2; 1; 2; 2]%nat.
Proof. exact plate_example. Qed.

(** C99, finding (binary64): a cylinder from 1 m to 5 m with a plate at 3 m.  There is an order of its walls
    and an order in which Python can visit the sets (it is the one of CPython 3.11) with which find_loops
    reports one room only, the upper one: none of the walls reported reaches down to 1 m. *)
Theorem C99_room_lost_refuted : forall L : Libm,
  let z k : @num (FA L) := nofZ k in
  let end_at h := flachboden_segments (A := FA L) (z h) (z 2%Z) (z 4%Z) in
  let shell_at h := wall_segments (mantel_segments (A := FA L) (z h) (z 2%Z) (z 4%Z) (z 4%Z) (z 2%Z)) in
  exists g sch c h, Permutation g (concat [end_at 1; end_at 5; end_at 3; shell_at 1; shell_at 3]%Z) /\ fair sch /\
    find_loops (fun _ => sch) 20 5 g = Ok (Some ([c], h)) /\ ~ exists t, In t (value h c) /\ (py (si t) = z 1%Z \/ py (sj t) = z 1%Z).
Proof. exact plate_room_lost. Qed.
Print Assumptions C99_room_lost_refuted.

(** C99, finding (binary64): a cylinder from 0 m to 6 m with a plate at 4 m.  There is an order of its walls
    with which find_loops reports two loops, but not the two rooms: both of them reach down to 0 m (they are
    the lower room and the outline of the vessel). *)
Theorem C99_overlap_refuted : forall L : Libm,
  let z k : @num (FA L) := nofZ k in
  let end_at h := flachboden_segments (A := FA L) (z h) (z 0%Z) (z 2%Z) in
  let shell_at h k := wall_segments (mantel_segments (A := FA L) (z h) (z 0%Z) (z 2%Z) (z 2%Z) (z k)) in
  exists g sch c d h, Permutation g (concat [end_at 0; end_at 6; end_at 4; shell_at 0 4; shell_at 4 2]%Z) /\ fair sch /\
    find_loops (fun _ => sch) 20 5 g = Ok (Some ([c; d], h)) /\
    (exists t, In t (value h c) /\ neqb (py (si t)) (z 0%Z) = true) /\ (exists t, In t (value h d) /\ neqb (py (si t)) (z 0%Z) = true).
Proof. exact plate_overlap. Qed.
Print Assumptions C99_overlap_refuted.

(** C99: with the walls in the order of the parts, walking finds no loop first and all three are reported. *)
Example C99_three_example : forall L : Libm,
  let z k : @num (FA L) := nofZ k in
  let end_at h := flachboden_segments (A := FA L) (z h) (z 0%Z) (z 2%Z) in
  let shell_at h k := wall_segments (mantel_segments (A := FA L) (z h) (z 0%Z) (z 2%Z) (z 2%Z) (z k)) in
  let g := concat [end_at 0; end_at 6; end_at 4; shell_at 0 4; shell_at 4 2]%Z in
  walk_segments (PWalk.plain_sched (FA L)) 20 g None = Ok NoLoop /\
  exists c d e h, find_loops (fun _ => PWalk.plain_sched (FA L)) 20 5 g = Ok (Some ([c; d; e], h)) /\ length c = 4%nat /\ length d = 4%nat /\ length e = 6%nat.
Proof. exact plate_three. Qed.

(** C46, finding (binary64): three segments in a row, with no loop at all.  There is an order in which Python
    can visit the sets (it is the one of CPython 3.11) with which find_loops reports a "loop": one of the
    segments, there and back. *)
Theorem C46_false_loop_refuted : forall L : Libm,
  let g := map (fun '(a, b, c, d) => LineSegment (Point_new (nofZ a) (nofZ b)) (Point_new (nofZ c) (nofZ d)) : seg (FA L))
    [(2, 0, 4, 0); (1, 9, 4, 0); (2, 0, 6, 8)]%Z in
  exists sch c h s t, fair sch /\ find_loops (fun _ => sch) 20 5 g = Ok (Some ([c], h)) /\ value h c = [s; t] /\
    pt_eqb (si s) (sj t) = true /\ pt_eqb (sj s) (si t) = true.
Proof. exact false_loop. Qed.
Print Assumptions C46_false_loop_refuted.
