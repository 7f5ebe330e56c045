(** GENERATED by tools/gen_props.py from PDouble.v: the property theorems only. *)
From Coq Require Import ZArith Reals Lra Lia Bool List Permutation Arith Floats.SpecFloat.
From Flocq Require Import Core BinarySingleNaN.
From Verif Require Import Base Arith ArithR ArithF MPoint MLine MPoly MHeap Spec SpecHeap SpecDouble PPoint PFlocq PHeap.
Import ListNotations.
Local Open Scope R_scope.
From Verif Require Import PDouble.

(** C87: the Point made of two doubles stands for the exact Point made of the two real numbers they
    are: each coordinate is the double nearest to the decimal nearest to the given number. *)
Theorem C87_stored : forall L (x y : F), double x -> double y ->
  stands_pt (Point_new (A := FA L) x y) (Point_new (A := RA) (value x) (value y)).
Proof. exact stored_double. Qed.
Print Assumptions C87_stored.

(** C87: a stored coordinate is not changed when it is stored again. *)
Theorem C87_again : forall L (p : pt (FA L)) (q : pt RA), stands_pt p q -> stored q -> moderate q -> Point_new (px p) (py p) = p.
Proof. exact store_again. Qed.
Print Assumptions C87_again.

(** C87: sums and differences of Points are exact. *)
Theorem C87_sum : forall L (p1 p2 : pt (FA L)) (q1 q2 : pt RA), stands_pt p1 q1 -> stands_pt p2 q2 -> stored q1 -> stored q2 -> moderate q1 -> moderate q2 ->
  stands_pt (pt_add p1 p2) (@mkpt RA (px q1 + px q2) (py q1 + py q2)) /\ stands_pt (pt_sub p1 p2) (@mkpt RA (px q1 - px q2) (py q1 - py q2)).
Proof. exact sum_double. Qed.
Print Assumptions C87_sum.

(** C87: two stored Points are the same (as members of a set) exactly if they stand for the same exact
    Point, they are sorted as these, and == answers the same question if these are identical or more
    than 1e-5 apart. *)
Theorem C87_compare : forall L (p1 p2 : pt (FA L)) (q1 q2 : pt RA), stands_pt p1 q1 -> stands_pt p2 q2 -> stored q1 -> stored q2 -> moderate q1 -> moderate q2 ->
  (pt_sameb p1 p2 = true <-> q1 = q2) /\ (lex_ltb p1 p2 = true <-> px q1 < px q2 \/ px q1 = px q2 /\ py q1 < py q2) /\
  (clear_of q1 q2 -> (pt_eqb p1 p2 = true <-> q1 = q2)).
Proof. exact compare_double. Qed.
Print Assumptions C87_compare.

(** C87: adding a Point and subtracting it again restores the Point. *)
Theorem C87_undo : forall L (p1 p2 : pt (FA L)) (q1 q2 : pt RA), stands_pt p1 q1 -> stands_pt p2 q2 -> stored q1 -> stored q2 -> moderate q1 -> moderate q2 ->
  moderate (@mkpt RA (px q1 + px q2) (py q1 + py q2)) -> pt_sameb (pt_sub (pt_add p1 p2) p2) p1 = true.
Proof. exact undo_double. Qed.
Print Assumptions C87_undo.

(** C87: the running program carries out any history of moves and reflections by decimals exactly: each
    end point of each segment becomes the double nearest to the true place of its exact counterpart,
    and the polygon has the same segments and shares the same Point objects as in exact arithmetic. *)
Theorem C87_history : forall L (ts : list step) (ds : list dstep) (hf : heap (FA L)) (h : heap RA) (P : hpoly),
  sound h P -> all_stored h (hsegs P) -> Forall step_decimal8 ts -> Forall2 stands_step ds ts ->
  (forall a b, In a (objects (hsegs P)) -> In b (objects (hsegs P)) -> clear_of (h a) (h b)) ->
  (forall o, In o (objects (hsegs P)) -> stands_pt (hf o) (h o)) ->
  (forall k o, In o (objects (hsegs P)) -> moderate (place_after (firstn k ts) (h o))) ->
  let '(hf', Pf') := run_dsteps ds hf P in
  Forall2 stands_seg (view hf' (hsegs Pf')) (map (seg_image (place_after ts)) (view h (hsegs P))) /\
  Pf' = snd (run_steps ts h P) /\ (forall o, ~ In o (objects (hsegs P)) -> hf' o = hf o).
Proof. exact history_double. Qed.
Print Assumptions C87_history.

(** C87: the opposite of a double stands for the opposite of the decimal. *)
Theorem C87_opposite : forall (x : F) (u : R), stands x u -> stands (SFopp x) (- u).
Proof. exact stands_opp. Qed.
Print Assumptions C87_opposite.

(** C87: a history that leads every end point back to its place restores the polygon of the running
    program: every coordinate is the same number again. *)
Theorem C87_restored : forall L (ts : list step) (ds : list dstep) (hf : heap (FA L)) (h : heap RA) (P : hpoly),
  sound h P -> all_stored h (hsegs P) -> Forall step_decimal8 ts -> Forall2 stands_step ds ts ->
  (forall a b, In a (objects (hsegs P)) -> In b (objects (hsegs P)) -> clear_of (h a) (h b)) ->
  (forall o, In o (objects (hsegs P)) -> stands_pt (hf o) (h o)) ->
  (forall k o, In o (objects (hsegs P)) -> moderate (place_after (firstn k ts) (h o))) ->
  (forall o, In o (objects (hsegs P)) -> place_after ts (h o) = h o) ->
  let '(hf', Pf') := run_dsteps ds hf P in
  Forall2 (fun s s' : seg (FA L) => sc s' = sc s /\ pt_sameb (si s') (si s) = true /\ pt_sameb (sj s') (sj s) = true) (view hf (hsegs P)) (view hf' (hsegs Pf')).
Proof. exact restored_double. Qed.
Print Assumptions C87_restored.

(** C87: the hypotheses hold for the triangle; 1/10 + 2/10 is stored as the double nearest to 3/10,
    which the sum of the doubles is not. *)
Example C87_example : forall L : Libm,
  sound ten_heap ten_poly /\ all_stored ten_heap (hsegs ten_poly) /\ Forall step_decimal8 ten_steps /\ Forall2 stands_step ten_dsteps ten_steps /\
  (forall a b, In a (objects (hsegs ten_poly)) -> In b (objects (hsegs ten_poly)) -> clear_of (ten_heap a) (ten_heap b)) /\
  (forall o, In o (objects (hsegs ten_poly)) -> stands_pt (ten_dheap L o) (ten_heap o)) /\
  (forall k o, In o (objects (hsegs ten_poly)) -> moderate (place_after (firstn k ten_steps) (ten_heap o))) /\
  SFeqb (Fadd (Fdec 1 10) (Fdec 2 10)) (Fdec 3 10) = false /\
  let '(h, P) := run_dsteps [DShift (Fdec 2 10) (Fdec (-7) 10)] (ten_dheap L) ten_poly in
  map (fun s => (px (si s), py (si s))) (view h (hsegs P)) = [(Fdec 2 10, Fdec (-7) 10); (Fdec 3 10, Fdec (-7) 10); (Fdec 3 10, Fdec (-4) 10)].
Proof. exact double_example. Qed.

(** C87, limit: at a distance of exactly 1e-5 the answer of == depends on the place: 1 and 1.00001
    differ, but moved by 3 they are equal. *)
Theorem C87_tolerance_refuted : forall L : Libm,
  let P x : pt (FA L) := Point_new (A := FA L) x (FofZ 0) in
  let a := P (FofZ 1) in let b := P (Fdec 100001 100000) in let three := P (FofZ 3) in
  pt_eqb a b = false /\ pt_eqb (pt_add a three) (pt_add b three) = true.
Proof. exact tolerance_refuted. Qed.
Print Assumptions C87_tolerance_refuted.

(** C87, limit: far outside the range decimals are lost: 1/10 moved by 100000000 and back is 0.09999999. *)
Theorem C87_large_refuted : forall L : Libm,
  let P x : pt (FA L) := Point_new (A := FA L) x (FofZ 0) in
  let a := P (Fdec 1 10) in let v := P (FofZ 100000000) in
  px (pt_sub (pt_add a v) v) = Fdec 9999999 100000000 /\ pt_sameb (pt_sub (pt_add a v) v) a = false.
Proof. exact large_refuted. Qed.
Print Assumptions C87_large_refuted.
