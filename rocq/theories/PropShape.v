(** GENERATED by tools/gen_props.py from PShape.v: the property theorems only. *)
From Coq Require Import Reals ZArith Lra Lia Bool List Psatz Permutation.
From Verif Require Import Base Arith ArithR ArithF MPoint MLine MPoly Spec PPoint PLine.
Import ListNotations.
Local Open Scope R_scope.
#[local] Existing Instance RA.
From Verif Require Import PShape.

(** C25: closedness, and the effect of close() and closed_copy on a polygon line with first
    segment s and last segment [last l s]. *)
Theorem C25_close : forall (s : seg RA) (l : list (seg RA)),
  let p := s :: l in
  let a := si s in let b := sj (last l s) in
  isclosed p = Ok (iscontinuous p && pt_eqb a b) /\
  isopen p = Ok (negb (iscontinuous p && pt_eqb a b)) /\
  (isclosed p = Ok true -> close p = Ok p) /\
  (isclosed p = Ok false -> close p = Ok (p ++ [LineSegment b a])) /\
  closed_copy p = close p /\
  (iscontinuous p = true -> forall p', close p = Ok p' -> isclosed p' = Ok true /\ close p' = Ok p').
Proof. exact close_spec. Qed.
Print Assumptions C25_close.

(** C25, finding: a discontinuous line can never be closed; every call of close() appends one
    more segment.  On a polygon without segments even the question fails. *)
Theorem C25_discontinuous_refuted : forall (A : Arith) (s : seg A) (l : list (seg A)),
  iscontinuous (s :: l) = false ->
  (exists c, close (s :: l) = Ok ((s :: l) ++ [c]) /\ isclosed ((s :: l) ++ [c]) = Ok false /\
             iscontinuous ((s :: l) ++ [c]) = false) /\
  @isclosed A [] = Err IndexError.
Proof. exact close_discontinuous. Qed.
Print Assumptions C25_discontinuous_refuted.

(** C33: appending a Point at either end. *)
Theorem C33_append : forall (s : seg RA) (l : list (seg RA)) (p : pt RA),
  (exists c, append_point_at_end (s :: l) p = Ok ((s :: l) ++ [c]) /\
     si c = sj (last l s) /\ sj c = p /\ last_point ((s :: l) ++ [c]) = Ok p /\
     iscontinuous ((s :: l) ++ [c]) = iscontinuous (s :: l)) /\
  (exists c, append_point_at_beginning (s :: l) p = Ok (c :: s :: l) /\
     si c = p /\ sj c = si s /\ first_point (c :: s :: l) = Ok p /\
     iscontinuous (c :: s :: l) = iscontinuous (s :: l)).
Proof. exact append_spec. Qed.
Print Assumptions C33_append.

(** C26: the breaks, any arithmetic: the k-th segment after a segment it does not continue, in
    order; empty exactly for a continuous line. *)
Theorem C26_discontinuity : forall (A : Arith) (l : list (seg A)) (d : seg A),
  discontinuity l =
    map (fun k => nth (S k) l d)
        (filter (fun k => negb (continuous (nth k l d) (nth (S k) l d))) (seq 0 (length l - 1))) /\
  (discontinuity l = [] <->
   forall k s t, nth_error l k = Some s -> nth_error l (S k) = Some t -> continuous s t = true) /\
  (discontinuity l = [] <-> iscontinuous l = true).
Proof. exact discontinuity_spec. Qed.
Print Assumptions C26_discontinuity.

(** C43: the result is a sub-list; for end points that are identical or further apart than the
    tolerance a segment is kept exactly if each of its two end points occurs at another end too. *)
Theorem C43_remove_outliers : forall l : list (seg RA),
  (exists f, remove_outlier_segments l = filter f l) /\
  (separated (flat_map ij l) ->
   forall s, In s (remove_outlier_segments l) <->
     In s l /\ forall p, In p (ij s) -> occurs_twice p (flat_map ij l)).
Proof. exact remove_outliers_spec. Qed.
Print Assumptions C43_remove_outliers.

(** C43: the segments of a closed cycle - in any order, any directions, among any others - are kept. *)
Theorem C43_cycles_kept : forall (l cyc rest : list (seg RA)) (vs : list (pt RA)),
  Permutation l (cyc ++ rest) -> Forall2 joins (cycle_edges vs) cyc -> separated (flat_map ij l) ->
  forall s, In s cyc -> In s (remove_outlier_segments l).
Proof. exact cycles_kept. Qed.
Print Assumptions C43_cycles_kept.

(** C43, finding (binary64): one pass leaves new outliers on a dangling chain of two segments. *)
Theorem C43_chain_refuted : forall L : Libm, exists l : list (seg (FA L)),
  length (remove_outlier_segments l) = 4%nat /\
  length (remove_outlier_segments (remove_outlier_segments l)) = 3%nat.
Proof. exact chain_refuted. Qed.
Print Assumptions C43_chain_refuted.

(** C36, finding: with the same draws for both inside tests is_on_boundary is never True; and it is
    False for every vertex and for every point whatever the draws unless the two inside tests
    disagree (any arithmetic). *)
Theorem C36_on_boundary_refuted : forall (A : Arith) (l : list (seg A)) (p : pt A) (d d1 d2 : nat -> num * num) (fuel : nat),
  (forall r, is_on_boundary l p d d fuel = Ok (Some r) -> r = false) /\
  (existsb (fun q => pt_eqb q p) (point_set l) = true -> is_on_boundary l p d1 d2 fuel = Ok (Some false)) /\
  (is_on_boundary l p d1 d2 fuel = Ok (Some true) ->
   poly_is_internal_point l p d1 fuel = Ok (Some false) /\ poly_is_internal_point l p d2 fuel = Ok (Some true)).
Proof. exact on_boundary_spec. Qed.
Print Assumptions C36_on_boundary_refuted.

(** C40: one segment per consecutive node pair, through the rounded nodes. *)
Theorem C40_polygon_from_nodes : forall (A : Arith) (nodes : list (num * num)),
  length (polygon_from_nodes nodes false) = (length nodes - 1)%nat /\
  (forall k a b, nth_error nodes k = Some a -> nth_error nodes (S k) = Some b ->
     nth_error (polygon_from_nodes nodes false) k =
       Some (LineSegment (Point_new (fst a) (snd a)) (Point_new (fst b) (snd b)))).
Proof. exact from_nodes_spec. Qed.
Print Assumptions C40_polygon_from_nodes.

(** C40: cw=True visits the first node, then the others backwards; doing it twice is the identity. *)
Theorem C40_cw : forall (A : Arith) (n : num * num) (r : list (num * num)),
  polygon_from_nodes (n :: r) true = polygon_from_nodes (n :: rev r) false /\
  polygon_from_nodes (n :: rev r) true = polygon_from_nodes (n :: r) false.
Proof. exact cw_nodes_spec. Qed.
Print Assumptions C40_cw.

(** C44: add succeeds only for valid operands not all closed; the result is valid and has the
    segments of all operands in order, and the first operand has become equal to the result. *)
Theorem C44_add : forall (A : Arith) (l : list (seg A)) (os : list (list (seg A))) l' sum,
  poly_add l os = Ok (l', sum) ->
  sum = l ++ concat os /\ l' = sum /\ poly_isvalid sum = Ok true /\ poly_isvalid l = Ok true /\
  (forall o, In o os -> poly_isvalid o = Ok true) /\
  (isclosed l = Ok false \/ exists o, In o os /\ isclosed o = Ok false).
Proof. exact add_spec. Qed.
Print Assumptions C44_add.

(** C60, finding: LineSegment.midpoint is the point at one third of the segment, so it is halfway
    only for null segments; it changes when the segment is reversed. *)
Theorem C60_midpoint_refuted : forall s : seg RA,
  seg_midpoint s = (px (along (si s) (sj s) (1/3)), py (along (si s) (sj s) (1/3))) /\
  (seg_midpoint s = (px (along (si s) (sj s) (1/2)), py (along (si s) (sj s) (1/2))) <-> si s = sj s) /\
  (seg_midpoint (seg_reverse s) = seg_midpoint s <-> si s = sj s).
Proof. exact midpoint_third. Qed.
Print Assumptions C60_midpoint_refuted.
