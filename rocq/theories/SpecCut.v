(** Vocabulary for cutting the parts of a vessel with one RaumEnde. *)
From Coq Require Import Reals List Bool.
From Verif Require Import Base Arith ArithR MPoint MLine MSplit Spec SpecHeap SpecInside SpecPurge SpecSplit.
Import ListNotations.
Local Open Scope R_scope.

(** The horizontal wall from (xl, v) to (xr, v). *)
Definition plate (xl xr v : R) : seg RA := @mkseg RA CWall (@mkpt RA xl v) (@mkpt RA xr v).
(** The plate with the opening between the cuts of b (left) and a (right). *)
Definition ring_of (xl xr v : R) (a b : seg RA) : list (seg RA) :=
  [@mkseg RA CWall (@mkpt RA xl v) (cut_point v b); @mkseg RA CNonWall (cut_point v b) (cut_point v a); @mkseg RA CWall (cut_point v a) (@mkpt RA xr v)].
(** The walls of the part that the plate meets. *)
Definition met (xl xr v : R) (segs : list (seg RA)) : list (seg RA) := filter (fun s => is_a_wall s && meets xl xr v s) segs.
(** The part can be cut at height v and the plate does not end near one of its walls. *)
Definition cut_fit (xl xr v : R) (p : vpart RA) : Prop := cuttable v (vp_segs p) /\ decided xl xr v (vp_segs p).

(** The parts are cut one after the other with the RaumEnde, whose first wall is the plate from xl to xr and whose segments
    are own at present: an own new value of xr and own come out, and whether an exception is raised.
    - The RaumEnde does not cut itself; heads are not cut; a part that the first wall does not meet stays.
    - A part with two walls that the first wall meets is cut; the RaumEnde becomes a ring, and its first wall shorter.
    - A part with one wall that the first wall meets is cut, then an exception is raised. *)
Inductive in_turn (xl v : R) : R * list (seg RA) -> list (vpart RA) -> list (vpart RA) -> R * list (seg RA) -> res unit -> Prop :=
| turn_end : forall st, in_turn xl v st [] [] st (Ok tt)
| turn_ende : forall st p ps ps' st' r, vp_ende p = true -> in_turn xl v st ps ps' st' r -> in_turn xl v st (p :: ps) (p :: ps') st' r
| turn_head : forall st p ps ps' st' r, vp_ende p = false -> vp_head p = true -> in_turn xl v st ps ps' st' r -> in_turn xl v st (p :: ps) (p :: ps') st' r
| turn_missed : forall xr own p ps ps' st' r, vp_ende p = false -> vp_head p = false -> cut_fit xl xr v p -> met xl xr v (vp_segs p) = [] ->
    in_turn xl v (xr, own) ps ps' st' r -> in_turn xl v (xr, own) (p :: ps) (p :: ps') st' r
| turn_cut : forall xr own p ps ps' st' r a b, vp_ende p = false -> vp_head p = false -> cut_fit xl xr v p -> met xl xr v (vp_segs p) = [a; b] ->
    in_turn xl v (px (cut_point v b), ring_of xl xr v a b) ps ps' st' r ->
    in_turn xl v (xr, own) (p :: ps) (with_segs p (cut_where (meets xl xr v) v (vp_segs p)) :: ps') st' r
| turn_fail : forall xr own p ps a, vp_ende p = false -> vp_head p = false -> cut_fit xl xr v p -> met xl xr v (vp_segs p) = [a] ->
    in_turn xl v (xr, own) (p :: ps) (with_segs p (cut_where (meets xl xr v) v (vp_segs p)) :: ps) (xr, own) (Err IndexError).

(** The parts with these segments for the RaumEnde. *)
Definition put (own : list (seg RA)) (parts : list (vpart RA)) : list (vpart RA) := map (fun p => if vp_ende p then with_segs p own else p) parts.
