(** GENERATED by tools/gen_props.py from PCut.v: the property theorems only. *)
From Coq Require Import Reals ZArith List Bool Arith Lia Lra Psatz Permutation.
From Verif Require Import Base Arith ArithR MPoint MLine MPoly MVessel MSplit Spec SpecHeap SpecInside SpecPurge SpecSplit SpecCut PPoint PLine PPoly PShape PHeap PConvex POrder PInside PPurge PSplit.
Import ListNotations.
Local Open Scope R_scope.
#[local] Existing Instance RA.
From Verif Require Import PCut.

(** A vessel with one RaumEnde is cut part after part, in the order of the parts: see [in_turn] for what happens to each. *)
Theorem C83_in_turn : forall (l1 l2 parts' : list (vpart RA)) (e : vpart RA) (xl xr v xr' : R) (own' : list (seg RA)) (r : res unit), decimal8 v ->
  vp_ende e = true -> vp_segs e = [plate xl xr v] -> Forall (fun p => vp_ende p = false) l1 -> Forall (fun p => vp_ende p = false) l2 ->
  in_turn xl v (xr, [plate xl xr v]) (l1 ++ e :: l2) parts' (xr', own') r ->
  cut_by_raumende (l1 ++ e :: l2) = (put own' parts', r).
Proof. exact cut_in_turn. Qed.
Print Assumptions C83_in_turn.

(** If the RaumEnde meets walls of one part only, and two of them, this part is cut there, the RaumEnde becomes a ring that
    is open between them, and all other parts stay; the order of the parts does not matter. *)
Theorem C83_one_part : forall (l1 l2 A B : list (vpart RA)) (e q : vpart RA) (xl xr v : R) (a b : seg RA), decimal8 v ->
  vp_ende e = true -> vp_segs e = [plate xl xr v] -> Forall (fun p => vp_ende p = false) l1 -> Forall (fun p => vp_ende p = false) l2 ->
  l1 ++ e :: l2 = A ++ q :: B -> vp_ende q = false -> vp_head q = false -> cut_fit xl xr v q -> met xl xr v (vp_segs q) = [a; b] ->
  (forall p, In p A \/ In p B -> vp_ende p = false -> vp_head p = false -> cut_fit xl xr v p /\ met xl xr v (vp_segs p) = []) ->
  cut_by_raumende (l1 ++ e :: l2) = (put (ring_of xl xr v a b) (A ++ with_segs q (cut_where (meets xl xr v) v (vp_segs q)) :: B), Ok tt).
Proof. exact cut_one_part. Qed.
Print Assumptions C83_one_part.

(** If the RaumEnde meets no wall, or there is none, no part changes. *)
Theorem C83_missed : forall (l1 l2 : list (vpart RA)) (e : vpart RA) (xl xr v : R), decimal8 v ->
  Forall (fun p => vp_ende p = false) l1 -> Forall (fun p => vp_ende p = false) l2 ->
  cut_by_raumende (l1 ++ l2) = (l1 ++ l2, Ok tt) /\
  (vp_ende e = true -> vp_segs e = [plate xl xr v] ->
   (forall p, In p (l1 ++ l2) -> vp_head p = false -> cut_fit xl xr v p /\ met xl xr v (vp_segs p) = []) ->
   cut_by_raumende (l1 ++ e :: l2) = (l1 ++ e :: l2, Ok tt)).
Proof. exact cut_none. Qed.
Print Assumptions C83_missed.

(** A RaumEnde through two parts, one inside the other: with the outer part first, the inner part is not cut although the
    RaumEnde runs through its walls, and the opening leaves nothing of the RaumEnde inside the outer part. *)
Theorem C83_inner_refuted : forall (outer inner e : vpart RA) (xl xr v : R) (a b a' b' : seg RA), decimal8 v ->
  vp_ende e = true -> vp_segs e = [plate xl xr v] -> vp_ende outer = false -> vp_head outer = false -> vp_ende inner = false -> vp_head inner = false ->
  cut_fit xl xr v outer -> cut_fit xl xr v inner -> met xl xr v (vp_segs outer) = [a; b] -> met xl xr v (vp_segs inner) = [a'; b'] ->
  x_at v b + 3 / 10^5 <= x_at v a' -> x_at v b + 3 / 10^5 <= x_at v b' ->
  cut_by_raumende [outer; inner; e] = ([with_segs outer (cut_where (meets xl xr v) v (vp_segs outer)); inner; with_segs e (ring_of xl xr v a b)], Ok tt).
Proof. exact inner_not_cut. Qed.
Print Assumptions C83_inner_refuted.

(** With the inner part first, the vessel cannot be made: the left part of the ring meets one wall of the outer part only. *)
Theorem C83_outer_refuted : forall (outer inner e : vpart RA) (xl xr v : R) (a b a' b' : seg RA), decimal8 v ->
  vp_ende e = true -> vp_segs e = [plate xl xr v] -> vp_ende outer = false -> vp_head outer = false -> vp_ende inner = false -> vp_head inner = false ->
  cut_fit xl xr v outer -> cut_fit xl xr v inner -> met xl xr v (vp_segs outer) = [a; b] -> met xl xr v (vp_segs inner) = [a'; b'] ->
  x_at v b + 3 / 10^5 <= x_at v b' -> x_at v b' + 3 / 10^5 <= x_at v a ->
  snd (cut_by_raumende [inner; outer; e]) = Err IndexError.
Proof. exact outer_fails. Qed.
Print Assumptions C83_outer_refuted.

(** Two shells of radius 2 and 1, 4 high, and a RaumEnde of diameter 6 at height 1: the shell named first decides. *)
Example C83_example : let i a b := @mkpt RA a b in
  let shell x := mkvp false false (mantel_segments (A := RA) 0 0 (2 * x) (2 * x) 4) in let re := mkvp false true [plate (-3) 3 1] in
  cut_by_raumende [shell 2; shell 1; re] =
    ([mkvp false false [NonWall (i 2 4) (i (- (2)) 4); NonWall (i (- (2)) 0) (i 2 0);
        Wall (i 2 0) (i 2 1); Wall (i 2 1) (i 2 4); Wall (i (- (2)) 4) (i (- (2)) 1); Wall (i (- (2)) 1) (i (- (2)) 0)];
      shell 1; mkvp false true [Wall (i (-3) 1) (i (- (2)) 1); NonWall (i (- (2)) 1) (i 2 1); Wall (i 2 1) (i 3 1)]], Ok tt) /\
  snd (cut_by_raumende [shell 1; shell 2; re]) = Err IndexError.
Proof. exact cut_example. Qed.
