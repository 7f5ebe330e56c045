(** GENERATED by tools/gen_props.py from PSplit.v: the property theorems only. *)
From Coq Require Import Reals ZArith List Bool Arith Lia Lra Psatz Permutation.
From Verif Require Import Base Arith ArithR MPoint MLine MPoly MVessel MSplit Spec SpecHeap SpecInside SpecPurge SpecSplit PPoint PLine PPoly PShape PHeap PConvex POrder PInside PPurge.
Import ListNotations.
Local Open Scope R_scope.
#[local] Existing Instance RA.
From Verif Require Import PSplit.

(** Cutting at a height: heads are left alone; otherwise the walls spanning the height are replaced, in place of each come its
    two pieces at the end of the part, and the answer tells whether there was such a wall.  The walls must not all stand
    on one vertical line. *)
Theorem C55_split_height : forall (segs : list (seg RA)) (v : R), decimal8 v -> cuttable v segs ->
  (forall s, In s segs -> is_a_wall s = true -> Rabs (px (si s)) <= 10^11 /\ Rabs (px (sj s)) <= 10^11 /\ Rabs (py (si s)) <= 10^11 /\ Rabs (py (sj s)) <= 10^11) ->
  (exists p q, In p (flat_map (fun s => [si s; sj s]) (filter is_a_wall segs)) /\ In q (flat_map (fun s => [si s; sj s]) (filter is_a_wall segs)) /\ px p + 1 / 10^4 <= px q) ->
  split_v false segs v = Ok (existsb (fun s => is_a_wall s && spans v s) segs, after_cut v segs) /\
  split_v true segs v = Ok (false, segs).
Proof. exact split_v_spec. Qed.
Print Assumptions C55_split_height.

(** Cutting with a horizontal RaumEnde that reaches beyond every wall it meets: the part is cut as at its height.  Kept, the RaumEnde
    does not change.  Not kept, and meeting exactly two walls (first a, then b), it becomes a ring: wall up to the cut of b,
    opening between the cuts, wall from the cut of a on. *)
Theorem C55_split_with : forall (segs : list (seg RA)) (xl xr v : R), decimal8 v -> cuttable v segs -> reaches xl xr v segs ->
  let cl := @mkseg RA CWall (@mkpt RA xl v) (@mkpt RA xr v) in
  let cutwalls := filter (fun s => is_a_wall s && spans v s) segs in
  split_ht false segs cl true = mksr (after_cut v segs) [cl] (Ok (existsb (fun s => is_a_wall s && spans v s) segs)) /\
  (cutwalls = [] -> split_ht false segs cl false = mksr segs [cl] (Ok false)) /\
  (forall a b, cutwalls = [a; b] ->
    split_ht false segs cl false = mksr (after_cut v segs)
      [@mkseg RA CWall (@mkpt RA xl v) (cut_point v b); @mkseg RA CNonWall (cut_point v b) (cut_point v a); @mkseg RA CWall (cut_point v a) (@mkpt RA xr v)] (Ok true)).
Proof. exact split_ht_spec. Qed.
Print Assumptions C55_split_with.

(** Meeting exactly one wall, the RaumEnde cannot become a ring: the call raises IndexError, but the part has been cut already. *)
Theorem C55_one_wall_refuted : forall (segs : list (seg RA)) (xl xr v : R) a, decimal8 v -> cuttable v segs -> reaches xl xr v segs ->
  filter (fun s => is_a_wall s && spans v s) segs = [a] ->
  let cl := @mkseg RA CWall (@mkpt RA xl v) (@mkpt RA xr v) in
  split_ht false segs cl false = mksr (after_cut v segs) [cl] (Err IndexError) /\ ~ In a (after_cut v segs).
Proof. exact split_ht_one. Qed.
Print Assumptions C55_one_wall_refuted.

(** A cylinder of diameter 2 and height 4, cut at height 1. *)
Example C55_example : let i a b := @mkpt RA a b in
  split_v false (mantel_segments (A := RA) 0 0 2 2 4) 1 =
  Ok (true, [NonWall (i 1 4) (i (-1) 4); NonWall (i (-1) 0) (i 1 0);
             Wall (i 1 0) (i 1 1); Wall (i 1 1) (i 1 4); Wall (i (-1) 4) (i (-1) 1); Wall (i (-1) 1) (i (-1) 0)]).
Proof. exact split_example. Qed.
