(** GENERATED by tools/gen_props.py from PVessel.v: the property theorems only. *)
From Coq Require Import Reals ZArith Lra Lia Bool List Permutation Arith Psatz.
From Verif Require Import Base Arith ArithR ArithF MPoint MLine MPoly MHeap MVessel Spec SpecHeap SpecInside PPoint PLine PPoly PShape PHeap PConvex PInside.
Import ListNotations.
#[local] Existing Instance RA.
From Verif Require Import PVessel.

(** C53: a Mantel with an 8-decimal axis has the right wall from (pos_h + d0/2, pos_v) to
    (pos_h + d1/2, pos_v + h), up to the rounding of the corners, the left wall is its exact mirror image,
    two non-walls join them to a closed line, and the graph consists of the two walls. *)
Theorem C53_mantel : forall (pos_v pos_h d0 d1 h : R), decimal8 pos_h ->
  let l := mantel_segments pos_v pos_h d0 d1 h in
  exists p1 p2, l = [Wall p1 p2; NonWall p2 (mirror pos_h p2); Wall (mirror pos_h p2) (mirror pos_h p1); NonWall (mirror pos_h p1) p1] /\
    within (5 / 10^9) p1 (@mkpt RA (pos_h + d0 / 2) pos_v) /\ within (5 / 10^9) p2 (@mkpt RA (pos_h + d1 / 2) (pos_v + h)) /\
    (decimal8 (d0 / 2) -> decimal8 (d1 / 2) -> decimal8 pos_v -> decimal8 h ->
       p1 = @mkpt RA (pos_h + d0 / 2) pos_v /\ p2 = @mkpt RA (pos_h + d1 / 2) (pos_v + h)) /\
    isclosed l = Ok true /\
    wall_segments l = [Wall p1 p2; Wall (mirror pos_h p2) (mirror pos_h p1)].
Proof. exact mantel_spec. Qed.
Print Assumptions C53_mantel.

(** C53: a Mantel with an 8-decimal axis whose diameters and height are at least 4e-5 is valid. *)
Theorem C53_valid : forall (pos_v pos_h d0 d1 h : R), decimal8 pos_h ->
  4 / 10^5 <= d0 -> 4 / 10^5 <= d1 -> 4 / 10^5 <= h ->
  mantel_isvalid (mantel_segments pos_v pos_h d0 d1 h) = Ok true.
Proof. exact mantel_valid. Qed.
Print Assumptions C53_valid.

(** C53: a part is valid as a Mantel exactly if it has two walls, the first starting at the height where the
    second ends and ending at the height where the second starts, with a vertical axis, and if its
    segments are a valid polygon. *)
Theorem C53_isvalid : forall l : list (seg RA), mantel_isvalid l = Ok true <->
  exists s0 s1, filter (fun s => match sc s with CWall => true | _ => false end) l = [s0; s1] /\
    py (si s0) = py (sj s1) /\ py (sj s0) = py (si s1) /\ (px (si s0) + px (sj s1) = px (sj s0) + px (si s1))%R /\
    poly_isvalid l = Ok true.
Proof. exact mantel_isvalid_iff. Qed.
Print Assumptions C53_isvalid.

(** C53: a StandZarge has the Mantel's outline with a Wall below, so three walls and isvalid is always
    False, in every arithmetic. *)
Theorem C53_standzarge : forall (A : Arith) (pos_v pos_h d0 d1 h : @num A),
  let m := mantel_segments pos_v pos_h d0 d1 h in let s := standzarge_segments pos_v pos_h d0 d1 h in
  map (fun x => (si x, sj x)) s = map (fun x => (si x, sj x)) m /\
  map (@sc A) s = [CWall; CNonWall; CWall; CWall] /\ mantel_isvalid s = Ok false.
Proof. exact standzarge_spec. Qed.
Print Assumptions C53_standzarge.

(** C53: a Flachboden or RaumEnde with 8-decimal sizes is one Wall from (pos_h - d/2, pos_v) to (pos_h + d/2, pos_v). *)
Theorem C53_flat : forall (pos_v pos_h d : R), decimal8 pos_v -> decimal8 pos_h -> decimal8 (d / 2) ->
  flachboden_segments (A := RA) pos_v pos_h d = [Wall (@mkpt RA (pos_h - d / 2) pos_v) (@mkpt RA (pos_h + d / 2) pos_v)].
Proof. exact flat_spec. Qed.
Print Assumptions C53_flat.

(** C53, finding: in binary64 the Mantel with axis 0.1, diameters 0.1 and 0.4 and height 1 is reported invalid,
    because the test for the vertical axis compares two rounded means with ==. *)
Theorem C53_axis_refuted : forall L, let z k : @num (FA L) := nofZ k in
  mantel_isvalid (mantel_segments (z 0%Z) (ndec 1 10) (ndec 1 10) (ndec 4 10) (z 1%Z)) = Ok false.
Proof. exact axis_refuted. Qed.
Print Assumptions C53_axis_refuted.

Example C53_example : mantel_isvalid (mantel_segments (A := RA) 0 1 2 4 3) = Ok true /\
  flachboden_segments (A := RA) 1 0 2 = [Wall (@mkpt RA (-1) 1) (@mkpt RA 1 1)].
Proof. exact mantel_example. Qed.
