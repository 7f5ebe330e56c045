(** Vocabulary for cutting a part along a horizontal line. *)
From Coq Require Import Reals List Bool.
From Verif Require Import Base Arith ArithR MPoint MLine Spec SpecHeap SpecInside SpecPurge.
Import ListNotations.
Local Open Scope R_scope.

(** The height v lies strictly between the ends of the segment. *)
Definition spans (v : R) (s : seg RA) : bool :=
  match Rlt_dec (py (si s)) v, Rlt_dec v (py (sj s)), Rlt_dec (py (sj s)) v, Rlt_dec v (py (si s)) with
  | left _, left _, _, _ => true
  | _, _, left _, left _ => true
  | _, _, _, _ => false
  end.
(** Where the line of the segment is at height v. *)
Definition x_at (v : R) (s : seg RA) : R := px (si s) + (v - py (si s)) / (py (sj s) - py (si s)) * (px (sj s) - px (si s)).
(** The stored Point there. *)
Definition cut_point (v : R) (s : seg RA) : pt RA := @mkpt RA (Rround8 (x_at v s)) v.
(** The two pieces of the segment. *)
Definition halves (v : R) (s : seg RA) : list (seg RA) := [@mkseg RA (sc s) (si s) (cut_point v s); @mkseg RA (sc s) (cut_point v s) (sj s)].

(** No end of the segment is within 2e-5 of the height v. *)
Definition clear_of (v : R) (s : seg RA) : Prop := 2 / 10^5 <= Rabs (py (si s) - v) /\ 2 / 10^5 <= Rabs (py (sj s) - v).
(** The segments differ: in class, or in one of their ends by more than the tolerance. *)
Definition differ (s t : seg RA) : Prop := sc s <> sc t \/ ~ close (si s) (si t) \/ ~ close (sj s) (sj t).
(** The segments share an end or stay apart. *)
Definition no_crossing (s t : seg RA) : Prop :=
  (exists p, In p [si s; sj s] /\ In p [si t; sj t]) \/ apart (si s) (sj s) (si t) (sj t).
Definition is_a_wall (s : seg RA) : bool := match sc s with CWall => true | _ => false end.
(** A part that can be cut at height v: stored coordinates, distinct segments, walls that do not cross and do not end near v. *)
Definition cuttable (v : R) (segs : list (seg RA)) : Prop :=
  (forall s, In s segs -> stored (si s) /\ stored (sj s)) /\ ForallOrdPairs differ segs /\
  ForallOrdPairs no_crossing (filter is_a_wall segs) /\ (forall s, In s segs -> is_a_wall s = true -> clear_of v s).
(** What is left of the part: the other segments in their order, then the pieces of the cut walls. *)
Definition after_cut (v : R) (segs : list (seg RA)) : list (seg RA) :=
  filter (fun s => negb (is_a_wall s && spans v s)) segs ++ flat_map (halves v) (filter (fun s => is_a_wall s && spans v s) segs).
(** The cutter from (xl, v) to (xr, v) reaches beyond every wall it meets. *)
Definition reaches (xl xr v : R) (segs : list (seg RA)) : Prop :=
  xl < xr /\ forall s, In s segs -> is_a_wall s = true -> spans v s = true -> xl + 2 / 10^5 <= x_at v s <= xr - 2 / 10^5.

(** The cutter from (xl, v) to (xr, v) meets the segment. *)
Definition meets (xl xr v : R) (s : seg RA) : bool :=
  spans v s && (if Rlt_dec xl (x_at v s) then true else false) && (if Rlt_dec (x_at v s) xr then true else false).
(** The part after the cut of those walls for which [g] holds. *)
Definition cut_where (g : seg RA -> bool) (v : R) (segs : list (seg RA)) : list (seg RA) :=
  filter (fun s => negb (is_a_wall s && g s)) segs ++ flat_map (halves v) (filter (fun s => is_a_wall s && g s) segs).
(** The cutter does not end on, or within 2e-5 of, a wall that spans its height. *)
Definition decided (xl xr v : R) (segs : list (seg RA)) : Prop :=
  xl < xr /\ forall s, In s segs -> is_a_wall s = true -> spans v s = true ->
    x_at v s <= xl - 2 / 10^5 \/ xl + 2 / 10^5 <= x_at v s <= xr - 2 / 10^5 \/ xr + 2 / 10^5 <= x_at v s.
