(** GENERATED by tools/gen_props.py from PExTri.v: the property theorems only. *)
From Coq Require Import Reals ZArith Lra Lia Bool List Psatz Permutation.
From Verif Require Import Base Arith ArithR ArithF MPoint MLine MPoly MTri Spec SpecInside SpecGroup SpecTri
  PPoint PShape PCommon PInside PExamples POrder PMore PCorner PCollinear PEar PEar2 PArea.
Import ListNotations.
Local Open Scope R_scope.
#[local] Existing Instance RA.
From Verif Require Import PExTri.

Example C70_area_example : polygon_of t_vs t_segs /\ NoDup t_vs /\ separated t_vs /\ Forall stored t_vs /\
  area t_lib t_in t_in t_segs = Ok 6.
Proof. exact area_example. Qed.

(** C70 (finding): the area does not follow changes of the polygon.  A polygon of two segments has area 0;
    asked after it has been closed to a triangle of area 6, the same polygon still answers 0. *)
Theorem C70_stale_refuted :
  let p := mka [LineSegment (zp 0 0) (zp 4 0); LineSegment (zp 4 0) (zp 4 3)] None in
  let q := fold_left act_do [AskArea t_lib t_in t_in; Close] p in
  fst (area_get t_lib t_in t_in p) = Ok 0 /\ a_segs q = t_segs /\ area t_lib t_in t_in (a_segs q) = Ok 6 /\
  fst (area_get t_lib t_in t_in q) = Ok 0.
Proof. exact area_stale. Qed.
Print Assumptions C70_stale_refuted.

Example C68_example : directed_cycle m_vs m_segs /\ polygon_of m_vs m_segs /\ (3 <= length m_vs < 250)%nat /\ NoDup m_vs /\
  separated m_vs /\ Forall integral m_vs /\ shoelace m_vs = 8 /\ INR (length m_vs) / 10^8 <= Rabs (shoelace m_vs) /\
  consecutive m_vs (zp 0 0) (zp 1 0) (zp 2 0) /\ flat (zp 0 0) (zp 1 0) (zp 2 0).
Proof. exact collinear_example. Qed.

Example C69_example : forall L : Libm,
  let l := map (fun e : pt (FA L) * pt (FA L) => LineSegment (fst e) (snd e)) (cycle_edges (zpts (FA L) m_zs)) in
  (exists ts, ear_clipping (m_oracle (FA L)) l = Ok (true, ts) /\ length ts = 3%nat) /\
  (exists c, collinear_points l = Ok c /\ length (c_mids c) = 1%nat /\ length (c_sides c) = 2%nat).
Proof. exact ear_example. Qed.
