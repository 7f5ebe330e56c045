(** Model of the vessel parts (SR_Vessel/SR_hauptteile.py): shapes of the parts and cutting of walls. *)
From Coq Require Import ZArith Bool List Arith.
From Verif Require Import Base Arith MPoint MLine MPoly MHeap.
Import ListNotations.
Local Open Scope num_scope.

Section Vessel.
Context {A : Arith}.
Notation poly := (list (seg A)).

(** SR_hauptteile.py:150-161 *)
Definition Wall (i j : pt A) : seg A := mkseg CWall i j.
Definition NonWall (i j : pt A) : seg A := mkseg CNonWall i j.

(** SR_hauptteile.py:501-511: the class name of a segment *)
Definition is_wall (s : seg A) : bool := scls_eqb (sc s) CWall.
Definition wall_segments (l : poly) : poly := filter is_wall l.
Definition nonwall_segments (l : poly) : poly := filter (fun s => scls_eqb (sc s) CNonWall) l.

(** SR_hauptteile.py:717-727 *)
Definition mantel_segments (pos_v pos_h d0 d1 h : num) : poly :=
  let p1 := Point_new (pos_h + d0 / n2) pos_v in
  let p2 := Point_new (pos_h + d1 / n2) (pos_v + h) in
  let p3 := Point_new (pos_h - d1 / n2) (pos_v + h) in
  let p4 := Point_new (pos_h - d0 / n2) pos_v in
  [Wall p1 p2; NonWall p2 p3; Wall p3 p4; NonWall p4 p1].
(** SR_hauptteile.py:1301-1305 *)
Definition standzarge_segments (pos_v pos_h d0 d1 h : num) : poly :=
  match mantel_segments pos_v pos_h d0 d1 h with
  | [a; b; c; d] => [a; b; c; Wall (si d) (sj d)]
  | l => l
  end.
(** SR_hauptteile.py:697-715 for the segments of the part; the graph (SR_polygon_group.py:755-759, 762-764)
    consists of the walls *)
Definition mantel_isvalid (l : poly) : res bool :=
  match wall_segments l with
  | [s0; s1] =>
    if (py (si s0) =? py (sj s1)) && (py (sj s0) =? py (si s1)) &&
       ((px (si s0) + px (sj s1)) / n2 =? (px (sj s0) + px (si s1)) / n2)
    then poly_isvalid l else Ok false
  | _ => Ok false
  end.

(** SR_line.py:497-500 (two different end points objects) *)
Definition seg_move (x0 y0 : num) (s : seg A) : seg A := mkseg (sc s) (move_pt x0 y0 (si s)) (move_pt x0 y0 (sj s)).
(** SR_hauptteile.py:896-903, 1309-1318: Flachboden and RaumEnde *)
Definition flachboden_segments (pos_v pos_h d : num) : poly :=
  [seg_move pos_h pos_v (Wall (Point_new (nopp d / n2) n0) (Point_new (d / n2) n0))].

(** ** Torispherical heads, SR_hauptteile.py:730-848 *)
Inductive head := Klopper | Korbbogen.
(** 797-804: radii of crown and knuckle *)
Definition R_crown (k : head) (d : num) : num := match k with Klopper => n1 * d | Korbbogen => ndec 8 10 * d end.
Definition R_knuckle (k : head) (d : num) : num := match k with Klopper => ndec 1 10 * d | Korbbogen => ndec 154 1000 * d end.
(** A PolygonLine with its own Point objects; the five pieces of the wall share no Point. *)
Definition piece : Type := heap A * hpoly.
(** 812, 819, 821 and 824-826: the arc, then Walls between its Points in a new PolygonLine *)
Definition arc_piece (c : pt A) (r a_start a_end : num) (n : Z) : res piece :=
  ' (h, P) <- arc (fun _ => c) 0 (px c) (py c) r a_start a_end n false ;;
  Ok (h, mkhp (map (fun s => mkh CWall (hi s) (hj s)) (hsegs P)) false).
(** 823, 827: one Wall between two new Points *)
Definition wall_piece (p q : pt A) : piece := (halloc (fun _ => p) 0 [p; q], mkhp [mkh CWall 0 1] false).
Definition nonwall_piece (p q : pt A) : piece := (halloc (fun _ => p) 0 [p; q], mkhp [mkh CNonWall 0 1] false).
(** 830-844: what is done with each wall piece; [up]: orient is not -1 *)
Definition place (up : bool) (pos_h pos_v : num) (x : piece) : piece :=
  let '(h, P) := if up then x else rotate_about_origin (nofZ 180) (fst x) (snd x) in
  move pos_h pos_v h P.
(** The segments of several pieces together; Point number k of the r-th of n pieces gets the identity k n + r. *)
Definition glue (ps : list piece) : piece :=
  let n := length ps in
  ((fun o => match nth_error ps (o mod n)%nat with Some x => fst x (o / n)%nat | None => Point_new n0 n0 end),
   mkhp (concat (map (fun '(r, x) => map (fun s => mkh (hc s) (hi s * n + r)%nat (hj s * n + r)%nat) (hsegs (snd x)))
                     (combine (seq 0 n) ps))) false).
(** 788-848; RN is moved as a single segment (SR_line.py:497-500) *)
Definition head_segments (k : head) (pos_v pos_h d h1 : num) (up : bool) : res piece :=
  let R1 := R_crown k d in let R2 := R_knuckle k d in
  let rad := sqr (R1 - R2) - sqr (d / n2 - R2) in
  if rad <? n0 then Err ValueError else
  let h := nsqrt rad in
  q <- pdiv h (R1 - R2) ;;
  if (q <? nopp n1) || (n1 <? q) then Err ValueError else
  let alpha := ndegrees (nacos q) in
  let delta := nofZ 90 - alpha in
  kal <- arc_piece (Point_new n0 (h1 - h)) R1 (nofZ 90 - alpha) (nofZ 90 + alpha) 8 ;;
  let mx := n0 + (R1 - R2) * nsin (nradians alpha) in
  let my := (h1 - h) + (R1 - R2) * ncos (nradians alpha) in
  kre_re <- arc_piece (Point_new mx my) R2 n0 delta 3 ;;
  kre_li <- arc_piece (Point_new (nopp mx) my) R2 (nofZ 90 + alpha) (nofZ 180) 3 ;;
  let zyl_re := wall_piece (Point_new (d / n2) n0) (Point_new (d / n2) h1) in
  let zyl_li := wall_piece (Point_new (nopp d / n2) h1) (Point_new (nopp d / n2) n0) in
  let l := move_pt pos_h pos_v (Point_new (nopp d / n2) n0) in
  let r := move_pt pos_h pos_v (Point_new (d / n2) n0) in
  let rn := if up then nonwall_piece l r else nonwall_piece r l in
  let pl := place up pos_h pos_v in
  Ok (glue [pl zyl_re; pl kre_re; pl kal; pl kre_li; pl zyl_li; rn]).
(** 738-739 with 464-467: the part as constructed; purge unifies coincident Points *)
Definition head_part (k : head) (pos_v pos_h d h1 : num) (up : bool) : res piece :=
  ' (h, P) <- head_segments k pos_v pos_h d h1 up ;; Ok (h, purge h P).
(** 774-783 *)
Definition h_graph (d : num) : num := nmax (ndec 1 10) (d / nofZ 1000).
Definition head_graph (pos_v pos_h d : num) (orient : num) : poly :=
  let top := Point_new pos_h (pos_v + orient * h_graph d) in
  [Wall (Point_new (nopp d / n2 + pos_h) pos_v) top; Wall top (Point_new (d / n2 + pos_h) pos_v)].
End Vessel.
