(** Model of the mutable object layer: Point objects with identities, segments and polygons that
    refer to them, the transformations that change them in place, and [purge].

    A heap maps the identity of a Point object to its stored coordinates.  A segment refers to its two
    end point objects; a polygon owns its list of segment objects (no segment object is in the list
    twice and none is shared with another polygon).  geometry/__init__.py: PURGE is True. *)
From Coq Require Import List Bool ZArith Arith.
From Verif Require Import Base Arith MPoint MLine MPoly.
Import ListNotations.

Section Heap.
Context {A : Arith}.
Local Open Scope num_scope.

Definition heap := nat -> pt A.
(** SR_point.py:88-94 on the object [o]. *)
Definition hset (h : heap) (o : nat) (p : pt A) : heap := fun k => if Nat.eqb k o then p else h k.

(** SR_line.py:24-28: the class and the two end point objects. *)
Record hseg := mkh { hc : scls; hi : nat; hj : nat }.
(** SR_polygon.py:25-34: the segments and the flag [purged]. *)
Record hpoly := mkhp { hsegs : list hseg; hpurged : bool }.

Definition hij (s : hseg) : list nat := [hi s; hj s].
(** What a reader of the polygon sees. *)
Definition seg_view (h : heap) (s : hseg) : seg A := mkseg (hc s) (h (hi s)) (h (hj s)).
Definition view (h : heap) (l : list hseg) : list (seg A) := map (seg_view h) l.

(** SR_line.py:492-500: the two end points in turn, whether or not they are the same object. *)
Definition seg_move (h : heap) (s : hseg) (x0 y0 : num) : heap :=
  fold_left (fun h o => hset h o (Point_new (px (h o) + x0) (py (h o) + y0))) (hij s) h.
Definition seg_mirror (h : heap) (s : hseg) (x0 : num) : heap :=
  fold_left (fun h o => hset h o (Point_new (px (h o) - n2 * (px (h o) - x0)) (py (h o)))) (hij s) h.

(** SR_polygon.py:299-307: the objects sorted by their coordinates; [set] keeps the first of those
    with the same coordinates. *)
Definition hall_points (h : heap) (l : list hseg) : list nat :=
  sort_by (fun a b => lex_ltb (h a) (h b)) (flat_map hij l).
Definition hpoint_set (h : heap) (l : list hseg) : list nat :=
  sort_by (fun a b => lex_ltb (h a) (h b)) (dedup (fun a b => pt_sameb (h a) (h b)) (hall_points h l)).

(** SR_polygon.py:176-183: one later encounter [x] of a point seen as [f]; [cur] is the variable x of
    the code, which is overwritten in the loop; [x] is the one the affected segments were found with. *)
Fixpoint purge_pass (h : heap) (x f cur : nat) (l : list hseg) : list hseg :=
  match l with
  | [] => []
  | s :: r =>
    if existsb (fun e => Nat.eqb e x || pt_eqb (h e) (h x)) (hij s) then
      (if pt_eqb (h (hi s)) (h cur) then mkh (hc s) f (hj s) else mkh (hc s) (hi s) f)
      :: purge_pass h x f f r
    else s :: purge_pass h x f cur r
  end.

(** SR_polygon.py:169-183 *)
Definition purge_step (h : heap) (st : list nat * list hseg) (x : nat) : list nat * list hseg :=
  let '(seen, l) := st in
  match filter (fun y => pt_eqb (h x) (h y)) seen with
  | [] => (seen ++ [x], l)
  | f :: _ => (seen, purge_pass h x f x l)
  end.

(** SR_polygon.py:150-184 *)
Definition purge (h : heap) (P : hpoly) : hpoly :=
  if hpurged P then P
  else if Nat.eqb (length (hpoint_set h (hsegs P))) (length (hall_points h (hsegs P)))
  then mkhp (hsegs P) true
  else mkhp (snd (fold_left (purge_step h) (hall_points h (hsegs P)) ([], hsegs P))) true.

(** The loop [for p in self.point_set: p._set_coords(...)] after [self.purge()]. *)
Definition transform (f : pt A -> pt A) (h : heap) (P : hpoly) : heap * hpoly :=
  let P' := purge h P in
  (fold_left (fun h o => hset h o (f (h o))) (hpoint_set h (hsegs P')) h, P').

(** SR_polygon.py:579-585 *)
Definition move_pt (x0 y0 : num) (p : pt A) : pt A := Point_new (px p + x0) (py p + y0).
Definition move (x0 y0 : num) := transform (move_pt x0 y0).
(** SR_polygon.py:573-577 *)
Definition mirror_pt (x0 : num) (p : pt A) : pt A := Point_new (px p - n2 * (px p - x0)) (py p).
Definition mirror_vertical (x0 : num) := transform (mirror_pt x0).
(** SR_polygon.py:560-571 (PRECISION is 8; the coordinates are rounded twice) *)
Definition rotate_pt (phi : num) (p : pt A) : pt A :=
  let cp := ncos (nradians phi) in let sp := nsin (nradians phi) in
  Point_new (nround8 (px p * cp - py p * sp)) (nround8 (px p * sp + py p * cp)).
Definition rotate_about_origin (phi : num) := transform (rotate_pt phi).
(** SR_polygon.py:587-591 *)
Definition rotate_about_xy (x0 y0 phi : num) (h : heap) (P : hpoly) : heap * hpoly :=
  let '(h1, P1) := move (nopp x0) (nopp y0) h P in
  let '(h2, P2) := rotate_about_origin phi h1 P1 in
  move x0 y0 h2 P2.

(** SR_polygon.py:257-274: a segment from the last Point object to the object [p]; the flag is kept. *)
Definition hlast (l : list hseg) : res nat := match last_opt l with Some s => Ok (hj s) | None => Err IndexError end.
Definition hfirst (l : list hseg) : res nat := match l with s :: _ => Ok (hi s) | [] => Err IndexError end.
Definition happend_end (P : hpoly) (p : nat) : res hpoly :=
  a <- hlast (hsegs P) ;; Ok (mkhp (hsegs P ++ [mkh CLineSegment a p]) (hpurged P)).
Definition happend_beginning (P : hpoly) (p : nat) : res hpoly :=
  a <- hfirst (hsegs P) ;; Ok (mkhp (mkh CLineSegment p a :: hsegs P) (hpurged P)).
(** SR_polygon.py:429-434 *)
Definition hclose (h : heap) (P : hpoly) : res hpoly :=
  o <- isopen (view h (hsegs P)) ;;
  if o then a <- hlast (hsegs P) ;; b <- hfirst (hsegs P) ;; Ok (mkhp (hsegs P ++ [mkh CLineSegment a b]) (hpurged P))
  else Ok P.
(** SR_line.py:502-504 on every segment whose position is in [ks]. *)
Definition hreverse (s : hseg) : hseg := mkh (hc s) (hj s) (hi s).

(** SR_polygon.py:1689-1712: one new Point object per node, from the identity [base] on. *)
Definition halloc (h : heap) (base : nat) (ps : list (pt A)) : heap :=
  fun k => if Nat.leb base k then nth (k - base) ps (h k) else h k.
Definition hpolygon_from_nodes (h : heap) (base : nat) (nodes : list (num * num)) (cw : bool) : heap * hpoly :=
  let nodes := if cw then cw_nodes nodes else nodes in
  let ps := map (fun '(x, y) => Point_new x y) nodes in
  (halloc h base ps,
   mkhp (map (fun '(a, b) => mkh CLineSegment a b) (pairs (seq base (length ps)))) false).

(** SR_polygon.py:1715-1724 *)
Definition square_nodes (a : num) : list (num * num) :=
  let half := a / n2 in
  [(n0, n0); (half, n0); (half, a); (nopp a / n2, a); (nopp a / n2, n0)].
Definition square (h : heap) (base : nat) (a x0 y0 : num) (cw : bool) : res (heap * hpoly) :=
  let '(h1, P1) := hpolygon_from_nodes h base (square_nodes a) cw in
  P2 <- hclose h1 P1 ;;
  Ok (move x0 y0 h1 P2).

(** SR_polygon.py:1727-1759; [n] is an int; the centre is a pair of numbers. *)
Definition arc_node (r degstep : num) (st : nat) : num * num :=
  let deg := nmod (nofZ (Z.of_nat st) * degstep) (nofZ 360) in
  (r * ncos (nradians deg), r * nsin (nradians deg)).
Definition arc (h : heap) (base : nat) (cx cy r a_start a_end : num) (n : Z) (cw : bool) : res (heap * hpoly) :=
  assert_ ((n0 <=? a_start) && (a_start <? nofZ 360)) ;;;
  assert_ ((n0 <? a_end) && (a_end <=? nofZ 360)) ;;;
  assert_ (a_start <? a_end) ;;;
  assert_ (n0 <? r) ;;;
  assert_ (Z.ltb 0 n) ;;;
  degstep <- pdiv (a_end - a_start) (nofZ n) ;;
  let nodes := map (arc_node r degstep) (seq 0 (Z.to_nat n + 1)) in
  let '(h1, P1) := hpolygon_from_nodes h base nodes cw in
  let '(h2, P2) := rotate_about_origin a_start h1 P1 in
  Ok (move cx cy h2 P2).
End Heap.
Arguments heap _ : clear implicits.
