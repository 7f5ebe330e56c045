(** Model of Hauptteil.split (SR_Vessel/SR_hauptteile.py:518-612): cutting the walls of a part; and of
    Behalter.cut_by_raumende (221-230), which does this for the parts of a vessel.
    Value layer: which Point objects are shared is not tracked.  The graph of a part is the list of its walls
    (SR_polygon_group.py:755-764, SR_hauptteile.py:497-503); the intex points [renew] attaches to it are not modelled. *)
From Coq Require Import ZArith Bool List Arith.
From Verif Require Import Base Arith MPoint MLine MPoly MVessel.
Import ListNotations.
Local Open Scope num_scope.

Section Split.
Context {A : Arith}.
Notation poly := (list (seg A)).

(** SR_hauptteile.py:547-549: the cutter from the bounding box of the graph *)
Definition v_cutter (graph : poly) (v : num) : seg A :=
  let '((x0, x1), _) := bounding_box graph in
  let w := nabs (nmax x0 x1 - nmin x0 x1) in
  LineSegment (Point_new (nmin x0 x1 - ndec 1 2 * w) v) (Point_new (nmax x0 x1 + ndec 1 2 * w) v).

(** 558-570: pairs of a cutter and a line it cuts; the walls are also tested against each other *)
Definition cut_lines (cl : seg A) (graph : poly) : res (list (seg A * seg A)) :=
  c <- intersecting_lines (cl :: graph) ;;
  filterM (fun '(x, y) => a <- intersection_on_segment x y ;; if a then b <- intersection_on_endpoint x y ;; Ok (negb b) else Ok false) c.

(** [l.remove(x)] for an element that is there *)
Fixpoint remove_first {X} (f : X -> bool) (l : list X) : list X :=
  match l with [] => [] | x :: r => if f x then r else x :: remove_first f r end.

(** 582-597: one cut of the wall [sl] *)
Definition cut_wall (sl : seg A) (segs : poly) (cut : seg A * seg A) : res poly :=
  ip <- intersection_point (fst cut) (snd cut) ;;
  let segs := remove_first (fun x => seg_eqb x sl) segs in
  match ip, sc sl with
  | None, _ => Err AttributeError
  | Some p, CLineSegment => Err OtherException
  | Some p, c => let q := Point_new (px p) (py p) in
    Ok (segs ++ [mkseg c (Point_new (px (si sl)) (py (si sl))) q; mkseg c q (Point_new (px (sj sl)) (py (sj sl)))])
  end.
(** 573-597 *)
Definition cut_walls (cuts : list (seg A * seg A)) (graph segs : poly) : res poly :=
  foldM (fun segs sl =>
    if existsb (fun x => seg_eqb x sl) (flat_map (fun c => [fst c; snd c]) cuts)
    then foldM (cut_wall sl) (filter (fun c => seg_eqb (fst c) sl || seg_eqb (snd c) sl) cuts) segs
    else Ok segs) graph segs.
(** 553-601: new segments of the part, the cuts, and what is returned *)
Definition split_by (cl : seg A) (segs : poly) : res (bool * poly * list (seg A * seg A)) :=
  cuts <- cut_lines cl (wall_segments segs) ;;
  match cuts with
  | [] => Ok (false, segs, [])
  | _ => segs' <- cut_walls cuts (wall_segments segs) segs ;; Ok (true, segs', cuts)
  end.

(** 531-537, 544-549: cut at a height; [ishead]: a base class is TorispherischesBoden *)
Definition split_v (ishead : bool) (segs : poly) (v : num) : res (bool * poly) :=
  if ishead then Ok (false, segs)
  else ' (b, segs', _) <- split_by (v_cutter (wall_segments segs) v) segs ;; Ok (b, segs').

(** [l.insert(1, x)] *)
Definition insert1 {X} (x : X) (l : list X) : list X := match l with [] => [x] | y :: r => y :: x :: r end.
(** 603-611: the cutter's new segments *)
Definition ring (cl : seg A) (cuts : list (seg A * seg A)) : res poly :=
  pts <- foldM (fun pts c => ip <- intersection_point (fst c) (snd c) ;;
                             match ip with Some p => Ok (insert1 p pts) | None => Err AttributeError end)
               (filter (fun c => seg_eqb (fst c) cl || seg_eqb (snd c) cl) cuts) (ij cl) ;;
  p0 <- get pts 0 ;; p1 <- get pts 1 ;; p2 <- get pts 2 ;; p3 <- get pts 3 ;;
  Ok [Wall p0 p1; NonWall p1 p2; Wall p2 p3].

(** What a call leaves behind, whether it returns or raises. *)
Record split_result := mksr { sr_self : poly; sr_ht : poly; sr_ret : res bool }.
(** 531-543, 553-612: cut with a RaumEnde whose only segment is [cl].  An exception while cutting leaves the part half
    cut; this is not tracked, the part is given as before. *)
Definition split_ht (ishead : bool) (segs : poly) (cl : seg A) (keep : bool) : split_result :=
  if ishead then mksr segs [cl] (Ok false)
  else match split_by cl segs with
  | Err e => mksr segs [cl] (Err e)
  | Ok (false, _, _) => mksr segs [cl] (Ok false)
  | Ok (true, segs', cuts) =>
    if keep then mksr segs' [cl] (Ok true)
    else match ring cl cuts with Ok ht => mksr segs' ht (Ok true) | Err e => mksr segs' [cl] (Err e) end
  end.

(** ** Behalter.cut_by_raumende *)
(** A part of a vessel: is it a head (a base class is TorispherischesBoden), is it a RaumEnde (typ == 'raumende'), its segments. *)
Record vpart := mkvp { vp_head : bool; vp_ende : bool; vp_segs : poly }.
Definition with_segs (p : vpart) (segs : poly) : vpart := mkvp (vp_head p) (vp_ende p) segs.
(** [l[n] = x] for an index that exists *)
Fixpoint update {X} (n : nat) (x : X) (l : list X) : list X :=
  match l, n with
  | [], _ => []
  | _ :: r, O => x :: r
  | y :: r, S m => y :: update m x r
  end.
(** SR_hauptteile.py:229: part number i is cut with RaumEnde number j, if nothing was raised before.  The cutter is the first
    segment of the graph of the RaumEnde (539), that is its first wall at that moment. *)
Definition cut_part (st : list vpart * res unit) (k : nat * nat) : list vpart * res unit :=
  let '(parts, r) := st in let '(i, j) := k in
  match r, nth_error parts i, nth_error parts j with
  | Ok _, Some p, Some e =>
    if vp_head p then st
    else match wall_segments (vp_segs e) with
    | [] => (parts, Err IndexError)
    | cl :: _ =>
      let c := split_ht false (vp_segs p) cl false in
      let parts := update i (with_segs p (sr_self c)) parts in
      match sr_ret c with
      | Err x => (parts, Err x)
      | Ok false => (parts, Ok tt)
      | Ok true => (update j (with_segs e (sr_ht c)) parts, Ok tt)
      end
    end
  | _, _, _ => st
  end.
(** SR_hauptteile.py:221-230: the parts after the call, and whether it returns *)
Definition cut_by_raumende (parts : list vpart) : list vpart * res unit :=
  let n := List.length parts in
  let enden := filter (fun j => match nth_error parts j with Some p => vp_ende p | None => false end) (seq 0 n) in
  fold_left cut_part (list_prod (seq 0 n) enden) (parts, Ok tt).
End Split.
#[global] Arguments vpart A : clear implicits.
