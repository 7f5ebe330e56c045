(** Model of the probe points of the vessel parts (SR_Vessel/SR_hauptteile.py: intex_points) and of how the
    graph of a part collects them (geometry/SR_polygon_group.py: Graph.renew, add_intex_points). *)
From Coq Require Import List Bool ZArith Arith.
From Verif Require Import Base Arith MPoint MLine MPoly MVessel MContain.
Import ListNotations.
Local Open Scope num_scope.

Section Intex.
Context {A : Arith}.
Notation poly := (list (seg A)).

(** {'internal': .., 'external': .., 'indifferent': ..} *)
Record probes := mkprobes { pr_internal : list (pt A); pr_external : list (pt A); pr_indifferent : list (pt A) }.
(** A dict from segments to such; a later entry replaces an earlier one with the same key. *)
Definition pdict := list (seg A * probes).

(** ** Mantel and KegelKrempe *)
(** SR_hauptteile.py:658-667, 1250-1260.  [div], [cap]: 50000 and 0.002 for a Mantel, 500 and 20 for a KegelKrempe.
    Of the two numbers in _e only the first is used. *)
Definition probe_points (pos_h div cap : num) (s : seg A) : res (list (pt A)) :=
  let '(lp, up) := if py (sj s) <? py (si s) then (sj s, si s) else (si s, sj s) in
  let e := nabs (nmin ((py up - py lp) / nofZ 10) (nmin ((px lp - pos_h) / div) cap)) in
  a <- point_on_line_at_ratio s (ndec 1 100) ;;
  b <- point_on_line_at_ratio s (ndec 99 100) ;;
  Ok [Point_new (px a + e) (py a); Point_new (px a - e) (py a); Point_new (px b + e) (py b); Point_new (px b - e) (py b)].
(** The answers of is_internal_point: question number k about point number n of segment number m.  Every
    question draws its own random numbers.  is_external_point is its negation (SR_polygon.py:533-534). *)
Context (inside : nat -> nat -> nat -> pt A -> res bool).
(** SR_hauptteile.py:683-688, 1262-1267: is the point internal? *)
Definition side_of (m n : nat) (p : pt A) : res bool :=
  i <- inside m n 0 p ;;
  o <- (if i then x <- inside m n 1 p ;; Ok (negb x) else Ok false) ;;
  if i && negb o then Ok true else
  i <- inside m n 2 p ;;
  o <- (if i then Ok false else x <- inside m n 3 p ;; Ok (negb x)) ;;
  if negb i && o then Ok false else Err OtherException.
Definition side_row (pos_h div cap : num) (m : nat) (s : seg A) : res (seg A * probes) :=
  ps <- probe_points pos_h div cap s ;;
  r <- mapM (fun '(n, p) => b <- side_of m n p ;; Ok (p, b)) (combine (seq 0 (length ps)) ps) ;;
  Ok (s, mkprobes (map fst (filter snd r)) (map fst (filter (fun x => negb (snd x)) r)) []).
(** SR_hauptteile.py:644-692, 1250-1271 for the segments of the graph *)
Definition mantel_intex (pos_h div cap : num) (graph : poly) : res pdict :=
  mapM (fun '(m, s) => side_row pos_h div cap m s) (combine (seq 0 (length graph)) graph).

(** ** Heads *)
(** SR_hauptteile.py:752-765 *)
Definition head_row (pos_v pos_h d orient : num) (s : seg A) : res (seg A * probes) :=
  let xmin := if px (sj s) <? px (si s) then px (sj s) else px (si s) in
  let xmax := if px (sj s) <? px (si s) then px (si s) else px (sj s) in
  vo <- (if xmin <? pos_h then Ok (nopp n1) else if pos_h <? xmax then Ok n1 else Err OtherException) ;;
  let p a b := Point_new (pos_h + vo * a * d) (pos_v + orient * b * h_graph d) in
  Ok (s, mkprobes [p (ndec 45 100) (ndec 5 100); p (ndec 5 100) (ndec 85 100)] [p (ndec 25 100) (ndec 55 100)] []).
Definition head_intex (pos_v pos_h d orient : num) (graph : poly) : res pdict := mapM (head_row pos_v pos_h d orient) graph.

(** ** Flachboden and RaumEnde *)
(** SR_hauptteile.py:921-936 *)
Definition flachboden_intex (pos_v pos_h d : num) (segments : poly) : pdict :=
  map (fun s => (s, mkprobes [] [] [Point_new pos_h (ndec 1 100 * d + pos_v); Point_new pos_h (nopp (ndec 1 100) * d + pos_v)]))
    (wall_segments segments).
(** SR_hauptteile.py:1335-1347 *)
Definition raumende_intex (segments : poly) : pdict := map (fun s => (s, mkprobes [] [] [])) (wall_segments segments).
(** SR_hauptteile.py:946-961; the asserts (942-949: valid segment, valid point) hold for the values of the model *)
Definition flachboden_is_internal (segments : poly) (p : pt A) : res bool :=
  if existsb (fun q => pt_eqb q p) (point_set segments) then Ok false
  else match segments with [] => Err IndexError | s :: _ => Ok (ls_is_internal_point s p) end.

(** ** Collecting the points *)
(** dict lookup: the last entry with this key *)
Fixpoint row_of (s : seg A) (d : pdict) : res probes :=
  match d with
  | [] => Err KeyError
  | (t, r) :: d' => match row_of s d' with Ok x => Ok x | Err _ => if seg_sameb t s then Ok r else Err KeyError end
  end.
(** SR_polygon_group.py:770-787.  [intex k]: the k-th value of hauptteil.intex_points; it is computed anew
    four times for every segment: for the keys and for each of the three lists.  The new IntexPoints have
    the coordinates of the points, rounded once more (SR_polygon.py:276-286). *)
Fixpoint add_intex_points (intex : nat -> res pdict) (k : nat) (ss : poly) (g : ipoly A) : res (ipoly A) :=
  match ss with
  | [] => Ok g
  | s :: ss' =>
    d <- intex k ;; row_of s d ;;;
    d <- intex (1 + k)%nat ;; i <- row_of s d ;;
    d <- intex (2 + k)%nat ;; e <- row_of s d ;;
    d <- intex (3 + k)%nat ;; f <- row_of s d ;;
    let add l := map (fun p => (Point_new (px p) (py p), s)) l in
    add_intex_points intex (4 + k) ss'
      (mkip (ip_segs g) (ip_int g ++ add (pr_internal i)) (ip_ind g ++ add (pr_indifferent f)) (ip_ext g ++ add (pr_external e)))
  end.
(** SR_polygon_group.py:762-768; also the constructor (755-759) with the first call of add_intex_points *)
Definition renew (intex : nat -> res pdict) (graphrepr : poly) : res (ipoly A) :=
  add_intex_points intex 0 graphrepr (mkip graphrepr [] [] []).
End Intex.
#[global] Arguments probes A : clear implicits.
