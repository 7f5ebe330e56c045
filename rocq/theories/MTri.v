(** Model of the triangulation part of geometry/SR_polygon.py: collinear corners, class Triangle, ear
    clipping, triangle_mesh, area, and the relations between triangles.

    is_internal_point draws random numbers, so every call gets its answer from an oracle [inside],
    which is told the number of the round and of the call.  The code's own test is one such oracle. *)
From Coq Require Import List Bool ZArith.
From Verif Require Import Base Arith MPoint MLine MPoly.
Import ListNotations.

(** any(f(x) for x in l), or a loop returning at the first hit; stops at the first exception *)
Fixpoint existsM {X} (f : X -> res bool) (l : list X) : res bool :=
  match l with
  | [] => Ok false
  | x :: r => b <- f x ;; if b then Ok true else existsM f r
  end.

Section Tri.
Context {A : Arith}.
Local Open Scope num_scope.
Notation poly := (list (seg A)).

(** ** Collinear corners *)

(** SR_polygon.py:643-644, 815-816, 1630-1631: LineSegment( *nb).is_point_on_line(p) for p not in nb.
    LineSegment takes any number of arguments: without any it is invalid (assert in
    crossproduct_commonstart), with one the access to [j] fails, more than two are ignored. *)
Definition on_chord (nb : list (pt A)) (p : pt A) : res bool :=
  match nb with
  | [] => Err AssertionError
  | [_] => Err IndexError
  | a :: b :: _ => is_point_on_line (LineSegment a b) p
  end.
Definition chord (nb : list (pt A)) : res (seg A) := a <- get nb 0 ;; b <- get nb 1 ;; Ok (LineSegment a b).

(** s.add(p), p in s *)
Definition pset_add (s : list (pt A)) (p : pt A) : list (pt A) := if memb pt_sameb p s then s else s ++ [p].

(** SR_polygon.py:652-656: the dict counting how often a point has been a side *)
Fixpoint count_up (d : list (pt A * nat)) (p : pt A) : list (pt A * nat) :=
  match d with
  | [] => [(p, O)]
  | (q, n) :: r => if pt_sameb q p then (q, S n) :: r else (q, n) :: count_up r p
  end.

Record corners := mkc { c_mids : list (pt A); c_sides : list (pt A); c_count : list (pt A * nat) }.

(** SR_polygon.py:641-659, the body of the loop *)
Definition corner_step (l : poly) (c : corners) (p : pt A) : res corners :=
  let nb := neighbour l p in
  b <- on_chord nb p ;;
  if b : bool then
    x <- get nb 0 ;; y <- get nb 1 ;;
    let mids := pset_add (c_mids c) p in
    let sides := filter (fun q => negb (memb pt_sameb q mids)) (pset_add (pset_add (c_sides c) x) y) in
    let cnt := fold_left count_up sides (c_count c) in
    Ok (mkc mids sides (filter (fun e => negb (memb pt_sameb (fst e) mids)) cnt))
  else Ok c.
(** SR_polygon.py:627-661.  The order of iteration over the sets does not matter for the result. *)
Definition collinear_points (l : poly) : res corners := foldM (corner_step l) (map si l) (mkc [] [] []).

(** SR_polygon.py:1628-1636, the body of the loop.  The value returned by order() is ignored. *)
Definition remove_step (c : poly) (p : pt A) : res poly :=
  let nb := neighbour c p in
  b <- on_chord nb p ;;
  if b : bool then
    new <- chord nb ;;
    let ss := find_segment_by_point c p WBoth in
    ' (_, c') <- order (filter (fun x => negb (existsb (seg_eqb x) ss)) c ++ [new]) ;;
    Ok c'
  else Ok c.
(** SR_polygon.py:1623-1637 *)
Definition remove_collinear_points (l : poly) : res poly := foldM remove_step (map si l) l.

(** ** Triangles *)

(** SR_polygon.py:1013-1020.  purge() is left out, as for [convex_hull]. *)
Definition triangle_new (l : poly) : res poly :=
  ' (_, l') <- order l ;;
  t <- is_triangle l' ;;
  if t : bool then Ok l' else Err OtherException.

(** ** Ear clipping *)

(** The order in which a set is listed, random.choice, and the answers of is_internal_point, by round. *)
Record ear_oracle := mkeo {
  eo_list : nat -> list (pt A) -> list (pt A);
  eo_pick : nat -> nat;
  eo_inside : nat -> nat -> poly -> pt A -> res bool }.

(** SR_polygon.py:769-790 *)
Definition triangle_ok (inside : nat -> poly -> pt A -> res bool) (c tri : poly) : res bool :=
  m <- poly_midpoint tri ;;
  b <- inside 0%nat c m ;;
  if negb b then Ok false else
  let others := filter (fun x => negb (existsb (pt_eqb x) (point_set tri))) (point_set c) in
  ins <- mapM (fun '(n, x) => inside (S n) tri x) (combine (seq 0 (length others)) others) ;;
  if existsb (fun x => x) ins then Ok false else
  i <- existsM (fun '(x, y) => intersection_on_segment x y) (combinations2 (c ++ tri)) ;;
  if i : bool then Ok false else
  a <- triangle_area tri ;; Ok (negb (a <=? n0)).

(** The segment objects of the polygon that Triangle(...) has reversed in place. *)
Definition as_in (tri : poly) (s : seg A) : seg A :=
  if existsb (seg_sameb s) tri then s else if existsb (seg_sameb (seg_reverse s)) tri then seg_reverse s else s.

Record ear_state := mke { e_poly : poly; e_index : nat; e_tris : list poly }.

(** sorted(list(sides), key=lambda x: scount[x], reverse=True): stable *)
Definition count_of (d : list (pt A * nat)) (p : pt A) : nat :=
  match filter (fun e => pt_sameb (fst e) p) d with (_, n) :: _ => n | [] => O end.
Definition by_count (d : list (pt A * nat)) (l : list (pt A)) : list (pt A) :=
  sort_by (fun p q => Nat.ltb (count_of d q) (count_of d p)) l.

(** SR_polygon.py:799-836: one round of the loop *)
Definition ear_round (o : ear_oracle) (k : nat) (e : ear_state) : res ear_state :=
  let c := e_poly e in
  cs <- collinear_points c ;;
  let sides := by_count (c_count cs) (eo_list o k (c_sides cs)) in
  cp <- match nth_error sides (e_index e) with
        | Some p => Ok p
        | None => get (point_set c) (eo_pick o k mod length (point_set c))
        end ;;
  let nb := neighbour c cp in
  b <- on_chord nb cp ;;
  if b : bool then Ok (mke c (S (e_index e)) (e_tris e)) else
  new <- chord nb ;;
  tri <- triangle_new (find_segment_by_point c cp WBoth ++ [new]) ;;
  let c' := map (as_in tri) c in
  ok <- triangle_ok (eo_inside o k) c' tri ;;
  if ok : bool then
    Ok (mke (filter (fun x => negb (existsb (seg_eqb x) tri)) c' ++ [as_in tri new]) (e_index e) (e_tris e ++ [tri]))
  else Ok (mke c' (S (e_index e)) (e_tris e)).

(** SR_polygon.py:796-843: at most 5000 rounds.  The set of triangles is a list (the hash of a
    PolygonLine differs for different objects). *)
Fixpoint ear_loop (o : ear_oracle) (n : nat) (k : nat) (e : ear_state) : res (bool * list poly) :=
  if Nat.ltb (length (point_set (e_poly e))) 3 then Ok (true, e_tris e) else
  match n with
  | O => Ok (false, e_tris e)
  | S n' => e' <- ear_round o k e ;; ear_loop o n' (S k) e'
  end.
Definition ear_clipping (o : ear_oracle) (l : poly) : res (bool * list poly) := ear_loop o 5000 0 (mke l 0 []).

(** ** triangle_mesh and area *)

(** The C library: vertices and segments to the vertices and triangles it returns; None if its answer
    has no key 'triangles'. *)
Definition mesh_lib := list (num * num) -> list (nat * nat) -> option (list (num * num) * list (nat * nat * nat)).

(** _segs[p]: the number of p in point_set *)
Definition number_of (ps : list (pt A)) (p : pt A) : res nat :=
  match find_from (fun q => pt_sameb q p) 0 ps with Some n => Ok n | None => Err KeyError end.
(** SR_polygon.py:933-936 *)
Definition add_vertex (vs : list (pt A)) (v : num * num) : list (pt A) :=
  let p := Point_new (fst v) (snd v) in if existsb (fun q => pt_eqb p q) vs then vs else vs ++ [p].
(** vertices[x] *)
Definition vertex (vs : list (pt A)) (n : nat) : res (num * num) :=
  match nth_error vs n with Some p => Ok (px p, py p) | None => Err KeyError end.

(** SR_polygon.py:882-903 *)
Definition mesh_ok (inside : nat -> poly -> pt A -> res bool) (c tri : poly) : res bool :=
  m <- poly_midpoint tri ;;
  b <- inside 0%nat c m ;;
  if negb b then Ok false else
  let others := filter (fun x => negb (existsb (pt_eqb x) (point_set tri))) (point_set c) in
  ins <- mapM (fun '(n, x) => inside (S n) tri x) (combine (seq 0 (length others)) others) ;;
  if existsb (fun x => x) ins then Ok false else
  a <- triangle_area tri ;; Ok (negb (a <=? n0)).

(** SR_polygon.py:905-947: the triangles kept *)
Definition triangle_mesh (lib : mesh_lib) (inside : nat -> nat -> poly -> pt A -> res bool) (l : poly) : res (list poly) :=
  let ap := point_set l in
  segs <- mapM (fun s => a <- number_of ap (si s) ;; b <- number_of ap (sj s) ;; Ok (a, b)) l ;;
  match lib (map (fun p => (px p, py p)) ap) segs with
  | None => Ok []
  | Some (vs, ts) =>
    let vertices := fold_left add_vertex vs ap in
    kept <- mapM (fun '(k, (a, b, c)) =>
              x <- vertex vertices a ;; y <- vertex vertices b ;; z <- vertex vertices c ;;
              p <- close (polygon_from_nodes [x; y; z] false) ;;
              t <- triangle_new p ;;
              ok <- mesh_ok (inside k) l t ;;
              Ok (if ok : bool then [t] else [])) (combine (seq 0 (length ts)) ts) ;;
    Ok (concat kept)
  end.
(** SR_polygon.py:615-625 for the only algorithm in use; the triangles are summed in the order found *)
Definition detailled_area (lib : mesh_lib) (inside : nat -> nat -> poly -> pt A -> res bool) (l : poly) : res num :=
  ts <- triangle_mesh lib inside l ;;
  as_ <- mapM triangle_area ts ;;
  Ok (nround8 (nsum as_)).
(** SR_polygon.py:600-613: evaluated twice, the second value is returned; one algorithm gives one value *)
Definition area (lib : mesh_lib) (in1 in2 : nat -> nat -> poly -> pt A -> res bool) (l : poly) : res num :=
  detailled_area lib in1 l ;;; detailled_area lib in2 l.

(** A polygon with the cached value of [area] (SR_polygon.py:600, cached_property). *)
Record apoly := mka { a_segs : poly; a_cache : option num }.
Definition area_get (lib : mesh_lib) (in1 in2 : nat -> nat -> poly -> pt A -> res bool) (p : apoly) : res num * apoly :=
  match a_cache p with
  | Some v => (Ok v, p)
  | None => match area lib in1 in2 (a_segs p) with
            | Ok v => (Ok v, mka (a_segs p) (Some v))
            | Err e => (Err e, p)
            end
  end.
(** SR_polygon.py:257-274, 429-434: the changes of the segments, which leave the cache alone *)
Definition a_append (p : apoly) (q : pt A) : res apoly := l <- append_point_at_end (a_segs p) q ;; Ok (mka l (a_cache p)).
Definition a_prepend (p : apoly) (q : pt A) : res apoly := l <- append_point_at_beginning (a_segs p) q ;; Ok (mka l (a_cache p)).
Definition a_close (p : apoly) : res apoly := l <- close (a_segs p) ;; Ok (mka l (a_cache p)).

(** What can be done with a polygon: the area is asked (with the library and the answers about internal
    points of that moment), a point is added at the end or the beginning, the polygon is closed.  An
    exception leaves the polygon as it was. *)
Inductive act :=
| AskArea (lib : mesh_lib) (in1 in2 : nat -> nat -> poly -> pt A -> res bool)
| Append (q : pt A) | Prepend (q : pt A) | Close.
Definition act_do (p : apoly) (a : act) : apoly :=
  let keep r := match r with Ok p' => p' | Err _ => p end in
  match a with
  | AskArea lib in1 in2 => snd (area_get lib in1 in2 p)
  | Append q => keep (a_append p q)
  | Prepend q => keep (a_prepend p q)
  | Close => keep (a_close p)
  end.

(** ** Relations between triangles *)

(** SR_polygon.py:1067-1073: point_set == point_set, elementwise with ==.  True or None. *)
Definition congruent (s t : poly) : bool :=
  let a := point_set s in let b := point_set t in Nat.eqb (length a) (length b) && forallb2 pt_eqb a b.
(** SR_polygon.py:1075-1082: True or None; [n0] numbers the calls *)
Definition enclosed (inside : nat -> poly -> pt A -> res bool) (s t : poly) : res bool :=
  b <- existsM (fun '(n, x) => r <- inside n s x ;; Ok (negb r)) (combine (seq 0 3) (point_set t)) ;; Ok (negb b).

(** SR_polygon.py:1094-1098, 1115-1119: the pairs (a set; equal pairs are kept once) *)
Definition seg_pair_eqb (p q : seg A * seg A) : bool := seg_sameb (fst p) (fst q) && seg_sameb (snd p) (snd q).
Definition tri_pairs (s t : poly) : list (seg A * seg A) :=
  fold_left (fun ps p => if memb seg_pair_eqb p ps || memb seg_pair_eqb (snd p, fst p) ps then ps else ps ++ [p])
            (flat_map (fun x => map (fun y => (x, y)) t) s) [].

(** SR_polygon.py:1084-1109 *)
Definition overlap_points (s t : poly) : res bool :=
  hits <- filterM (fun '(x, y) =>
            cp <- common_part x y ;;
            Ok (match cp with
                | Some (CPoint p) => negb (existsb (pt_eqb p) (point_set s ++ point_set t))
                | _ => false
                end)) (tri_pairs s t) ;;
  Ok (match hits with [] => false | _ => true end).
Definition overlap (inside : nat -> poly -> pt A -> res bool) (s t : poly) : res bool :=
  a <- existsM (fun '(n, x) => inside n s x) (combine (seq 0 3) (point_set t)) ;;
  if a : bool then Ok true else
  b <- existsM (fun '(n, x) => inside (3 + n)%nat t x) (combine (seq 0 3) (point_set s)) ;;
  if b : bool then Ok true else overlap_points s t.

(** SR_polygon.py:1111-1131: the common segments as a set.  A common part that is a segment without proper ends (it does not
    occur for corners on a grid) is not counted. *)
Definition tri_touch (s t : poly) : res bool :=
  cps <- mapM (fun '(x, y) =>
           cp <- common_part x y ;;
           Ok (match cp with
               | Some (CSeg u) => match sc u with CLineSegment => [u] | _ => [] end
               | _ => []
               end)) (tri_pairs s t) ;;
  Ok (Nat.eqb (length (dedup seg_sameb (concat cps))) 1).

(** SR_polygon.py:1133-1160; [io1], [io2], [io3] answer the three groups of calls *)
Definition tri_disjunct (io1 io2 io3 : nat -> poly -> pt A -> res bool) (s t : poly) : res bool :=
  if congruent s t then Ok false else
  a <- overlap io1 s t ;; if a : bool then Ok false else
  b <- overlap io2 t s ;; if b : bool then Ok false else
  c <- enclosed io3 s t ;;
  d <- (if c : bool then e <- enclosed (fun n => io3 (3 + n)%nat) t s ;; Ok (negb e) else Ok false) ;;
  if d : bool then Ok false else
  e <- tri_touch s t ;; Ok (negb e).

(** SR_polygon.py:139-148: the triangles of both polygons, in any order *)
Definition poly_disjunct (inside : nat -> nat -> poly -> pt A -> res bool) (ts : list poly) : res bool :=
  b <- existsM (fun '(k, (x, y)) => o <- overlap (inside k) x y ;; Ok (o || congruent x y)%bool)
               (combine (seq 0 (length (combinations2 ts))) (combinations2 ts)) ;;
  Ok (negb b).

(** ** segments_from_pointset *)

(** SR_polygon.py:1590-1594: the points not yet used, nearest to the start [p] first.  [_rest.remove(ps[-1])]
    never fails, [sorted(...)[0]] fails when no point is left. *)
Fixpoint reorder (points : list (pt A)) (p : pt A) (ps : list (pt A)) (n : nat) : res (list (pt A)) :=
  match n with
  | O => Ok ps
  | S n' =>
    let rest := filter (fun x => negb (existsb (pt_eqb x) ps)) points in
    q <- get (sort_by (fun x y => pt_distance x p <? pt_distance y p) rest) 0 ;;
    reorder points p (ps ++ [q]) n'
  end.
(** SR_polygon.py:1583-1605; [starts] is set(points) in the order of iteration.  The literal 10e10 is
    1e11; without a path shorter than that the result is unbound.  The filter of the segments by isvalid keeps all. *)
Definition segments_from_pointset (starts points : list (pt A)) : res poly :=
  r <- foldM (fun (st : num * option poly) p =>
         ps <- reorder points p [p] (length points - 1) ;;
         let ls := map (fun '(a, b) => LineSegment a b) (pairs ps) in
         let len := nsum (map norm ls) in
         Ok (if len <? fst st then (len, Some ls) else st))
       starts (nofZ 100000000000, None) ;;
  match snd r with Some ls => Ok ls | None => Err NameError end.
End Tri.
#[global] Arguments corners : clear implicits.
#[global] Arguments ear_oracle : clear implicits.
#[global] Arguments ear_state : clear implicits.
#[global] Arguments mesh_lib : clear implicits.
#[global] Arguments apoly : clear implicits.
#[global] Arguments act : clear implicits.
