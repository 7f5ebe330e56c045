(** Model of geometry/SR_polygon.py, value layer: a PolygonLine is the list of its segments (all
    segments valid).  Object identities matter only for the transformations and for [purge]; these
    are in MHeap.v. *)
From Coq Require Import List Bool ZArith.
From Verif Require Import Base Arith MPoint MLine.
Import ListNotations.

(** itertools.permutations(l, 2): ordered pairs of elements at different positions. *)
Fixpoint others {X} (pre l : list X) : list (X * list X) :=
  match l with
  | [] => []
  | x :: xs => (x, rev pre ++ xs) :: others (x :: pre) xs
  end.
Definition permutations2 {X} (l : list X) : list (X * X) :=
  flat_map (fun '(x, r) => map (fun y => (x, y)) r) (others [] l).

(** itertools.combinations(l, 2) *)
Fixpoint combinations2 {X} (l : list X) : list (X * X) :=
  match l with
  | [] => []
  | x :: xs => map (fun y => (x, y)) xs ++ combinations2 xs
  end.

Section Poly.
Context {A : Arith}.
Local Open Scope num_scope.
Notation poly := (list (seg A)).

(** sum(l): left to right from 0 (the plain summation of CPython before 3.12). *)
Definition nsum (l : list num) : num := fold_left nadd l n0.

(** Tuple comparison (x, y) < (x', y'). *)
Definition lex_ltb (a b : pt A) : bool :=
  if px a =? px b then py a <? py b else px a <? px b.

(** SR_polygon.py:42-48 (both operands of the same class) *)
Fixpoint forallb2 {X Y} (f : X -> Y -> bool) (a : list X) (b : list Y) : bool :=
  match a, b with x :: xs, y :: ys => f x y && forallb2 f xs ys | _, _ => true end.
Definition poly_eqb (a b : poly) : bool :=
  Nat.eqb (length a) (length b) && forallb2 seg_eqb a b.

(** SR_polygon.py:300-302 *)
Definition all_points (l : poly) : list (pt A) := sort_by lex_ltb (flat_map ij l).

(** SR_polygon.py:304-307 *)
Definition point_set (l : poly) : list (pt A) := sort_by lex_ltb (dedup pt_sameb (all_points l)).

(** SR_polygon.py:50-62 *)
Definition loose_subset (a b : poly) : bool :=
  forallb (fun p => memb pt_sameb p (flat_map ij a)) (dedup pt_sameb (flat_map ij b)).

(** SR_polygon.py:64-89.  With [direction_matters] the final [all()] is applied to a bool. *)
Definition poly_loose_equal (a b : poly) (direction_matters : bool) : res bool :=
  if negb (Nat.eqb (length a) (length b)) then Ok false
  else if direction_matters then Err TypeError
  else Ok (forallb (fun x => existsb (fun y => existsb (fun z => seg_loose_equal z x) [y; line_reversed y]) b) a).

(** SR_polygon.py:112-130 *)
Inductive whichend := WStart | WEnd | WBoth.
Definition find_segment_by_point (l : poly) (p : pt A) (w : whichend) : poly :=
  let sq := filter (fun s => existsb (pt_eqb p) (ij s)) l in
  match w with
  | WStart => filter (fun s => pt_eqb p (si s)) sq
  | WEnd => filter (fun s => pt_eqb p (sj s)) sq
  | WBoth => filter (fun s => existsb (pt_eqb p) (ij s)) sq
  end.

(** SR_polygon.py:108-110 *)
Definition neighbour (l : poly) (p : pt A) : list (pt A) :=
  let ss := find_segment_by_point l p WBoth in
  filter (fun x => pt_neb x p) (map si ss) ++ filter (fun x => pt_neb x p) (map sj ss).

(** SR_polygon.py:132-137 *)
Definition poly_midpoint (l : poly) : res (pt A) :=
  let ps := point_set l in
  let n := nofZ (Z.of_nat (length ps)) in
  x <- pdiv (nsum (map px ps)) n ;; y <- pdiv (nsum (map py ps)) n ;; Ok (Point_new x y).

(** SR_polygon.py:310-314 *)
Definition crossing_lines (l : poly) : res (list (seg A * seg A)) :=
  filterM (fun '(x, y) => intersection_on_segment x y) (permutations2 l).

(** SR_polygon.py:344-349 *)
Definition iscontinuous (l : poly) : bool := forallb (fun '(x, y) => continuous x y) (pairs l).

(** SR_polygon.py:316-334 *)
Definition poly_isvalid (l : poly) : res bool :=
  if negb (iscontinuous l) then Ok false
  else if Nat.ltb (length l) 1 then Ok false
  else cl <- crossing_lines l ;; Ok (match cl with [] => true | _ => false end).

(** SR_polygon.py:336-342 *)
Definition discontinuity (l : poly) : poly :=
  map snd (filter (fun '(x, y) => negb (continuous x y)) (pairs l)).

(** SR_polygon.py:388-411 *)
Definition first_segment (l : poly) : res (seg A) := get l 0.
Definition last_segment (l : poly) : res (seg A) :=
  match last_opt l with Some s => Ok s | None => Err IndexError end.
Definition first_point (l : poly) : res (pt A) := s <- first_segment l ;; Ok (si s).
Definition last_point (l : poly) : res (pt A) := s <- last_segment l ;; Ok (sj s).

(** SR_polygon.py:378-386, 413-418 *)
Definition isclosed (l : poly) : res bool :=
  if iscontinuous l then a <- first_point l ;; b <- last_point l ;; Ok (pt_eqb a b)
  else Ok false.
Definition isopen (l : poly) : res bool := b <- isclosed l ;; Ok (negb b).

(** SR_polygon.py:359-376 (isclosed=True) *)
Definition next_segment (l : poly) (s : seg A) : res (seg A) :=
  c <- isclosed l ;; assert_ c ;;;
  match filter (fun x => pt_eqb (si x) (sj s)) l with
  | [] => Err OtherException
  | x :: _ => Ok x
  end.

(** SR_polygon.py:429-434: the segments after [close()].  420-427: [closed_copy] is the same on a
    deep copy. *)
Definition close (l : poly) : res poly :=
  o <- isopen l ;;
  if o then a <- last_point l ;; b <- first_point l ;; Ok (l ++ [LineSegment a b])
  else Ok l.
Definition closed_copy (l : poly) : res poly :=
  c <- isclosed l ;; if c then Ok l else close l.

(** SR_polygon.py:257-274 *)
Definition append_point_at_end (l : poly) (p : pt A) : res poly :=
  a <- last_point l ;; Ok (l ++ [LineSegment a p]).
Definition append_point_at_beginning (l : poly) (p : pt A) : res poly :=
  a <- first_point l ;; Ok (LineSegment p a :: l).

(** SR_polygon.py:436-445: cross products of consecutive segments, cyclically. *)
Definition cps (l : poly) : res (list num) :=
  s0 <- get l 0 ;; Ok (map (fun '(x, y) => crossproduct x y) (combine l (tl l ++ [s0]))).

(** SR_polygon.py:447-456 *)
Definition isconvex (l : poly) : res bool :=
  v <- poly_isvalid l ;; assert_ v ;;;
  c <- cps l ;;
  Ok (forallb (fun x => n0 <=? x) c || forallb (fun x => x <=? n0) c).

(** SR_polygon.py:458-482 *)
Definition iscw (l : poly) : res bool :=
  cx <- isconvex l ;;
  c <- cps l ;;
  if cx then Ok (negb (n0 <? nsum c))
  else
    let ps := length (filter (fun x => n0 <=? x) c) in
    let ns := length (filter (fun x => x <=? n0) c) in
    if Nat.ltb ns ps then Ok false else if Nat.ltb ps ns then Ok true else Err OtherException.
Definition isccw (l : poly) : res bool := b <- iscw l ;; Ok (negb b).

(** SR_polygon.py:546-558.  The literals 10e10 are 1e11. *)
Definition bb0 : (num * num) * (num * num) :=
  let big := nofZ 100000000000 in ((big, nopp big), (big, nopp big)).
Definition bb_step (b : (num * num) * (num * num)) (s : seg A) :=
  let '((xmin, xmax), (ymin, ymax)) := b in
  ((nmin xmin (nmin (px (si s)) (px (sj s))), nmax xmax (nmax (px (si s)) (px (sj s)))),
   (nmin ymin (nmin (py (si s)) (py (sj s))), nmax ymax (nmax (py (si s)) (py (sj s))))).
Definition bounding_box (l : poly) := fold_left bb_step l bb0.

(** SR_polygon.py:505-506: the far end of the test ray; [d] are two draws of random.random().
    random.uniform(a, b) is a + (b - a) * random(). *)
Definition uniform (a b r : num) : num := a + (b - a) * r.
Definition ray_end (l : poly) (d : num * num) : pt A :=
  let '((_, x), (_, y)) := bounding_box l in
  Point_new (uniform x (nofZ 500 * x) (fst d)) (uniform y (nofZ 30 * y) (snd d)).

(** SR_polygon.py:521: number of segments (as a set) crossed by the ray. *)
Definition ray_count (l : poly) (p : pt A) (d : num * num) : res nat :=
  xs <- filterM (intersection_on_segment (LineSegment p (ray_end l d))) (dedup seg_sameb l) ;;
  Ok (length xs).

(** SR_polygon.py:499-531: rounds of three draws until the parities agree; [draws k] is the k-th pair
    of random numbers. [None]: not finished after [fuel] rounds. *)
Fixpoint ray_rounds (l : poly) (p : pt A) (draws : nat -> num * num) (k fuel : nat) : res (option bool) :=
  match fuel with
  | O => Ok None
  | S f =>
    a <- ray_count l p (draws k) ;;
    b <- ray_count l p (draws (1 + k)%nat) ;;
    c <- ray_count l p (draws (2 + k)%nat) ;;
    if Bool.eqb (Nat.odd b) (Nat.odd a) && Bool.eqb (Nat.odd c) (Nat.odd a)
    then Ok (Some (Nat.odd a))
    else ray_rounds l p draws (3 + k) f
  end.
(** SR_polygon.py:484-531 *)
Definition poly_is_internal_point (l : poly) (p : pt A) (draws : nat -> num * num) (fuel : nat) : res (option bool) :=
  if existsb (fun q => pt_eqb q p) (point_set l) then Ok (Some false)
  else ray_rounds l p draws 0 fuel.
(** SR_polygon.py:533-534 *)
Definition poly_is_external_point (l : poly) (p : pt A) draws fuel : res (option bool) :=
  r <- poly_is_internal_point l p draws fuel ;; Ok (option_map negb r).

(** SR_polygon.py:536-544; the two tests use the draws [d1] and [d2]. *)
Definition is_on_boundary (l : poly) (p : pt A) (d1 d2 : nat -> num * num) (fuel : nat) : res (option bool) :=
  a <- poly_is_internal_point l p d1 fuel ;;
  match a with
  | None => Ok None
  | Some true => Ok (Some false)
  | Some false =>
    b <- poly_is_external_point l p d2 fuel ;;
    match b with
    | None => Ok None
    | Some true => Ok (Some false)
    | Some false =>
      if existsb (fun q => pt_eqb q p) (point_set l) then Ok (Some true)
      else bs <- mapM (fun s => if ls_is_internal_point s p then is_point_on_line s p else Ok false) l ;;
           Ok (Some (existsb (fun b => b) bs))
    end
  end.

(** ** order(), SR_polygon.py:191-255.
    State: the segments with their current directions, the positions of [_akt] and of the elements of
    [_ret], and the Point [_end].  (A list holding one segment object twice is not modelled.) *)
Fixpoint find_from {X} (f : X -> bool) (k : nat) (l : list X) : option nat :=
  match l with
  | [] => None
  | x :: xs => if f x then Some k else find_from f (S k) xs
  end.
Fixpoint upd {X} (k : nat) (f : X -> X) (l : list X) : list X :=
  match k, l with
  | _, [] => []
  | O, x :: xs => f x :: xs
  | S k', x :: xs => x :: upd k' f xs
  end.

Record ostate := mko { o_segs : poly; o_akt : nat; o_end : pt A; o_ret : list nat }.

(** Lines 218-244: one iteration; None: [return False] (with the segments as they are then). *)
Definition order_step (o : ostate) : ostate + poly :=
  match nth_error (o_segs o) (o_akt o) with
  | None => inr (o_segs o)
  | Some akt =>
    let pick := match find_from (fun x => pt_eqb (si x) (o_end o) && negb (seg_eqb x akt)) 0 (o_segs o) with
                | Some k => Some (k, false)
                | None => match find_from (fun x => pt_eqb (sj x) (o_end o) && negb (seg_eqb x akt)) 0 (o_segs o) with
                          | Some k => Some (k, true)
                          | None => None
                          end
                end in
    match pick with
    | None => inr (o_segs o)
    | Some (k, flip) =>
      match nth_error (o_segs o) k with
      | None => inr (o_segs o)
      | Some nxt =>
        let inret := existsb (fun r => Nat.eqb r k || match nth_error (o_segs o) r with Some x => seg_eqb x nxt | None => false end)%bool (o_ret o) in
        let segs' := if negb inret && flip then upd k seg_reverse (o_segs o) else o_segs o in
        let ret' := if inret then o_ret o else o_ret o ++ [k] in
        match nth_error segs' k with
        | None => inr (o_segs o)
        | Some nxt' => inl (mko segs' k (sj nxt') ret')
        end
      end
    end
  end.

(** The loop: [count] is incremented first, the iteration with count > 2 len is the last one, and
    count > 500 raises after its body. *)
Fixpoint order_loop (n : nat) (count : nat) (o : ostate) : res (ostate + poly) :=
  match n with
  | O => Ok (inl o)
  | S n' =>
    match order_step o with
    | inr segs => Ok (inr segs)
    | inl o' => if Nat.ltb 500 (S count) then Err OtherException else order_loop n' (S count) o'
    end
  end.

(** Line 247: key (distance from the origin, x, y, norm) *)
Definition order_key_ltb (a b : seg A) : bool :=
  let d x := pt_distance (Point_new n0 n0) (si x) in
  if d a =? d b then
    if px (si a) =? px (si b) then
      if py (si a) =? py (si b) then norm a <? norm b
      else py (si a) <? py (si b)
    else px (si a) <? px (si b)
  else d a <? d b.

(** deque.rotate(): the last element moves to the front. *)
Definition rotate_right {X} (l : list X) : list X :=
  match rev l with [] => [] | x :: r => x :: rev r end.
Fixpoint rotate_to (fuel : nat) (first : seg A) (l : poly) : poly :=
  match fuel, l with
  | O, _ => l
  | _, [] => l
  | S f, x :: _ => if seg_eqb x first then l else rotate_to f first (rotate_right l)
  end.

(** The value returned and the segments afterwards. *)
Definition order (l : poly) : res (bool * poly) :=
  match l with
  | [] => Err IndexError
  | akt :: _ =>
    r <- order_loop (2 * length l + 1) 0 (mko l 0 (sj akt) []) ;;
    match r with
    | inr segs => Ok (false, segs)
    | inl o =>
      let ret := flat_map (fun k => match nth_error (o_segs o) k with Some s => [s] | None => [] end) (o_ret o) in
      match sort_by order_key_ltb ret with
      | [] => Err IndexError
      | first :: _ => Ok (true, rotate_to (length ret) first ret)
      end
    end
  end.

(** ** Triangles *)

(** SR_polygon.py:1027-1039.  [Err ValueError] is the re-raised domain error. *)
Definition triangle_area (l : poly) : res num :=
  s <- pdiv (nsum (map norm l)) n2 ;;
  s0 <- get l 0 ;; s1 <- get l 1 ;; s2 <- get l 2 ;;
  let d := s * (s - norm s0) * (s - norm s1) * (s - norm s2) in
  if d <? n0 then if nabs d <? EPS then Ok n0 else Err ValueError
  else Ok (nsqrt d).

(** SR_polygon.py:592-598 with the Triangle area *)
Definition is_triangle (l : poly) : res bool :=
  if negb (Nat.eqb (length (point_set l)) 3 && Nat.eqb (length l) 3) then Ok false
  else c <- isclosed l ;;
       if negb c then Ok false else a <- triangle_area l ;; Ok (n0 <? a).

(** SR_polygon.py:1046-1064: the three combinations share the segment objects, so a reversal is
    visible in the later combinations. *)
Definition angle_norm (a b : seg A) : seg A * seg A :=
  if pt_eqb (si a) (sj b) then (a, seg_reverse b)
  else if pt_eqb (si b) (sj a) then (seg_reverse a, b)
  else if pt_eqb (sj b) (sj a) then (seg_reverse a, seg_reverse b)
  else (a, b).
Definition triangle_angles (l : poly) : res (list num) :=
  match l with
  | [s0; s1; s2] =>
    let '(a, b) := angle_norm s0 s1 in
    x <- angle_between_lines a b ;;
    let '(a', c) := angle_norm a s2 in
    y <- angle_between_lines a' c ;;
    let '(b', c') := angle_norm b c in
    z <- angle_between_lines b' c' ;;
    Ok [x; y; z]
  | _ => Err OtherException
  end.
(** SR_polygon.py:1041-1044 *)
Definition triangle_quality (l : poly) : res num :=
  a <- triangle_angles l ;; Ok (nsum (map (fun x => nabs (x - nofZ 60)) a)).

(** ** Module functions *)

(** SR_polygon.py:1682-1686.  [count] and [in] use [==]. *)
Definition remove_outlier_segments (l : poly) : poly :=
  let ap := all_points l in
  let sp := filter (fun x => Nat.eqb (length (filter (fun y => pt_eqb y x) ap)) 1) ap in
  filter (fun s => negb (existsb (fun y => existsb (fun q => pt_eqb q y) sp) (ij s))) l.

(** SR_polygon.py:1689-1712 (at least two nodes; with fewer the code builds a polygon of two invalid
    segments). *)
Definition cw_nodes {X} (nodes : list X) : list X :=
  match nodes with [] => [] | n :: _ => n :: removelast (rev nodes) end.
Definition polygon_from_nodes (nodes : list (num * num)) (cw : bool) : poly :=
  let nodes := if cw then cw_nodes nodes else nodes in
  map (fun '(p, q) => LineSegment p q) (pairs (map (fun '(x, y) => Point_new x y) nodes)).

(** SR_polygon.py:1762-1766 *)
Definition intersecting_lines (l : poly) : res (list (seg A * seg A)) :=
  filterM (fun '(x, y) => intersection_on_segment x y) (combinations2 l).

(** SR_polygon.py:1769-1814 on pairs of numbers. *)
Definition cross (o a b : num * num) : num :=
  (fst a - fst o) * (snd b - snd o) - (snd a - snd o) * (fst b - fst o).
Definition pair_ltb (a b : num * num) : bool :=
  if fst a =? fst b then snd a <? snd b else fst a <? fst b.
Definition pair_eqb (a b : num * num) : bool := (fst a =? fst b) && (snd a =? snd b).
(** The chain is kept reversed: its last element first. *)
Fixpoint hull_pop (chain : list (num * num)) (p : num * num) : list (num * num) :=
  match chain with
  | a :: ((o :: _) as r) => if cross o a p <=? n0 then hull_pop r p else chain
  | _ => chain
  end.
Definition hull_chain (ps : list (num * num)) : list (num * num) :=
  fold_left (fun ch p => p :: hull_pop ch p) ps [].
Definition hull_sorted (ps : list (num * num)) := sort_by pair_ltb (dedup pair_eqb ps).
(** [lower[:-1] + upper[:-1]] *)
Definition hull_nodes (ps : list (num * num)) : list (num * num) :=
  let s := hull_sorted ps in
  rev (tl (hull_chain s)) ++ rev (tl (hull_chain (rev s))).
(** None: fewer than two distinct points, the sorted list is returned instead of a polygon.  The final
    purge() is left out: it replaces points by points == to them (MHeap.v), so it changes nothing if
    the points are identical or separated; otherwise the result here is the one before purge(). *)
Definition convex_hull (ps : list (num * num)) : res (option poly) :=
  if Nat.leb (length (hull_sorted ps)) 1 then Ok None
  else r <- close (polygon_from_nodes (hull_nodes ps) false) ;; Ok (Some r).

(** SR_polygon.py:1817-1839: the segment list of the first operand (which is extended in place) and
    the result.  purge() is left out, as for [convex_hull]. *)
Definition poly_add (l : poly) (others : list poly) : res (poly * poly) :=
  v <- poly_isvalid l ;;
  vs <- (if v then mapM poly_isvalid others else Ok []) ;;
  assert_ (v && forallb (fun b => b) vs) ;;;
  c <- isclosed l ;;
  cs <- (if c then mapM isclosed others else Ok []) ;;
  assert_ (negb (c && forallb (fun b => b) cs)) ;;;
  let sum := l ++ concat others in
  v' <- poly_isvalid sum ;; assert_ v' ;;;
  Ok (sum, sum).

(** SR_polygon.py:1667-1670 *)
Definition rotationsmatrix (phi : num) : (num * num) * (num * num) :=
  let p := nradians phi in
  ((ncos p, n1 * nsin p), (nofZ (-1) * nsin p, ncos p)).
End Poly.
#[global] Arguments lex_ltb : simpl never.
#[global] Arguments cross : simpl never.
#[global] Arguments order_key_ltb : simpl never.
