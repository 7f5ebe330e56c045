(** Model of geometry/SR_line.py (value layer: valid segments, no aliasing). *)
From Coq Require Import List Bool ZArith.
From Verif Require Import Base Arith MPoint.
Import ListNotations.

(** SR_line.py:19, SR_hauptteile.py:150-161: the three segment classes. *)
Inductive scls := CLineSegment | CWall | CNonWall.

Definition scls_eqb (a b : scls) : bool :=
  match a, b with
  | CLineSegment, CLineSegment | CWall, CWall | CNonWall, CNonWall => true
  | _, _ => false
  end.

Section Line.
Context {A : Arith}.
Local Open Scope num_scope.

(** Python's float division. *)
Definition pdiv (x y : num) : res num :=
  if y =? n0 then Err ZeroDivisionError else Ok (x / y).

(** SR_line.py:24-28, 82-95 *)
Record seg := mkseg { sc : scls; si : pt A; sj : pt A }.
Definition LineSegment (i j : pt A) : seg := mkseg CLineSegment i j.
Definition ij (s : seg) : list (pt A) := [si s; sj s].

(** SR_line.py:39-47 [__eq__], 58-60 [__ne__] for valid segments. *)
Definition seg_eqb (s t : seg) : bool :=
  scls_eqb (sc t) (sc s) && pt_eqb (si s) (si t) && pt_eqb (sj s) (sj t).

(** SR_line.py:62-63 with [__eq__]: membership of segments in sets (hash of the hashes of the
    endpoints, hence exact coordinates in order; [==] also wants the same class). *)
Definition seg_sameb (s t : seg) : bool :=
  scls_eqb (sc t) (sc s) && pt_sameb (si s) (si t) && pt_sameb (sj s) (sj t).

(** SR_line.py:97-115 *)
Definition delta_x (s : seg) : num := px (sj s) - px (si s).
Definition delta_y (s : seg) : num := py (sj s) - py (si s).
Definition norm (s : seg) : num := nsqrt (sqr (delta_x s) + sqr (delta_y s)).
Definition as_vector (s : seg) : num * num := (delta_x s, delta_y s).

(** SR_line.py:49-56 *)
Definition seg_loose_equal (s t : seg) : bool :=
  scls_eqb (sc t) (sc s) && set_eqb pt_sameb (ij s) (ij t) && (norm s =? norm t).

(** SR_line.py:144-149 *)
Definition isnull (s : seg) : bool := pt_eqb (si s) (sj s).

(** SR_line.py:117-123 *)
Definition unitvector (s : seg) : res (num * num) :=
  if isnull s then Ok (n0, n0)
  else x <- pdiv (delta_x s) (norm s) ;; y <- pdiv (delta_y s) (norm s) ;; Ok (x, y).

(** SR_line.py:125-133 *)
Definition crossproduct (s t : seg) : num :=
  delta_x s * delta_y t - delta_y s * delta_x t.

(** SR_line.py:135-142 *)
Definition dotproduct (s t : seg) : num :=
  delta_x s * delta_x t + delta_y s * delta_y t.

(** SR_line.py:151-161 *)
Definition direction (s : seg) : num :=
  let r := ndegrees (natan2 (delta_y s) (delta_x s)) in
  if r <? n0 then nofZ 360 + r else r.

(** SR_line.py:163-177 (mind the strict lower bound in x) *)
Definition ls_is_internal_point (s : seg) (p : pt A) : bool :=
  let i := si s in let j := sj s in
  (nmin (px i) (px j) - EPS <? px p) && (px p <=? nmax (px i) (px j) + EPS) &&
  ((nmin (py i) (py j) - EPS <=? py p) && (py p <=? nmax (py i) (py j) + EPS)).

(** SR_line.py:530-542; the caller guarantees valid arguments, [self.i == other.i] is asserted. *)
Definition crossproduct_commonstart (s t : seg) : res num :=
  assert_ (pt_eqb (si s) (si t)) ;;;
  Ok ((px (sj s) - px (si s)) * (py (sj t) - py (si s))
      - (py (sj s) - py (si s)) * (px (sj t) - px (si s))).

(** SR_line.py:179-194 *)
Definition is_point_on_line (s : seg) (p : pt A) : res bool :=
  if pt_eqb p (si s) || pt_eqb p (sj s) then Ok true
  else c <- crossproduct_commonstart s (LineSegment (si s) p) ;;
       Ok (nabs c <? EPS).

(** SR_line.py:196-210 *)
Definition is_point_to_right (s : seg) (p : pt A) : bool :=
  let v := crossproduct s (LineSegment (si s) p) in
  if v <? n0 then true else if n0 <? v then false else false.

(** SR_line.py:212-223 *)
Definition is_point_to_left (s : seg) (p : pt A) : res bool :=
  on <- is_point_on_line s p ;;
  Ok (if on then false else negb (is_point_to_right s p)).

(** SR_line.py:225-235 *)
Definition opposite_direction (s t : seg) : bool :=
  if nmod (direction s + nofZ 180) (nofZ 360) =? direction t then true else false.

(** SR_line.py:237-247 *)
Definition is_parallel (s t : seg) : bool :=
  if crossproduct s t =? n0 then true else false.

(** SR_line.py:249-256 *)
Definition is_intersecting (s t : seg) : bool := negb (is_parallel s t).

(** SR_line.py:258-267 *)
Definition line_point_distance (s : seg) (p : pt A) : res num :=
  pdiv (nabs ((py (sj s) - py (si s)) * px p - (px (sj s) - px (si s)) * py p
              + px (sj s) * py (si s) - py (sj s) * px (si s))) (norm s).

(** SR_line.py:282-298 *)
Definition touch (s t : seg) : bool :=
  Nat.eqb (length (set_inter pt_sameb (ij s) (ij t))) 1
  || existsb (fun a => existsb (fun b => pt_distance a b <? EPS) (ij t)) (ij s).

(** SR_line.py:269-280 *)
Definition continuous (s t : seg) : bool :=
  if touch s t then
    if pt_eqb (sj s) (si t) || pt_eqb (si s) (sj t) then true else false
  else false.

(** SR_line.py:446-448 (the list is built completely before [all]) *)
Definition is_collinear (s t : seg) : res bool :=
  bs <- mapM (is_point_on_line s) (ij t) ;; Ok (forallb (fun b => b) bs).

(** What [overlap]/[common_part] return besides None. [COdd l] is [LineSegment] applied to a list
    of endpoints whose length is not 2. *)
Inductive common := CPoint (p : pt A) | CSeg (s : seg) | COdd (l : list (pt A)).

(** Built-in indexing [l[k]]. *)
Definition get {X} (l : list X) (k : nat) : res X :=
  match nth_error l k with Some x => Ok x | None => Err IndexError end.

(** SR_line.py:367: sorted by the distance from the origin. *)
Definition by_origin (l : list (pt A)) : list (pt A) :=
  let d x := pt_distance (Point_new n0 n0) x in
  sort_by (fun a b => d a <? d b) l.

(** SR_line.py:300-367 *)
Definition overlap (s t : seg) : res (bool * option common) :=
  if negb (is_parallel s t) then Ok (false, None) else
  col <- is_collinear s t ;;
  if negb col then Ok (false, None) else
  if negb (existsb (ls_is_internal_point s) (ij t)) && negb (existsb (ls_is_internal_point t) (ij s))
     && negb (touch s t) then Ok (false, None) else
  if seg_loose_equal s t then Ok (true, Some (CSeg s)) else
  if touch s t then
    match set_inter pt_sameb (ij s) (ij t) with
    | [cp] =>
      let otherpoints := filter (fun x => pt_neb x cp) (ij s ++ ij t) in
      o0 <- get otherpoints 0 ;; o1 <- get otherpoints 1 ;;
      let l1 := LineSegment cp o0 in
      let l2 := LineSegment cp o1 in
      if direction l1 =? direction l2 then
        Ok (true, Some (CSeg (if norm l2 <? norm l1 then l2 else l1)))
      else Ok (true, Some (CPoint cp))
    | _ => Err OtherException
    end
  else
  if forallb (ls_is_internal_point s) (ij t) then Ok (true, Some (CSeg t)) else
  if forallb (ls_is_internal_point t) (ij s) then Ok (true, Some (CSeg s)) else
  match by_origin (filter (ls_is_internal_point s) (ij t) ++ filter (ls_is_internal_point t) (ij s)) with
  | [a; b] => Ok (true, Some (CSeg (LineSegment a b)))
  | l => Ok (true, Some (COdd l))
  end.

(** SR_line.py:369-395 *)
Definition intersection_point (s t : seg) : res (option (pt A)) :=
  if is_parallel s t then Ok None
  else
    let x1 := px (si s) in let y1 := py (si s) in
    let x2 := px (sj s) in let y2 := py (sj s) in
    let x3 := px (si t) in let y3 := py (si t) in
    let x4 := px (sj t) in let y4 := py (sj t) in
    let den := (x1 - x2) * (y3 - y4) - (y1 - y2) * (x3 - x4) in
    let num_x := (x1 * y2 - y1 * x2) * (x3 - x4) - (x1 - x2) * (x3 * y4 - y3 * x4) in
    let num_y := (x1 * y2 - y1 * x2) * (y3 - y4) - (y1 - y2) * (x3 * y4 - y3 * x4) in
    x <- pdiv num_x den ;; y <- pdiv num_y den ;; Ok (Some (Point_new x y)).

(** SR_line.py:474-490 *)
Definition intersection_on_segment (s t : seg) : res bool :=
  if touch s t then Ok false else
  ip <- intersection_point s t ;;
  match ip with
  | None => Ok false
  | Some p => Ok (if ls_is_internal_point s p && ls_is_internal_point t p then true else false)
  end.

(** SR_line.py:450-472 *)
Definition intersection_on_endpoint (s t : seg) : res bool :=
  ip <- intersection_point s t ;;
  match ip with
  | None => Ok false
  | Some p => if touch s t then Ok true
              else Ok (existsb (fun x => pt_eqb p x) (ij s ++ ij t))
  end.

(** SR_line.py:397-436 *)
Definition common_part (s t : seg) : res (option common) :=
  if is_parallel s t then
    col <- is_collinear s t ;;
    if col then
      if seg_loose_equal s t then Ok (Some (CSeg s))
      else ol <- overlap s t ;; Ok (snd ol)
    else Ok None
  else
    ip <- intersection_point s t ;;
    ios <- intersection_on_segment s t ;;
    Ok (if ios || touch s t then option_map CPoint ip else None).

(** SR_line.py:438-444 *)
Inductive ctype := TNone | TPoint | TSegment (c : scls).
Definition common_part_type (s t : seg) : res ctype :=
  cp <- common_part s t ;;
  Ok (match cp with
      | None => TNone
      | Some (CPoint _) => TPoint
      | Some (CSeg u) => TSegment (sc u)
      | Some (COdd _) => TSegment CLineSegment
      end).

(** SR_line.py:502-504 [reverse] (on the value), 506-509 [line_reversed] *)
Definition seg_reverse (s : seg) : seg := mkseg (sc s) (sj s) (si s).
Definition line_reversed (s : seg) : seg := LineSegment (sj s) (si s).

(** math.acos with its domain error. *)
Definition pacos (x : num) : res num :=
  if (x <? nofZ (-1)) || (n1 <? x) then Err ValueError else Ok (nacos x).

(** SR_line.py:515-521 *)
Definition angle_between_lines (s t : seg) : res num :=
  q <- pdiv (dotproduct s t) (norm s * norm t) ;;
  a <- pacos q ;; Ok (ndegrees a).

(** SR_line.py:523-528 *)
Definition angle_from_start_point (s : seg) (p : pt A) : res num :=
  assert_ (pt_neb p (si s)) ;;; angle_between_lines s (LineSegment (si s) p).

(** SR_line.py:544-546 *)
Definition seg_bounding_box (s : seg) : (num * num) * (num * num) :=
  ((nmin (px (si s)) (px (sj s)), nmax (px (si s)) (px (sj s))),
   (nmin (py (si s)) (py (sj s)), nmax (py (si s)) (py (sj s)))).

(** SR_line.py:548-550 *)
Definition seg_midpoint (s : seg) : num * num :=
  ((n2 * px (si s) + px (sj s)) / nofZ 3, (n2 * py (si s) + py (sj s)) / nofZ 3).

(** SR_line.py:571-590 *)
Definition point_on_line_at_ratio (s : seg) (r : num) : res (pt A) :=
  assert_ ((n0 <=? r) && (r <=? n1)) ;;;
  if r =? n0 then Ok (si s) else
  if r =? n1 then Ok (sj s) else
  Ok (Point_new ((n1 - r) * px (si s) + r * px (sj s)) ((n1 - r) * py (si s) + r * py (sj s))).

(** SR_line.py:593-606 for an integer [numseg]. *)
Definition divide_line_point (s : seg) (numseg i : Z) : res (pt A) :=
  let n := nofZ numseg in
  a <- pdiv (n - nofZ i) n ;; b <- pdiv (nofZ i) n ;;
  Ok (Point_new (a * px (si s) + b * px (sj s)) (a * py (si s) + b * py (sj s))).
Definition divide_line (s : seg) (numseg : Z) : res (list seg) :=
  mid <- mapM (fun k => divide_line_point s numseg (Z.of_nat k)) (seq 1 (Z.to_nat numseg - 1)) ;;
  Ok (map (fun '(p1, p2) => LineSegment p1 p2) (pairs ([si s] ++ mid ++ [sj s]))).

(** SR_line.py:609-614; None stands for the returned [False]. *)
Definition add_point_on_line (s : seg) (p : pt A) : option (seg * seg) :=
  if ls_is_internal_point s p then Some (LineSegment (si s) p, LineSegment p (sj s)) else None.

End Line.
Arguments seg _ : clear implicits.
Arguments common _ : clear implicits.
#[global] Arguments norm : simpl never.
#[global] Arguments crossproduct : simpl never.
#[global] Arguments dotproduct : simpl never.
#[global] Arguments direction : simpl never.
#[global] Arguments ls_is_internal_point : simpl never.
#[global] Arguments touch : simpl never.
#[global] Arguments is_parallel : simpl never.
