(** Model of geometry/SR_polygon.py:1169-1580, class Delaunay2d (without plotting).

    [nr_added_points] is 0, so no internal points are added.  Points are named by their index in the
    list [points].  Sets are lists; where the code iterates over a set the order is that of the list
    (so statements about all states are about all orders) or a parameter. *)
From Coq Require Import List Bool ZArith Arith.
From Verif Require Import Base Arith MPoint MLine MPoly.
Import ListNotations.

Definition edge := (nat * nat)%type.
Definition tri := (nat * nat * nat)%type.
Definition edge_eqb (e f : edge) : bool := Nat.eqb (fst e) (fst f) && Nat.eqb (snd e) (snd f).
Definition tri_list (t : tri) : list nat := let '(a, b, c) := t in [a; b; c].

(** The dict edge2Triangles. *)
Definition emap := list (edge * list nat).
Fixpoint aget (m : emap) (e : edge) : option (list nat) :=
  match m with [] => None | (k, v) :: r => if edge_eqb k e then Some v else aget r e end.
Fixpoint aset (m : emap) (e : edge) (v : list nat) : emap :=
  match m with [] => [(e, v)] | (k, w) :: r => if edge_eqb k e then (k, v) :: r else (k, w) :: aset r e v end.
Fixpoint adel (m : emap) (e : edge) : emap :=
  match m with [] => [] | (k, w) :: r => if edge_eqb k e then r else (k, w) :: adel r e end.

Section Delaunay.
Context {A : Arith}.
Local Open Scope num_scope.

(** SR_polygon.py:1183-1191: points, triangles, edge2Triangles, boundaryEdges *)
Record dst := mkd { dpts : list (pt A); dtris : list tri; de2t : emap; dbnd : list edge }.

(** SR_polygon.py:1529-1533 *)
Definition makeKey (i j : nat) : edge := if Nat.ltb j i then (j, i) else (i, j).

(** SR_polygon.py:1306-1315 *)
Definition getArea (ps : list (pt A)) (i0 i1 i2 : nat) : res num :=
  p1 <- get ps i1 ;; p0 <- get ps i0 ;; let d1 := pt_sub p1 p0 in
  p2 <- get ps i2 ;; let d2 := pt_sub p2 p0 in
  Ok (px d1 * py d2 - py d1 * px d2).

(** SR_polygon.py:1317-1327 *)
Definition isEdgeVisible (ps : list (pt A)) (ip : nat) (e : edge) : res bool :=
  a <- getArea ps ip (fst e) (snd e) ;; Ok (a <? EPS).

(** SR_polygon.py:1339-1347 *)
Definition makeCounterClockwise (ps : list (pt A)) (t : tri) : res tri :=
  let '(a, b, c) := t in
  ar <- getArea ps a b c ;; Ok (if ar <? nopp EPS then (a, c, b) else t).

(** SR_polygon.py:1535-1539 *)
Definition dotproduct (a b : pt A) : num := px a * px b + py a * py b.

(** SR_polygon.py:1376-1383: the last vertex of the triangle that is not an end of the edge.  None: the
    code would go on with index -1; this needs a triangle without a third vertex. *)
Definition opposite (t : tri) (e : edge) : option nat :=
  last_opt (filter (fun v => negb (Nat.eqb v (fst e) || Nat.eqb v (snd e))) (tri_list t)).

(** SR_polygon.py:1385-1395: the angle at [o] between the two ends of the edge; [cr] is the cross
    product computed there. *)
Definition opp_angle (ps : list (pt A)) (o : nat) (e : edge) (cr : num) : res num :=
  p0 <- get ps (fst e) ;; p1 <- get ps (snd e) ;; po <- get ps o ;;
  Ok (nabs (natan2 cr (dotproduct (pt_sub p0 po) (pt_sub p1 po)))).

(** SR_polygon.py:1398 *)
Definition delaunay_test (ps : list (pt A)) (o1 o2 : nat) (e : edge) : res bool :=
  c1 <- getArea ps o1 (fst e) (snd e) ;; c2 <- getArea ps o2 (snd e) (fst e) ;;
  a1 <- opp_angle ps o1 e c1 ;; a2 <- opp_angle ps o2 e c2 ;;
  Ok (npi * (n1 + EPS) <? a1 + a2).

Definition replace_all (v : list nat) (a b : nat) : list nat := map (fun x => if Nat.eqb x a then b else x) v.
Fixpoint tset (l : list tri) (k : nat) (t : tri) : list tri :=
  match l, k with
  | [], _ => [] | _ :: r, O => t :: r | x :: r, S k' => x :: tset r k' t
  end.

(** SR_polygon.py:1349-1441: the new state and the edges to look at next. *)
Definition flipOneEdge (st : dst) (e : edge) : res (dst * list edge) :=
  match aget (de2t st) e with
  | Some [t1; t2] =>
    tri1 <- get (dtris st) t1 ;; tri2 <- get (dtris st) t2 ;;
    match opposite tri1 e, opposite tri2 e with
    | Some o1, Some o2 =>
      b <- delaunay_test (dpts st) o1 o2 e ;;
      if b then
        let tris := tset (tset (dtris st) t1 (o1, fst e, o2)) t2 (o1, o2, snd e) in
        let m1 := adel (de2t st) e in
        let m2 := aset m1 (makeKey o1 o2) [t1; t2] in
        let k1 := makeKey o1 (snd e) in
        match aget m2 k1 with
        | None => Err KeyError
        | Some v1 =>
          let m3 := aset m2 k1 (replace_all v1 t1 t2) in
          let k2 := makeKey o2 (fst e) in
          match aget m3 k2 with
          | None => Err KeyError
          | Some v2 =>
            let m4 := aset m3 k2 (replace_all v2 t2 t1) in
            Ok (mkd (dpts st) tris m4 (dbnd st), [k1; k2; makeKey o1 (fst e); makeKey o2 (snd e)])
          end
        end
      else Ok (st, [])
    | _, _ => Err IndexError
    end
  | Some (_ :: _ :: _ :: _) => Err ValueError
  | _ => Ok (st, [])
  end.

(** SR_polygon.py:1443-1466; [ord] is the order in which the set of each round is iterated over; None:
    still flipping after [fuel] rounds. *)
Definition flip_round (ord : list edge -> list edge) (st : dst) (es : list edge) : res (dst * list edge) :=
  foldM (fun '(st, acc) e => '(st', r) <- flipOneEdge st e ;; Ok (st', dedup edge_eqb (acc ++ r))) (ord es) (st, []).
Fixpoint flip_loop (fuel : nat) (ord : list edge -> list edge) (st : dst) (es : list edge) : res (option dst) :=
  match fuel with
  | O => Ok None
  | S f => '(st', es') <- flip_round ord st es ;;
           match es' with [] => Ok (Some st') | _ => flip_loop f ord st' es' end
  end.
Definition flipEdges (fuel : nat) (ord : list edge -> list edge) (st : dst) : res (option dst) :=
  flip_loop fuel ord st (map fst (de2t st)).

(** SR_polygon.py:1482-1483 and the like: sorting two or three indices. *)
Definition sort3 (a b c : nat) : tri :=
  match sort_by Nat.ltb [a; b; c] with [x; y; z] => (x, y, z) | _ => (a, b, c) end.
(** SR_polygon.py:1478-1510: one boundary edge; the state, and the edges to remove and to add. *)
Definition addPoint_step (ip : nat) (acc : dst * list edge * list edge) (e : edge) : res (dst * list edge * list edge) :=
  let '(st, rm, ad) := acc in
  vis <- isEdgeVisible (dpts st) ip e ;;
  if vis then
    t <- makeCounterClockwise (dpts st) (sort3 (fst e) (snd e) ip) ;;
    let k := length (dtris st) in
    match aget (de2t st) (makeKey (fst e) (snd e)) with
    | None => Err KeyError
    | Some v =>
      let m1 := aset (de2t st) (makeKey (fst e) (snd e)) (v ++ [k]) in
      let e1 := makeKey ip (fst e) in let e2 := makeKey (snd e) ip in
      let v1 := (match aget m1 e1 with Some w => w | None => [] end) ++ [k] in
      let m2 := aset m1 e1 v1 in
      let v2 := (match aget m2 e2 with Some w => w | None => [] end) ++ [k] in
      let m3 := aset m2 e2 v2 in
      Ok (mkd (dpts st) (dtris st ++ [t]) m3 (dbnd st), rm ++ [e], ad ++ [(fst e, ip); (ip, snd e)])
    end
  else Ok acc.

(** SR_polygon.py:1468-1522 without the flips. *)
Definition addPoint_insert (st : dst) (ip : nat) : res dst :=
  '(st', rm, ad) <- foldM (addPoint_step ip) (dbnd st) (st, [], []) ;;
  let b1 := filter (fun e => negb (memb edge_eqb e rm)) (dbnd st') in
  b2 <- foldM (fun b e => match aget (de2t st') (makeKey (fst e) (snd e)) with
                          | None => Err KeyError
                          | Some v => Ok (if Nat.eqb (length v) 1 && negb (memb edge_eqb e b) then b ++ [e] else b)
                          end) (dedup edge_eqb ad) b1 ;;
  Ok (mkd (dpts st') (dtris st') (de2t st') b2).
(** SR_polygon.py:1524-1527: flipEdges returns None, so the loop runs once. *)
Definition addPoint (fuel : nat) (ord : list edge -> list edge) (st : dst) (ip : nat) : res (option dst) :=
  st' <- addPoint_insert st ip ;; flipEdges fuel ord st'.

(** SR_polygon.py:1252-1262: points are dropped from the front until the first three are not
    collinear. *)
Fixpoint drop_collinear (fuel : nat) (ps : list (pt A)) : res (list (pt A)) :=
  match fuel with
  | O => Ok ps
  | S f => if Nat.ltb 2 (length ps)
           then a <- getArea ps 0 1 2 ;; if nabs a <? EPS then drop_collinear f (tl ps) else Ok ps
           else Ok ps
  end.

(** SR_polygon.py:1238-1250: sorting by the distance from the centre of gravity; [points] is the list
    made from the set of the points.  The accumulation starts from Point((0, 0)); the division is on the
    coordinates and rounded by _set_coords. *)
Definition d_centroid (ps : list (pt A)) : res (pt A) :=
  let s := fold_left pt_add ps (Point_new n0 n0) in
  x <- pdiv (px s) (nofZ (Z.of_nat (length ps))) ;; y <- pdiv (py s) (nofZ (Z.of_nat (length ps))) ;;
  Ok (Point_new x y).
Definition d_sorted (ps : list (pt A)) : res (list (pt A)) :=
  c <- d_centroid ps ;;
  Ok (sort_by (fun p q => sqr (pt_distance c p) <? sqr (pt_distance c q)) ps).

(** SR_polygon.py:1264-1283 *)
Definition first_triangle (ps : list (pt A)) : res (option dst) :=
  if Nat.leb 3 (length ps) then
    t <- makeCounterClockwise ps (0, 1, 2)%nat ;;
    let '(a, b, c) := t in
    Ok (Some (mkd ps [t] (aset (aset (aset [] (makeKey a b) [0%nat]) (makeKey b c) [0%nat]) (makeKey c a) [0%nat])
                  [(a, b); (b, c); (c, a)]))
  else Ok None.

(** SR_polygon.py:1289-1292: the remaining indices in the order in which they are popped. *)
Fixpoint add_all (fuel : nat) (ord : list edge -> list edge) (st : dst) (todo : list nat) : res (option dst) :=
  match todo with
  | [] => Ok (Some st)
  | i :: r => o <- addPoint fuel ord st i ;;
              match o with None => Ok None | Some st' => add_all fuel ord st' r end
  end.

(** SR_polygon.py:1234-1292: None if all points are collinear (or the fuel runs out). *)
Definition triangulate (fuel : nat) (ord : list edge -> list edge) (pop : list nat -> list nat) (points : list (pt A)) : res (option dst) :=
  ps <- d_sorted points ;;
  ps' <- drop_collinear (length ps) ps ;;
  o <- first_triangle ps' ;;
  match o with
  | None => Ok None
  | Some st => add_all fuel ord st (pop (seq 3 (length ps' - 3)))
  end.
End Delaunay.
Arguments dst _ : clear implicits.
