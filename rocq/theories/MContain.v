(** Model of further parts of geometry/SR_polygon_group.py and SR_polygon.py: contained_cycles, the
    cycles of a PolygonGroup, as_edgelist, names and lookup of polygons, simplify. *)
From Coq Require Import List Bool ZArith Arith.
From Verif Require Import Base Arith MPoint MLine MPoly MTri MGroup.
Import ListNotations.

Section Contain.
Context {A : Arith}.
Local Open Scope num_scope.
Notation poly := (list (seg A)).

(** ** contained_cycles *)

(** SR_polygon_group.py:416, 420 *)
Definition cycle_points (parts : list poly) : list (pt A) := flat_map point_set parts.
(** The answers of is_internal_point (it draws random numbers): to the question about point number n of
    cycle z and the hull of cycle e. *)
Context (inside : nat -> nat -> nat -> poly -> pt A -> res bool).
(** SR_polygon_group.py:422.  convex_hull returns a list instead of a polygon for fewer than two distinct
    points, which has no is_internal_point. *)
Definition internals (e z : nat) (hull : option poly) (ps : list (pt A)) : res (list (pt A)) :=
  r <- filterM (fun '(n, p) => match hull with None => Err AttributeError | Some h => inside e z n h p end)
         (combine (seq 0 (length ps)) ps) ;;
  Ok (map snd r).
(** set(a) == set(b) *)
Definition same_set (a b : list (pt A)) : bool :=
  forallb (fun p => existsb (pt_sameb p) b) a && forallb (fun p => existsb (pt_sameb p) a) b.
(** SR_polygon_group.py:414-427 *)
Definition contained_row (cycles : list (nat * list poly)) (e : nat) (pe : list poly) : res (list nat) :=
  r <- filterM (fun '(z, pz) =>
         hull <- convex_hull (map (fun w => (px w, py w)) (cycle_points pe)) ;;
         ins <- internals e z hull (cycle_points pz) ;;
         Ok (same_set ins (cycle_points pz)))
       (filter (fun '(x, _) => negb (Nat.eqb x e)) cycles) ;;
  Ok (map fst r).
(** SR_polygon_group.py:402-435 (and 127-130) *)
Definition contained_cycles (cycles : list (nat * list poly)) : res (list (nat * list nat)) :=
  mapM (fun '(e, pe) => r <- contained_row cycles e pe ;; Ok (e, r)) cycles.
End Contain.

Section Group.
Context {A : Arith}.
Local Open Scope num_scope.
Notation poly := (list (seg A)).

(** ** PolygonGroup.cycles *)

(** SR_polygon.py:1682-1686 on segment objects of a heap *)
Definition loose_points (l : poly) : list (pt A) :=
  let ap := all_points l in filter (fun x => Nat.eqb (length (filter (fun y => pt_eqb y x) ap)) 1) ap.
Definition remove_outlier_ids (h : poly) (ids : list nat) : list nat :=
  let sp := loose_points (value h ids) in
  filter (fun k => negb (existsb (fun s => existsb (fun y => existsb (fun q => pt_eqb q y) sp) (ij s)) (obj h k))) ids.
(** SR_polygon_group.py:84-91 for one cycle; the parts are the lists of their wall segments.  Without any
    segment the polygon is made of two invalid ones, which order() leaves alone: None. *)
Definition group_cycle (h : poly) (parts : list (list nat)) : res (option (list nat) * poly) :=
  match remove_outlier_ids h (concat parts) with
  | [] => Ok (None, h)
  | ids => ' (_, ids', h') <- horder h ids ;; Ok (Some ids', h')
  end.
(** SR_polygon_group.py:77-93: the segment lists of the polygons, and the segments afterwards *)
Fixpoint group_cycles (h : poly) (cycles : list (nat * list (list nat))) : res (list (nat * option (list nat)) * poly) :=
  match cycles with
  | [] => Ok ([], h)
  | (k, parts) :: r =>
    ' (c, h1) <- group_cycle h parts ;;
    ' (cs, h2) <- group_cycles h1 r ;;
    Ok ((k, c) :: cs, h2)
  end.

(** ** as_edgelist *)

(** [(s.i, s.j) == (t.i, t.j)] as tuples *)
Definition edge_eqb (s t : pt A * pt A) : bool := pt_eqb (fst s) (fst t) && pt_eqb (snd s) (snd t).
(** sorted() of pairs of Points.  Points have no order: the comparison of pairs that are not equal raises
    TypeError.  The sort first compares every pair with the one before it, until one is smaller. *)
Fixpoint sort_edges (l : list (pt A * pt A)) : res (list (pt A * pt A)) :=
  match l with
  | [] => Ok []
  | x :: r => match r with
              | [] => Ok [x]
              | y :: _ => if edge_eqb y x then r' <- sort_edges r ;; Ok (x :: r') else Err TypeError
              end
  end.
(** SR_polygon_group.py:266-272, for the segments after purge() (called by points_numbered, 268) *)
Definition as_edgelist (polygons : list poly) : res (list (pt A * pt A)) :=
  sort_edges (map (fun s => (si s, sj s)) (concat polygons)).

(** ** Names *)

(** SR_polygon_group.py:35-42 *)
Definition polygon_from_repr (polygons : list poly) (rep : poly) : res poly :=
  match filter (fun x => poly_eqb x rep) polygons with
  | [x] => Ok x
  | _ => Err OtherException
  end.
(** SR_polygon_group.py:47-61, for polygons with their names *)
Definition fill_vect {N} (polygons : list (N * poly)) (v : list poly) : list N :=
  flat_map (fun pl => match filter (fun x => poly_eqb pl (snd x)) polygons with [x] => [fst x] | _ => [] end) v.
(** SR_polygon_group.py:63-66: a dict of lists of polygons *)
Definition names_of_dict {N K} (polygons : list (N * poly)) (rep : list (K * list poly)) : list (K * list N) :=
  map (fun '(k, v) => (k, fill_vect polygons v)) rep.

(** ** simplify *)

(** A polygon with the points added to it, each with its segment (SR_polygon.py:276-298). *)
Record ipoly := mkip { ip_segs : poly; ip_int : list (pt A * seg A); ip_ind : list (pt A * seg A); ip_ext : list (pt A * seg A) }.
(** SR_polygon.py:1673-1679 *)
Definition simplify (p : ipoly) : ipoly :=
  let segs := remove_outlier_segments (ip_segs p) in
  let keep := filter (fun x : pt A * seg A => existsb (fun s => seg_eqb s (snd x)) segs) in
  mkip segs (keep (ip_int p)) (ip_ind p) (keep (ip_ext p)).
End Group.
#[global] Arguments ipoly A : clear implicits.
