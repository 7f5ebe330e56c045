(** Model of the remaining queries: Delaunay2d.refine_boundaries, add_internal_points and
    intersectsConstraint, Triangle.tell_relpos, PolygonLine.ordered_copy (geometry/SR_polygon.py),
    PolygonGroup.segments_from_points and node_degree (geometry/SR_polygon_group.py), the walls of a Raum and
    characteristic_size (SR_Vessel/SR_hauptteile.py). *)
From Coq Require Import String List Bool ZArith Arith.
From Verif Require Import Base Arith MPoint MLine MPoly MGroup MTri MVessel.
Import ListNotations.
Local Open Scope list_scope.

Section Rest.
Context {A : Arith}.
Local Open Scope num_scope.
Notation poly := (list (seg A)).

(** min() of a list; ValueError if it is empty *)
Definition pymin (l : list num) : res num :=
  match l with [] => Err ValueError | x :: r => Ok (fold_left nmin r x) end.

(** SR_polygon.py:1196-1203: the points afterwards.  [trunc]: int() of a float. *)
Definition refine_boundaries (trunc : num -> Z) (constraints : poly) (points : list (pt A)) : res (list (pt A)) :=
  m <- pymin (map norm constraints) ;;
  foldM (fun ps c => q <- pdiv (norm c) m ;; l <- divide_line c (trunc q + 1) ;; Ok (ps ++ flat_map ij l)) constraints points.

(** SR_polygon.py:1205-1213: [draw k] is the k-th drawn Point; None: [fuel] draws are not enough.  [inside]:
    is_internal_point of the polygon. *)
Fixpoint add_internal_points (inside : pt A -> res bool) (draw : nat -> pt A) (fuel k wanted : nat) (points : list (pt A)) : res (option (list (pt A))) :=
  match wanted with
  | O => Ok (Some points)
  | S w =>
    match fuel with
    | O => Ok None
    | S f =>
      b <- inside (draw k) ;;
      if b : bool then add_internal_points inside draw f (S k) w (points ++ [draw k])
      else add_internal_points inside draw f (S k) wanted points
    end
  end.

(** SR_polygon.py:1329-1337; the list is computed before any() looks at it. *)
Definition intersects_constraint (points : list (pt A)) (constraints : poly) (edge : nat * nat) : res bool :=
  p <- get points (fst edge) ;; q <- get points (snd edge) ;;
  bs <- mapM (fun x => intersection_on_segment x (LineSegment p q)) constraints ;;
  Ok (existsb (fun b => b) bs).

(** SR_polygon.py:1162-1166: what is printed, in this order.  [inside]: is_internal_point of the triangles. *)
Definition tell_relpos (inside : poly -> pt A -> res bool) (s t : poly) : res (list string) :=
  let io := fun _ : nat => inside in
  a <- tri_touch s t ;; b <- overlap io s t ;; c <- tri_disjunct io io io s t ;; d <- enclosed io s t ;;
  Ok (map snd (filter fst [(a, "touch"%string); (b, "overlap"%string); (c, "disjunct"%string); (d, "enclosed"%string);
                           (congruent s t, "congruent"%string)])).

(** SR_polygon.py:186-189: what is returned, and the polygon afterwards (order() works on a deep copy). *)
Definition ordered_copy (l : poly) : res (bool * poly) := ' (b, _) <- order l ;; Ok (b, l).

(** SR_polygon_group.py:139-145; [points] is a list, so that [in] compares with ==. *)
Definition segments_from_points (polygons : list poly) (points : list (pt A)) : list poly :=
  let mem p := existsb (fun q => pt_eqb q p) points in
  let s := filter (fun x => mem (si x) && mem (sj x))%bool (concat polygons) in
  filter (fun P => existsb (fun y => existsb (fun t => seg_eqb t y) P) s) polygons.

(** SR_polygon_group.py:303-306: _al is the dict of as_adjacency_list() *)
Definition node_degree (al : list (pt A * list (pt A))) (p : pt A) : res nat :=
  match filter (fun x => pt_sameb p (fst x)) al with
  | [] => Err AssertionError
  | x :: _ => Ok (List.length (snd x))
  end.

(** SR_hauptteile.py:165-203: the lists of inner and outer walls of a room, each a list of cycles of parts.
    A part is given by its segments. *)
Record room := mkroom { rm_innere : list (list poly); rm_aussere : list (list poly) }.
Definition ganze_wandung (r : room) : list poly := concat (rm_innere r) ++ concat (rm_aussere r).
Definition as_polygon (r : room) : poly := flat_map wall_segments (ganze_wandung r).

(** SR_hauptteile.py:694-695, 1283-1284 (mantle, cone: the list of the diameters) and 772-773, 945-946 (heads:
    the diameter as a list of one) *)
Definition characteristic_size (d : list num) : res num := m <- pymin d ;; pdiv m n2.
End Rest.
#[global] Arguments room A : clear implicits.
