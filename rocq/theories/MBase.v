(** Model of BehalterGraph.cycles and keep_base_polygons (geometry/SR_polygon_group.py:362-375, 612-752):
    which of the loops found are the rooms.

    is_internal_point answers the same question always in the same way ([inside]) and a polygon is
    always triangulated into the same triangles; the triangles of a set are listed in the order found. *)
From Coq Require Import List Bool ZArith Arith.
From Verif Require Import Base Arith MPoint MLine MPoly MTri MGroup MCycles.
Import ListNotations.

Section BasePolygons.
Context {A : Arith}.
Local Open Scope num_scope.
Notation poly := (list (seg A)).

(** The polygons are objects named by their position in the list given; their segments are objects on a
    heap, as in [find_loops], which they may share. *)
Record bstate := mkb { b_heap : poly; b_ids : list (list nat) }.
Definition val (st : bstate) (k : nat) : poly := value (b_heap st) (nth k (b_ids st) []).
(** SR_polygon.py:42-48 *)
Definition equal (st : bstate) (a b : nat) : bool := poly_eqb (val st a) (val st b).
(** the comparison of [in], list.remove and of sets: the same object or an equal one *)
Definition same (st : bstate) (a b : nat) : bool := Nat.eqb a b || equal st a b.
(** the same for tuples *)
Definition same_comb (st : bstate) (a b : list nat) : bool :=
  Nat.eqb (length a) (length b) && forallb2 (same st) a b.

(** SR_polygon.py:64-89 *)
Definition loosely (st : bstate) (a b : nat) : res bool := poly_loose_equal (val st a) (val st b) false.

(** hash() of the polygons and of the tuples of polygons is different from call to call, see [hashing] *)
Context (H : hashing nat) (HC : hashing (list nat)).
Context (inside : poly -> pt A -> res bool).

(** SR_polygon_group.py:641-644; [k] counts the calls of hash() *)
Fixpoint mark_row (st : bstate) (pe : nat) (zs : list nat) (acc : nat * @hset nat) : res (nat * @hset nat) :=
  match zs with
  | [] => Ok acc
  | pz :: r =>
    let '(k, s) := acc in
    b <- loosely st pe pz ;;
    mark_row st pe r
      (if b : bool then
         if hset_mem (same st) (hash_at H k pz) pz s then (S k, s)
         else (S (S k), hset_add (same st) (hash_at H (S k) pe) pe s)
       else (k, s))
  end.
(** SR_polygon_group.py:639-644 *)
Definition mark (st : bstate) (polygons : list nat) : res (nat * @hset nat) :=
  foldM (fun acc pe => mark_row st pe (filter (fun x => negb (equal st pe x)) polygons) acc) polygons (0%nat, []).
(** SR_polygon_group.py:645 *)
Fixpoint unmarked (st : bstate) (s : @hset nat) (k : nat) (polygons : list nat) : nat * list nat :=
  match polygons with
  | [] => (k, [])
  | x :: r => let '(k', l) := unmarked st s (S k) r in
              (k', if hset_mem (same st) (hash_at H k x) x s then l else x :: l)
  end.

(** Triangles and area of the polygons, by number. *)
Context (tris : nat -> list poly) (area_of : nat -> num).

(** list.remove *)
Fixpoint remove_first (st : bstate) (p : nat) (l : list nat) : list nat :=
  match l with [] => [] | x :: r => if same st x p then r else x :: remove_first st p r end.
(** SR_polygon_group.py:655-658: the list shrinks while it is being iterated over *)
Fixpoint sweep (st : bstate) (total : num) (n i : nat) (polygons : list nat) : list nat :=
  match n, nth_error polygons i with
  | S n', Some p =>
    sweep st total n' (S i)
      (if nabs (area_of p - total) <? EPS then remove_first st p polygons else polygons)
  | _, _ => polygons
  end.
(** SR_polygon_group.py:653-658 *)
Definition sweep_comb (st : bstate) (polygons comb : list nat) : res (list nat) :=
  as_ <- mapM triangle_area (flat_map tris comb) ;;
  Ok (sweep st (nsum as_) (length polygons) 0 polygons).
(** SR_polygon_group.py:649-658: at most as many rounds as there were polygons *)
Fixpoint sweeps (st : bstate) (fuel comblen : nat) (polygons : list nat) : res (list nat) :=
  match fuel with
  | O => Ok polygons
  | S f =>
    if Nat.ltb comblen (S (length polygons)) then
      l <- foldM (sweep_comb st) (combinations (S comblen) polygons) polygons ;;
      sweeps st f (S comblen) l
    else Ok polygons
  end.

(** SR_polygon_group.py:662-663 *)
Definition overlapping (polygons : list nat) : res (list (nat * nat)) :=
  filterM (fun '(a, b) => d <- poly_disjunct (fun _ _ => inside) (tris a ++ tris b) ;; Ok (negb d)) (combinations2 polygons).
(** SR_polygon_group.py:670: set(y).issubset(set(x)) *)
Definition subset (st : bstate) (k : nat) (y x : list nat) : nat * bool :=
  let '(k1, sy) := hset_of (same st) H k [] y in
  let '(k2, sx) := hset_of (same st) H k1 [] x in
  (k2, forallb (fun '(h, e) => hset_mem (same st) h e sx) sy).
Fixpoint any_subset (st : bstate) (k : nat) (ys : list (nat * nat)) (x : list nat) : nat * bool :=
  match ys with
  | [] => (k, false)
  | (a, b) :: r => let '(k', t) := subset st k [a; b] x in if t then (k', true) else any_subset st k' r x
  end.
(** SR_polygon_group.py:677-684: some two of the triangles are congruent or overlap *)
Definition clash (ts : list poly) : res bool :=
  existsM (fun '(t, u) => if congruent t u then Ok true else overlap (fun _ => inside) t u) (combinations2 ts).
(** SR_polygon_group.py:670-687, one combination *)
Definition comb_step (st : bstate) (ov : list (nat * nat)) (acc : nat * nat * @hset (list nat)) (comb : list nat)
  : res (nat * nat * @hset (list nat)) :=
  let '(k, kc, ret) := acc in
  let '(k', hit) := any_subset st k ov comb in
  if hit : bool then Ok (k', kc, ret) else
  c <- clash (flat_map tris comb) ;;
  Ok (if c : bool then (k', kc, ret) else (k', S kc, hset_add (same_comb st) (hash_at HC kc comb) comb ret)).
(** SR_polygon_group.py:665-687 *)
Definition candidates_of (st : bstate) (k : nat) (ov : list (nat * nat)) (polygons : list nat) : res (nat * nat * @hset (list nat)) :=
  foldM (comb_step st ov) (flat_map (fun n => combinations n polygons) (seq 1 (length polygons))) (k, 0%nat, []).

(** SR_polygon_group.py:691: a goes before b *)
Definition larger (a b : list nat) : bool :=
  if Nat.eqb (length a) (length b) then nsum (map area_of b) <? nsum (map area_of a)
  else Nat.ltb (length b) (length a).
(** SR_polygon_group.py:689-694 *)
Definition choose (kc : nat) (ret : @hset (list nat)) : res (list nat) :=
  get (sort_by larger (listed HC kc (map snd ret))) 0.

(** p.order(): SR_polygon.py:191-255; the value returned is ignored *)
Definition order_at (st : bstate) (p : nat) : res bstate :=
  ' (_, ids, h) <- horder (b_heap st) (nth p (b_ids st) []) ;;
  Ok (mkb h (upd p (fun _ => ids) (b_ids st))).
(** SR_polygon_group.py:695-697 *)
Definition copy_step (acc : bstate * list poly) (p : nat) : res (bstate * list poly) :=
  st' <- order_at (fst acc) p ;;
  c <- closed_copy (val st' p) ;;
  Ok (st', snd acc ++ [c]).

(** all(f(x) for x in l) *)
Definition allM {X} (f : X -> res bool) (l : list X) : res bool :=
  b <- existsM (fun x => r <- f x ;; Ok (negb r)) l ;; Ok (negb b).
(** [polygon in l] for a list of other objects *)
Definition listed_in (p : poly) (l : list poly) : bool := existsb (fun q => poly_eqb q p) l.

(** SR_polygon_group.py:713 *)
Definition left_out (st : bstate) (rret : list poly) (polygons : list nat) : res (list nat) :=
  filterM (fun x => if listed_in (val st x) rret then Ok false
                    else b <- existsM (fun y => poly_loose_equal (val st x) y false) rret ;; Ok (negb b)) polygons.
(** SR_polygon_group.py:732-746 *)
Definition add_step (st : bstate) (lo : nat) (rret : list poly) (acc : list nat) (oc : nat * nat) : res (list nat) :=
  let '(a, b) := oc in
  if negb (equal st lo a) then Ok acc else
  let new := negb (existsb (fun x => same st x a) acc) && negb (listed_in (val st a) rret) in
  i <- allM (inside (val st a)) (point_set (val st b)) ;;
  if (i && new)%bool then Ok (acc ++ [a]) else
  e <- allM (fun x => r <- inside (val st a) x ;; Ok (negb r)) (point_set (val st b)) ;;
  Ok (if (e && new)%bool then acc ++ [a] else acc).

(** SR_polygon_group.py:634-752, two or more polygons: the polygons returned *)
Definition keep_many (st : bstate) (polygons : list nat) : res (list poly) :=
  ' (k, s) <- mark st polygons ;;
  let '(k1, kept0) := unmarked st s k polygons in
  kept <- sweeps st (length kept0) 1 kept0 ;;
  ov <- overlapping kept ;;
  ' (_, kc, ret) <- candidates_of st k1 ov kept ;;
  best <- choose kc ret ;;
  ' (st1, rret) <- foldM copy_step best (st, []) ;;
  st2 <- foldM order_at kept st1 ;;
  if Nat.eqb (length kept) (length rret) then Ok rret else
  los <- left_out st2 rret kept ;;
  match los with
  | [lo] => add <- foldM (add_step st2 lo rret) (permutations2 kept) [] ;; Ok (rret ++ map (val st2) add)
  | _ => Err OtherException
  end.
End BasePolygons.
#[global] Arguments bstate A : clear implicits.

(** SR_polygon_group.py:612-752; None: no polygon given.  The heap and the polygons are the result of
    find_loops. *)
Definition keep_base_polygons {A : Arith} (H : hashing nat) (HC : hashing (list nat)) (lib : mesh_lib A)
  (inside : list (seg A) -> pt A -> res bool) (h : list (seg A)) (polygons : list (list nat)) : res (option (list (list (seg A)))) :=
  tris <- mapM (fun p => triangle_mesh lib (fun _ _ => inside) (value h p)) polygons ;;
  match polygons with
  | [] => Ok None
  | [p] => Ok (Some [value h p])
  | _ =>
    areas <- mapM (fun p => area lib (fun _ _ => inside) (fun _ _ => inside) (value h p)) polygons ;;
    r <- keep_many H HC inside (fun k => nth k tris []) (fun k => nth k areas n0) (mkb h polygons) (seq 0 (length polygons)) ;; Ok (Some r)
  end.

(** SR_polygon_group.py:367-375: the rooms are numbered; without any, len(None) fails *)
Definition base_cycles {A : Arith} (r : option (list (list (seg A)))) : res (list (nat * list (seg A))) :=
  match r with
  | None => Err TypeError
  | Some l => Ok (combine (seq 0 (length l)) l)
  end.
