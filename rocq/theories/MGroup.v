(** Model of walk_segments (geometry/SR_polygon.py:1842-1880) and of the parts of
    geometry/SR_polygon_group.py that work on the segments of a vessel. *)
From Coq Require Import List Bool ZArith Arith.
From Verif Require Import Base Arith MPoint MLine MPoly.
Import ListNotations.

(** itertools.combinations(l, k), in its order. *)
Fixpoint combinations {X} (k : nat) (l : list X) : list (list X) :=
  match k, l with
  | O, _ => [[]]
  | S _, [] => []
  | S k', x :: xs => map (cons x) (combinations k' xs) ++ combinations k xs
  end.

Section Group.
Context {A : Arith}.
Local Open Scope num_scope.
Notation poly := (list (seg A)).

(** ** Side effects of order()

    SR_polygon.py:191-255: the segment objects after the call, at the positions they had before it
    ([order] in MPoly.v gives the list [_segments] refers to afterwards). *)
Definition order_objs (l : poly) : poly :=
  match l with
  | [] => []
  | akt :: _ =>
    match order_loop (2 * length l + 1) 0 (mko l 0 (sj akt) []) with
    | Ok (inr segs) => segs
    | Ok (inl o) => o_segs o
    | Err _ => l
    end
  end.

(** ** walk_segments

    The set [_not_visited] holds segment objects.  An object keeps the place in the set that the hash
    of its ends had when it was put there ([w_key]), also when order() reverses it later ([w_cur]). *)
Record welt := mkw { w_id : nat; w_key : seg A; w_cur : seg A }.

(** The order in which Python iterates over a set is not specified: an oracle gives the order for
    [_not_visited] and for [segs] in every round. *)
Record sched := mksched { it_nv : nat -> list welt -> list welt;
                          it_segs : nat -> list (seg A * bool) -> list (seg A * bool) }.

(** SR_line.py:62-63: hash(self.ij) *)
Definition same_hash (s t : seg A) : bool := pt_sameb (si s) (si t) && pt_sameb (sj s) (sj t).
(** set.add *)
Definition set_add (l : poly) (s : seg A) : poly := if memb seg_sameb s l then l else l ++ [s].
(** set(l): the first of equal objects stays *)
Fixpoint number {X} (k : nat) (l : list X) : list (nat * X) :=
  match l with [] => [] | x :: r => (k, x) :: number (S k) r end.
Definition nv_init (segments : poly) : list welt :=
  map (fun '(k, s) => mkw k s s) (number 0 (dedup seg_sameb segments)).

Inductive wres := Running | NoLoop | Loop (l : poly).

(** SR_polygon.py:1857-1863 *)
Definition candidates (akt : seg A) (aktpt : pt A) (l : list welt) : list welt :=
  match filter (fun x => pt_eqb aktpt (si (w_cur x)) && negb (seg_eqb (w_cur x) akt)) l with
  | [] => filter (fun x => (pt_eqb aktpt (si (w_cur x)) || pt_eqb aktpt (sj (w_cur x))) && negb (seg_eqb (w_cur x) akt)) l
  | c => c
  end.

(** SR_polygon.py:1869: discard looks at the stored hash and then compares with ==. *)
Definition discard (s : seg A) (l : list welt) : list welt :=
  filter (fun x => negb (same_hash (w_key x) s && seg_eqb (w_cur x) s)) l.

(** SR_polygon.py:1874-1875: [copy.deepcopy(_visited)] and, if it is not yet there, the object
    [_nextsegment] itself (marked). *)
Definition walk_segs (visited : poly) (nxt : seg A) : list (seg A * bool) :=
  map (fun s => (s, false)) visited ++ (if memb seg_sameb nxt visited then [] else [(nxt, true)]).

(** What order() made of [_nextsegment]. *)
Definition marked (l : list (seg A * bool)) (objs : poly) (dflt : seg A) : seg A :=
  match filter (fun '(_, (_, b)) => b) (combine objs l) with
  | (s, _) :: _ => s
  | [] => dflt
  end.

(** SR_polygon.py:1856-1880.  [fuel]: the number of rounds to look at; [Running] if it is not enough. *)
Fixpoint walk_loop (sch : sched) (fuel k : nat) (nv : list welt) (visited : poly)
    (akt : seg A) (aktpt : pt A) (branch : bool) : res wres :=
  match nv with
  | [] => Ok NoLoop
  | _ =>
    match fuel with
    | O => Ok Running
    | S f =>
      match candidates akt aktpt (it_nv sch k nv) with
      | [] => Ok NoLoop
      | nxt :: more =>
        let branch' := branch || negb (Nat.eqb (length more) 0) in
        let visited' := set_add visited akt in
        let nv' := discard akt nv in
        match filter (fun x => negb (pt_eqb x aktpt)) (ij (w_cur nxt)) with
        | [] => Err IndexError
        | aktpt' :: _ =>
          let ls := it_segs sch k (walk_segs visited' (w_cur nxt)) in
          ' (ok, poly) <- order (map fst ls) ;;
          closed <- (if ok then isclosed poly else Ok false) ;;
          if ok && closed && negb branch' then Ok (Loop poly)
          else
            let cur' := marked ls (order_objs (map fst ls)) (w_cur nxt) in
            walk_loop sch f (S k)
              (map (fun x => if Nat.eqb (w_id x) (w_id nxt) then mkw (w_id x) (w_key x) cur' else x) nv')
              visited' (w_cur nxt) aktpt' branch'
        end
      end
    end
  end.

(** SR_polygon.py:1848-1855; [it_nv sch 0] is the order of the comprehension in line 1853. *)
Definition walk_segments (sch : sched) (fuel : nat) (segments : poly) (startingpoint : option (pt A)) : res wres :=
  start <- (match startingpoint with Some p => Ok p | None => s <- get segments 0 ;; Ok (si s) end) ;;
  match filter (fun x => pt_eqb start (si (w_cur x))) (it_nv sch 0 (nv_init segments)) with
  | [] => Err IndexError
  | akt :: _ => walk_loop sch fuel 1 (nv_init segments) [w_cur akt] (w_cur akt) start false
  end.

(** ** find_loops

    Segment objects are named by their position in a heap; the polygons built from combinations of
    the segments of [graph] (SR_polygon_group.py:585-595) refer to these objects, and order()
    reverses them in place.  The polygons that walk_segments returns are made of copies, which are
    added to the heap. *)
Definition obj (h : poly) (k : nat) : poly := match nth_error h k with Some s => [s] | None => [] end.
Definition value (h : poly) (ids : list nat) : poly := flat_map (obj h) ids.
Fixpoint write (h : poly) (ids : list nat) (vals : poly) : poly :=
  match ids, vals with
  | k :: ks, s :: ss => write (upd k (fun _ => s) h) ks ss
  | _, _ => h
  end.

Fixpoint hrotate_to (fuel : nat) (h : poly) (first : seg A) (ids : list nat) : list nat :=
  match fuel, ids with
  | O, _ => ids
  | _, [] => ids
  | S f, x :: _ => if existsb (fun s => seg_eqb s first) (obj h x) then ids else hrotate_to f h first (rotate_right ids)
  end.

(** SR_polygon.py:191-255 on a list of segment objects: the value returned, the list [_segments] and
    the heap afterwards. *)
Definition horder (h : poly) (ids : list nat) : res (bool * list nat * poly) :=
  match value h ids with
  | [] => Err IndexError
  | akt :: _ =>
    r <- order_loop (2 * length (value h ids) + 1) 0 (mko (value h ids) 0 (sj akt) []) ;;
    match r with
    | inr segs => Ok (false, ids, write h ids segs)
    | inl o =>
      let h' := write h ids (o_segs o) in
      let ret := flat_map (fun k => match nth_error ids k with Some i => [i] | None => [] end) (o_ret o) in
      match sort_by order_key_ltb (value h' ret) with
      | [] => Err IndexError
      | first :: _ => Ok (true, hrotate_to (length ret) h' first ret, h')
      end
    end
  end.

Record lstate := mkl { l_heap : poly; l_graph : list nat; l_cycles : list (list nat) }.

(** [x in l] for segments: the same object or an equal one *)
Definition in_poly (h : poly) (x : nat) (s : seg A) (ids : list nat) : bool :=
  existsb (fun k => Nat.eqb k x || existsb (fun t => seg_eqb t s) (obj h k)) ids.
(** SR_polygon_group.py:569, 602-603: x in polygon.segments or x.line_reversed in polygon.segments
    (line_reversed is a new object). *)
Definition used_by (h : poly) (ids : list nat) (x : nat) : bool :=
  existsb (fun s => in_poly h x s ids || existsb (fun k => existsb (fun t => seg_eqb t (line_reversed s)) (obj h k)) ids) (obj h x).
(** [polygon in cycles] *)
Definition in_cycles (h : poly) (cycles : list (list nat)) (p : poly) : bool :=
  existsb (fun c => poly_eqb (value h c) p) cycles.

(** SR_polygon_group.py:566-570; None: more than [fuel] rounds *)
Fixpoint walk_rounds (schs : nat -> sched) (wfuel fuel : nat) (st : lstate) : res (option lstate) :=
  w <- walk_segments (schs fuel) wfuel (value (l_heap st) (l_graph st)) None ;;
  match w with
  | Running => Ok None
  | NoLoop => Ok (Some st)
  | Loop p =>
    if in_cycles (l_heap st) (l_cycles st) p then Ok (Some st)
    else
      let ids := seq (length (l_heap st)) (length p) in
      let h := l_heap st ++ p in
      let st' := mkl h (filter (fun x => negb (used_by h ids x)) (l_graph st)) (l_cycles st ++ [ids]) in
      match fuel with O => Ok None | S f => walk_rounds schs wfuel f st' end
  end.

(** SR_polygon_group.py:582-584: Counter of the end points (hashed), all of them 2 *)
Definition twice (p : poly) : bool :=
  let e := flat_map ij p in
  forallb (fun q => Nat.eqb (length (filter (pt_sameb q) e)) 2) e.
(** SR_polygon_group.py:598-600: end points of the polygon that do not occur exactly twice in graph *)
Definition branch_free (p graph : poly) : bool :=
  forallb (fun q => Nat.eqb (length (filter (fun e => pt_eqb e q) (flat_map ij graph))) 2) (flat_map ij p).

(** SR_polygon_group.py:578-605: one combination *)
Definition try_comb (st : lstate) (ids : list nat) : res lstate :=
  let h := l_heap st in
  if negb (twice (value h ids)) then Ok st
  else
    ' (ok, ids', h') <- horder h ids ;;
    let st1 := mkl h' (l_graph st) (l_cycles st) in
    if negb ok then Ok st1
    else
      v <- poly_isvalid (value h' ids') ;;
      c <- (if v then isclosed (value h' ids') else Ok false) ;;
      if v && c && negb (in_cycles h' (l_cycles st) (value h' ids')) then
        Ok (mkl h' (if branch_free (value h' ids') (value h' (l_graph st))
                    then filter (fun x => negb (used_by h' ids' x)) (l_graph st) else l_graph st)
                (l_cycles st ++ [ids']))
      else Ok st1.

(** SR_polygon_group.py:573-606: comblen <= len(graph) at most as often as graph was long *)
Fixpoint comb_rounds (fuel comblen : nat) (st : lstate) : res lstate :=
  match fuel with
  | O => Ok st
  | S f =>
    if Nat.leb comblen (length (l_graph st)) then
      st' <- foldM try_comb (combinations (S comblen) (l_graph st)) st ;;
      comb_rounds f (S comblen) st'
    else Ok st
  end.

(** SR_polygon_group.py:544-610.  [graph] is list(set(self.all_segments)): the different segments in
    any order.  The result: the polygons and the final state of the segment objects. *)
Definition find_loops (schs : nat -> sched) (wfuel fuel : nat) (graph : poly) : res (option (list (list nat) * poly)) :=
  w <- walk_rounds schs wfuel fuel (mkl graph (seq 0 (length graph)) []) ;;
  match w with
  | None => Ok None
  | Some st =>
    st' <- comb_rounds (length (l_graph st)) 1 st ;;
    Ok (Some (sort_by (fun a b => Nat.ltb (length a) (length b)) (l_cycles st'), l_heap st'))
  end.

(** ** isvalid of a group *)

(** SR_polygon_group.py:274-294 and 239-264 for the segments after purge(): the nodes with their
    neighbours (the numbering of the nodes does not matter for their number). *)
Definition adjacency (l : poly) : list (pt A * list (pt A)) := map (fun p => (p, neighbour l p)) (point_set l).
(** SR_polygon_group.py:170-172: the number of nodes with [n] neighbours *)
Definition nd (l : poly) (n : nat) : nat := length (filter (fun x => Nat.eqb (length (snd x)) n) (adjacency l)).
(** SR_polygon_group.py:174-190 *)
Definition degrees_ok (l : poly) : bool :=
  if Nat.ltb 0 (nd l 0) then false
  else if Nat.ltb 0 (nd l 1) then false
  else if Nat.ltb (nd l 2) 3 then false
  else if Nat.eqb (Nat.modulo (nd l 3) 2) 1 then false
  else if existsb (fun n => Nat.ltb 0 (nd l n)) (seq 4 6) then false
  else true.
(** SR_polygon_group.py:157-198; [l]: the segments of all polygons of the group after purge() *)
Definition group_isvalid (polygons : list poly) (l : poly) : res bool :=
  if degrees_ok l then vs <- mapM poly_isvalid polygons ;; Ok (forallb (fun b => b) vs)
  else Ok false.

End Group.
#[global] Arguments wres A : clear implicits.
#[global] Arguments welt A : clear implicits.
#[global] Arguments sched A : clear implicits.
#[global] Arguments lstate A : clear implicits.
