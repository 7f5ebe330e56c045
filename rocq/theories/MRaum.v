(** Model of the rooms of a vessel (SR_Vessel/SR_hauptteile.py): raum_dict_checker, Raum,
    Behalter.raum_erstellen, Behalter.raum_intex and the from_dict constructors. *)
From Coq Require Import String DecimalString ZArith Bool List Arith.
From Verif Require Import Base Arith MPoint MLine MPoly MCycles.
Import ListNotations.
Local Open Scope list_scope.

(** d[k] for a dict given as the list of its items *)
Fixpoint lookup {K V} (eqb : K -> K -> bool) (k : K) (d : list (K * V)) : res V :=
  match d with
  | [] => Err KeyError
  | (k', v) :: r => if eqb k' k then Ok v else lookup eqb k r
  end.

(** ** raum_dict_checker *)
Section Checker.
(** [K]: part names and categories; [N]: room names.  A set is a list; only membership is used. *)
Context {K N : Type} (keqb : K -> K -> bool) (neqb : N -> N -> bool).

(** {part: {category: set of rooms}} *)
Definition rdict (X : Type) := list (K * list (K * list X)).

(** SR_hauptteile.py:32-39: the rooms in each set are replaced by their letters; [p] as a dict. Letters are
    numbers here. *)
Definition convert (rs : list N) (p : list (N * nat)) (d : rdict N) : res (rdict nat) :=
  mapM (fun '(k, v) => v' <- mapM (fun '(kk, vv) =>
          s <- mapM (fun r => lookup neqb r p) (filter (fun x => memb neqb x vv) rs) ;; Ok (kk, s)) v ;;
        Ok (k, v')) d.

(** itertools.permutations(l, n) *)
Fixpoint picks {X} (l : list X) : list (X * list X) :=
  match l with
  | [] => []
  | x :: r => (x, r) :: map (fun '(y, s) => (y, x :: s)) (picks r)
  end.
Fixpoint perms {X} (n : nat) (l : list X) : list (list X) :=
  match n with
  | O => [[]]
  | S m => flat_map (fun '(x, r) => map (cons x) (perms m r)) (picks l)
  end.

(** == of two dicts with [veqb] on the values: same size, and every key of the first is in the second with
    an equal value *)
Definition dict_eqb {V} (veqb : V -> V -> bool) (a b : list (K * V)) : bool :=
  Nat.eqb (List.length a) (List.length b) &&
  forallb (fun '(k, v) => match lookup keqb k b with Ok w => veqb v w | Err _ => false end) a.
Definition rdict_eqb : rdict nat -> rdict nat -> bool := dict_eqb (dict_eqb (set_eqb Nat.eqb)).

(** SR_hauptteile.py:24-117.  [listed]: list(set(...)), 49; Python may list the elements of a set in any
    order. 97 is 'a'.  The prints and the second check, which cannot fail, are left out. *)
Definition raum_dict_checker (listed : list N -> list N) (d base : rdict N) : res bool :=
  let raums := listed (dedup neqb (concat (map snd (concat (map snd d))))) in
  let iv := List.seq 97 (Nat.min 123 (97 + List.length raums) - 97) in
  let repl := map (fun x => combine x iv) (perms (List.length iv) raums) in
  first <- get repl 0 ;;
  b <- convert raums first base ;;
  found <- mapM (fun p => a <- convert raums p d ;; Ok (rdict_eqb a b)) repl ;;
  if Nat.eqb (List.length (filter (fun x => x) found)) 1 then Ok true else Err OtherException.
End Checker.

(** ** Raum and Behalter.raum_erstellen *)
(** SR_hauptteile.py:168: 'R%d' % n *)
Definition raum_name (n : nat) : string := String.append "R" (NilEmpty.string_of_uint (Nat.to_uint n)).

Section Rooms.
(** The parts (the graphs of the parts) and their == *)
Context {P : Type} (eqb : P -> P -> bool).
(** segments_in_cycles of the graph of the vessel (its keys are the keys of Behalter.cycles,
    SR_polygon_group.py:83-97) and contained_cycles; [Hs n]: the hashes during the n-th computation of
    overlaps_in_cycles (a property, computed for every access) *)
Context (sic : list (nat * list P)) (contained : list (nat * list nat)) (Hs : nat -> hashing P).

Record raum := mkraum { r_name : string; r_cycle : nat; r_iw : list (list P);
                        r_aussen : list (list P); r_innen : list (list P) }.

(** [[x for x in xs if x not in self.all_overlapping_segments]], the property computed for every x *)
Fixpoint unshared (n : nat) (xs : list P) : nat * list P :=
  match xs with
  | [] => (n, [])
  | x :: r => let hidden := memb eqb x (all_overlapping_segments eqb (Hs n) sic) in
    let '(n', l) := unshared (S n) r in (n', if hidden then l else x :: l)
  end.
(** the loop [for s in k] *)
Definition pair_walls (n : nat) (k : nat * nat) : res (nat * list P) :=
  a <- lookup Nat.eqb (fst k) sic ;; let '(n1, la) := unshared n a in
  b <- lookup Nat.eqb (snd k) sic ;; let '(n2, lb) := unshared n1 b in
  Ok (n2, la ++ lb).

(** any([x in _v for x in k]) *)
Definition sharing (k v : nat * nat) : bool :=
  (Nat.eqb (fst v) (fst k) || Nat.eqb (snd v) (fst k)) || (Nat.eqb (fst v) (snd k) || Nat.eqb (snd v) (snd k)).
Definition extend_at (i : nat) (l : list P) (iw : list (list P)) : list (list P) :=
  match skipn i iw with [] => iw | y :: r => firstn i iw ++ (y ++ l) :: r end.

(** SR_hauptteile.py:297-304 *)
Fixpoint later_runs (n : nat) (k : nat * nat) (i : nat) (visited : list (nat * nat)) (iw : list (list P)) : res (nat * list (list P)) :=
  match visited with
  | [] => Ok (n, iw)
  | v :: r =>
    if sharing k v
    then get iw i ;;; ' (n', l) <- pair_walls n k ;; later_runs n' k (S i) r (extend_at i l iw)
    else ' (n', l) <- pair_walls n k ;; later_runs n' k (S i) r (iw ++ [l])
  end.
(** SR_hauptteile.py:289-307; the state: number of computations, _iw, _visited, _cycles_to_check *)
Definition visit (st : nat * list (list P) * list (nat * nat) * list nat) (k : nat * nat) : res (nat * list (list P) * list (nat * nat) * list nat) :=
  let '(n, iw, visited, todo) := st in
  ' (n, iw) <- match visited with
               | [] => ' (n', l) <- pair_walls n k ;; Ok (n', iw ++ [l])
               | _ => Ok (n, iw)
               end ;;
  ' (n, iw) <- later_runs n k 0 visited iw ;;
  Ok (n, iw, visited ++ [k], filter (fun x => negb (Nat.eqb (fst k) x || Nat.eqb (snd k) x)) todo).

(** SR_hauptteile.py:253-326: the room of cycle [c] *)
Definition make_raum (n no c : nat) : res (nat * raum) :=
  let aussen := map snd (filter (fun i => Nat.eqb (fst i) c) sic) in
  cc <- lookup Nat.eqb c contained ;;
  match cc with
  | [] => Ok (n, mkraum (raum_name no) c [] aussen [])
  | _ =>
    let keys := map fst (overlaps_in_cycles eqb (Hs n) sic) in
    ' (n, iw, _, todo) <- foldM visit keys (S n, [], [], cc) ;;
    rest <- mapM (fun x => lookup Nat.eqb x sic) todo ;;
    Ok (n, mkraum (raum_name no) c iw aussen (iw ++ rest))
  end.

(** SR_hauptteile.py:232-326: the rooms after the call; [raume]: the rooms before it *)
Definition raum_erstellen (raume : list raum) : res (list raum) :=
  match raume with
  | _ :: _ => Ok raume
  | [] => ' (_, rs) <- foldM (fun '(n, rs) c => ' (n', r) <- make_raum n (S (List.length rs)) c ;; Ok (n', rs ++ [r]))
                             (map fst sic) (0, []) ;; Ok rs
  end.
End Rooms.

(** ** Behalter.raum_intex *)
Section Intex.
Context {A : Arith}.
(** SR_polygon.py: IntexPoint *)
Record intex_point := mkip { ip_pt : pt A; ip_segment : seg A }.
(** a part, with what raum_intex uses of its graph *)
Record part := mkpart { p_name : string; p_segments : list (seg A);
                        p_internal : list intex_point; p_external : list intex_point; p_indifferent : list intex_point }.
(** a room: its name and the parts of its inner and outer wall *)
Record iroom := mkiroom { ir_name : string; ir_innen : list part; ir_aussen : list part }.
(** The answer of raum_graph.is_internal_point(p) for the simplified graph of a room. It uses random rays, so
    it may depend on the number of the call.  [prepare]: simplify and triangulate, which may raise. *)
Context (prepare : iroom -> res unit) (inside : nat -> iroom -> pt A -> res bool).

(** all(... for P in ...): stops at the first False *)
Fixpoint all_inside (n : nat) (r : iroom) (ps : list intex_point) : res (nat * bool) :=
  match ps with
  | [] => Ok (n, true)
  | p :: ps' => b <- inside n r (ip_pt p) ;; if b then all_inside (S n) r ps' else Ok (S n, false)
  end.
(** SR_hauptteile.py:394-399, 408-413, 421-426: for every segment of the part, the test of the points of this segment; is [want] obtained? *)
Fixpoint some_segment (want : bool) (n : nat) (r : iroom) (ps : list intex_point) (ss : list (seg A)) : res (nat * bool) :=
  match ss with
  | [] => Ok (n, false)
  | s :: ss' => ' (n, b) <- all_inside n r (filter (fun x => seg_eqb (ip_segment x) s) ps) ;;
    ' (n, c) <- some_segment want n r ps ss' ;; Ok (n, Bool.eqb b want || c)
  end.
Definition category (want : bool) (n : nat) (r : iroom) (ps : list intex_point) (ss : list (seg A)) : res (nat * bool) :=
  match ps with [] => Ok (n, false) | _ => some_segment want n r ps ss end.

(** {'innenraum': .., 'aussenraum': .., 'indifferent': ..} *)
Record intex := mkintex { innenraum : list string; aussenraum : list string; indifferent : list string }.
Definition sadd (b : bool) (x : string) (s : list string) : list string := if b && negb (memb String.eqb x s) then s ++ [x] else s.
Definition table := list (string * intex).
(** SR_hauptteile.py:383-426 *)
Definition probe (r : iroom) (st : nat * table) (ht : part) : res (nat * table) :=
  let '(n, t) := st in
  ' (n, i) <- category true n r (p_internal ht) (p_segments ht) ;;
  ' (n, e) <- category true n r (p_external ht) (p_segments ht) ;;
  ' (n, d) <- category false n r (p_indifferent ht) (p_segments ht) ;;
  (if i || e || d then lookup String.eqb (p_name ht) t ;;; Ok tt else Ok tt) ;;;
  Ok (n, map (fun '(k, x) => if String.eqb k (p_name ht)
                             then (k, mkintex (sadd i (ir_name r) (innenraum x)) (sadd e (ir_name r) (aussenraum x))
                                              (sadd d (ir_name r) (indifferent x)))
                             else (k, x)) t).
(** SR_hauptteile.py:356-429.  [names]: the names of the parts of the vessel.  deepcopy and the making of the rooms,
    if there are none yet, are left out. The filter of 383 keeps every part. *)
Definition raum_intex (names : list string) (rooms : list iroom) : res table :=
  ' (_, t) <- foldM (fun '(n, t) r => prepare r ;;; foldM (probe r) (ir_innen r ++ ir_aussen r) (n, t)) rooms
                (0, map (fun k => (k, mkintex [] [] [])) (dedup String.eqb names)) ;;
  Ok t.
End Intex.
#[global] Arguments intex_point A : clear implicits.
#[global] Arguments part A : clear implicits.
#[global] Arguments iroom A : clear implicits.

(** ** from_dict *)
Section FromDict.
Context {V : Type}.
Inductive pclass := CMantel | CStandZarge | CKlopperboden | CKorbbogenboden | CFlachboden | CRohrboden | CKegelKrempe | CRaumEnde.
(** an object: its class and its data attributes *)
Record object := mkobject { o_class : pclass; o_attrs : list (string * V) }.
(** The rest of the constructor (the geometry and the graph), which may raise; sorted(hts, ..), 1017;
    hasattr(o, x) for a name x that is not among the attributes the constructor sets (a method, a property,
    an attribute of a base class): a property may raise. *)
Context (build : pclass -> list (string * V) -> res unit) (sorted_hts : V -> res V)
        (has_other : object -> string -> res bool).

(** SR_hauptteile.py:616-626, 731-742, 852-853, 874-875, 896-905, 1006-1024, 1297-1299, 1309-1318: the constructor
    called with keyword arguments.  Rohrboden, 965-967: super(Rohrboden).__init__(name=...) is a TypeError. *)
Definition construct (c : pclass) (kw : list (string * V)) : res object :=
  match c with
  | CRohrboden => Err TypeError
  | CKegelKrempe =>
    kw' <- mapM (fun '(k, v) => if String.eqb k "hts" then v' <- sorted_hts v ;; Ok (k, v') else Ok (k, v)) kw ;;
    build c kw' ;;; Ok (mkobject c kw')
  | _ => build c kw ;;; Ok (mkobject c kw)
  end.
Definition hasattr (o : object) (x : string) : res bool :=
  if memb String.eqb x (map fst (o_attrs o)) then Ok true else has_other o x.

(** the keys that the from_dict of a class reads, in the order it reads them *)
Definition keys_of (c : pclass) : list string :=
  match c with
  | CMantel | CStandZarge => ["name"; "pos_v"; "pos_h"; "d"; "h"]
  | CKlopperboden | CKorbbogenboden => ["name"; "pos_v"; "pos_h"; "d"; "h1"; "orient"]
  | CFlachboden | CRohrboden | CRaumEnde => ["name"; "pos_v"; "pos_h"; "d"]
  | CKegelKrempe => ["name"; "h_oben"; "h_unten"; "r"; "hts"; "kegel"]
  end%string.
(** the class that cls.from_dict constructs: StandZarge inherits Mantel.from_dict, which calls Mantel(...) *)
Definition made (c : pclass) : pclass := match c with CStandZarge => CMantel | _ => c end.

(** SR_hauptteile.py:628-642, 855-870, 877-892, 907-919, 969-982, 1066-1075, 1320-1333 *)
Definition from_dict (c : pclass) (d : list (string * V)) : res object :=
  match kw <- mapM (fun k => v <- lookup String.eqb k d ;; Ok (k, v)) (keys_of c) ;;
        o <- construct (made c) kw ;;
        bs <- mapM (fun i => hasattr o (fst i)) d ;;
        assert_ (forallb (fun b => b) bs) ;;; Ok o with
  | Err KeyError => Err OtherException
  | r => r
  end.
End FromDict.
#[global] Arguments object V : clear implicits.
