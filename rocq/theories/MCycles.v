(** Model of the relations between the cycles of a vessel graph (geometry/SR_polygon_group.py). *)
From Coq Require Import ZArith Bool List Arith.
From Verif Require Import Base Arith MPoint MLine MPoly.
Import ListNotations.

(** SR_polygon_group.py:513-542: the parts (the polygons of the graph) that belong to each cycle *)
Definition segments_in_cycles {A : Arith} (polygons : list (list (seg A))) (cycles : list (nat * list (seg A))) : list (nat * list (list (seg A))) :=
  map (fun '(k, v) => (k, filter (fun x => loose_subset v x || existsb (fun y => memb seg_eqb y x) v) polygons)) cycles.

Section Cycles.
(** The parts and their == .  hash() of a part is SR_polygon.py:94-95: the hash of a generator object that
    is created for the call, so it depends on the call: [hash_at k x] is the result of call number k.  Python
    may list the elements of a set in any order: [listed]. *)
Context {P : Type} (eqb : P -> P -> bool).
Record hashing := mkhashing { hash_at : nat -> P -> Z; listed : nat -> list P -> list P }.
Context (H : hashing).

(** A set: the elements with the hashes they were stored with.  An element is found if the hashes and then
    the elements are equal. *)
Definition hset := list (Z * P).
Definition hset_mem (h : Z) (x : P) (s : hset) : bool := existsb (fun '(h', y) => Z.eqb h h' && eqb y x) s.
Definition hset_add (h : Z) (x : P) (s : hset) : hset := if hset_mem h x s then s else s ++ [(h, x)].
(** set(xs); [k]: number of calls of hash() so far *)
Fixpoint hset_of (k : nat) (s : hset) (xs : list P) : nat * hset :=
  match xs with
  | [] => (k, s)
  | x :: r => hset_of (S k) (hset_add (hash_at H k x) x s) r
  end.
(** set.intersection(xs) for a list: the elements of xs that are in the set *)
Fixpoint hset_inter (k : nat) (s acc : hset) (xs : list P) : nat * hset :=
  match xs with
  | [] => (k, acc)
  | x :: r => let h := hash_at H k x in
    hset_inter (S k) s (if hset_mem h x s then hset_add h x acc else acc) r
  end.
Definition common (k : nat) (a b : list P) : nat * list P :=
  let '(k1, s) := hset_of k [] a in
  let '(k2, i) := hset_inter k1 s [] b in (k2, listed H k2 (map snd i)).

Definition others (cycles : list (nat * list P)) (e : nat) : list (nat * list P) :=
  filter (fun z => negb (Nat.eqb (fst z) e)) cycles.

(** SR_polygon_group.py:377-400: the test is [len(set()) > 0], not [len(_intr) > 0] *)
Fixpoint disjunct_row (k : nat) (pe : list P) (zs : list (nat * list P)) (acc : list (list P)) : nat * list (list P) :=
  match zs with
  | [] => (k, acc)
  | z :: r => let '(k', intr) := common k pe (snd z) in
    disjunct_row k' pe r (if Nat.ltb 0 (length (@nil P)) then acc ++ [intr] else acc)
  end.
Fixpoint disjunct_rows (k : nat) (cycles es : list (nat * list P)) : list (nat * list (list P)) :=
  match es with
  | [] => []
  | (e, pe) :: r => let '(k', row) := disjunct_row k pe (others cycles e) [] in (e, row) :: disjunct_rows k' cycles r
  end.
Definition disjunct_cycles (cycles : list (nat * list P)) := disjunct_rows 0 cycles cycles.

(** SR_polygon_group.py:481-503; a dict as the list of its items *)
Definition pair_eqb (a b : nat * nat) : bool := Nat.eqb (fst a) (fst b) && Nat.eqb (snd a) (snd b).
Definition dict := list ((nat * nat) * list P).
Definition has_key (key : nat * nat) (d : dict) : bool := existsb (fun i => pair_eqb (fst i) key) d.
Definition dict_set (key : nat * nat) (v : list P) (d : dict) : dict :=
  if has_key key d then map (fun i => if pair_eqb (fst i) key then (fst i, v) else i) d else d ++ [(key, v)].
Fixpoint overlap_row (k e : nat) (pe : list P) (zs : list (nat * list P)) (d : dict) : nat * dict :=
  match zs with
  | [] => (k, d)
  | (z, pz) :: r => let '(k', intr) := common k pe pz in
    overlap_row k' e pe r
      (if negb (match intr with [] => true | _ => false end) && negb (has_key (z, e) d)
       then dict_set (if Nat.ltb e z then (e, z) else (z, e)) intr d else d)
  end.
Fixpoint overlap_rows (k : nat) (cycles es : list (nat * list P)) (d : dict) : dict :=
  match es with
  | [] => d
  | (e, pe) :: r => let '(k', d') := overlap_row k e pe (others cycles e) d in overlap_rows k' cycles r d'
  end.
Definition overlaps_in_cycles (cycles : list (nat * list P)) : dict := overlap_rows 0 cycles cycles [].

(** SR_polygon_group.py:505-511 *)
Definition all_overlapping_segments (cycles : list (nat * list P)) : list P := concat (map snd (overlaps_in_cycles cycles)).
End Cycles.
#[global] Arguments hashing P : clear implicits.
