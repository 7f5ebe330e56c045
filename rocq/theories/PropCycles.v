(** GENERATED by tools/gen_props.py from PCycles.v: the property theorems only. *)
From Coq Require Import ZArith Lia Bool List Permutation Arith.
From Verif Require Import Base Arith ArithR ArithF MPoint MLine MPoly MCycles SpecCycles.
Import ListNotations.
From Verif Require Import PCycles.

(** C48: every cycle is listed, each with the empty list, whatever the cycles and the hashes are. *)
Theorem C48_always_empty : forall (P : Type) (eqb : P -> P -> bool) (H : hashing P) (cycles : list (nat * list P)),
  disjunct_cycles eqb H cycles = map (fun c => (fst c, [])) cycles.
Proof. exact disjunct_empty. Qed.
Print Assumptions C48_always_empty.

(** C48, finding (binary64): two cycles without a common part are not reported. *)
Theorem C48_disjunct_refuted : forall (L : Libm) (H : hashing (list (seg (FA L)))),
  let s a b c d := LineSegment (Point_new (nofZ a) (nofZ b)) (Point_new (nofZ c) (nofZ d)) : seg (FA L) in
  let p := [s 0 0 4 0; s 4 0 4 4; s 4 4 0 0]%Z in
  let q := [s 10 0 14 0; s 14 0 14 4; s 14 4 10 0]%Z in
  segments_in_cycles [p; q] [(0, p); (1, q)]%nat = [(0, [p]); (1, [q])]%nat /\
  (forall x y, In x p -> In y q -> seg_eqb x y = false) /\
  disjunct_cycles poly_eqb H (segments_in_cycles [p; q] [(0, p); (1, q)]%nat) = [(0, []); (1, [])]%nat.
Proof. exact disjunct_missed. Qed.
Print Assumptions C48_disjunct_refuted.

(** C49: whatever the hashes: the keys are different pairs (a, b) of cycles with a < b, the values are not
    empty and contain only parts that the two cycles share. *)
Theorem C49_sound : forall (P : Type) (eqb : P -> P -> bool) (H : hashing P) (cycles : list (nat * list P)),
  lists_all H -> let r := overlaps_in_cycles eqb H cycles in
  NoDup (map fst r) /\
  forall a b v, In ((a, b), v) r -> a < b /\ v <> [] /\
    exists pa pb, In (a, pa) cycles /\ In (b, pb) cycles /\ forall x, In x v -> shared eqb pa pb x.
Proof. exact overlaps_sound. Qed.
Print Assumptions C49_sound.

(** C49: if hash is consistent and == identifies only identical parts, a pair of cycles is a key exactly if
    the two share a part, and then the value lists exactly the shared parts, each once. *)
Theorem C49_exact : forall (P : Type) (eqb : P -> P -> bool) (H : hashing P) (cycles : list (nat * list P)),
  lists_all H -> consistent H -> decides_eq eqb -> NoDup (map fst cycles) ->
  let r := overlaps_in_cycles eqb H cycles in
  forall a b pa pb, In (a, pa) cycles -> In (b, pb) cycles -> a < b ->
  ((exists v, In ((a, b), v) r) <-> exists x, In x pa /\ In x pb) /\
  forall v, In ((a, b), v) r -> NoDup v /\ forall x, In x v <-> In x pa /\ In x pb.
Proof. exact overlaps_exact. Qed.
Print Assumptions C49_exact.

(** C49: all_overlapping_segments lists the values one after the other. *)
Theorem C49_all : forall (P : Type) (eqb : P -> P -> bool) (H : hashing P) (cycles : list (nat * list P)) x,
  In x (all_overlapping_segments eqb H cycles) <-> exists key v, In (key, v) (overlaps_in_cycles eqb H cycles) /\ In x v.
Proof. exact all_overlapping_spec. Qed.
Print Assumptions C49_all.

(** C49, finding: hash() of a polygon line is the hash of a temporary object; if these differ from call to
    call, a part that two cycles share is not found. *)
Theorem C49_hash_refuted : forall (P : Type) (eqb : P -> P -> bool) (p q r : P),
  exists H : hashing P, lists_all H /\ overlaps_in_cycles eqb H [(0, [p; q]); (1, [p; r])] = [].
Proof. exact overlap_missed. Qed.
Print Assumptions C49_hash_refuted.

(** C49: the hypotheses hold, and a shared part is found, with parts that are numbers. *)
Example C49_example : let H := mkhashing (fun _ x => Z.of_nat x) (fun _ l => rev l) in
  let cycles := [(0, [7; 8; 9]); (1, [9; 5; 8]); (2, [6])] in
  lists_all H /\ consistent H /\ decides_eq Nat.eqb /\ NoDup (map fst cycles) /\
  overlaps_in_cycles Nat.eqb H cycles = [((0, 1), [8; 9])].
Proof. exact overlaps_example. Qed.
