(** Vocabulary for the statements about the relations between cycles. *)
From Coq Require Import ZArith Bool List Permutation.
From Verif Require Import Base MCycles.
Import ListNotations.

(** list(s) gives every element of the set once. *)
Definition lists_all {P} (H : hashing P) : Prop := forall k l, Permutation (listed H k l) l.
(** hash(x) does not change from call to call. *)
Definition consistent {P} (H : hashing P) : Prop := forall k k' x, hash_at H k x = hash_at H k' x.
(** == holds between identical parts only. *)
Definition decides_eq {P} (eqb : P -> P -> bool) : Prop := forall x y, eqb x y = true <-> x = y.
(** A part of both lists (for any notion of ==, which need not be symmetric). *)
Definition shared {P} (eqb : P -> P -> bool) (pa pb : list P) (x : P) : Prop :=
  (In x pa /\ exists y, In y pb /\ eqb y x = true) \/ (In x pb /\ exists y, In y pa /\ eqb y x = true).
