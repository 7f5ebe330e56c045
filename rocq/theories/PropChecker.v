(** GENERATED by tools/gen_props.py from PChecker.v: the property theorems only. *)
From Coq Require Import String Bool List Arith Permutation Lia.
From Verif Require Import Base Arith MPoint MLine MCycles MRaum SpecCycles SpecRaum PPoint PSplit.
Import ListNotations.
From Verif Require Import PChecker.

(** C52: with at most 26 rooms, the result is True exactly if one and only one renaming of the rooms makes the
    dict agree with the reference, in whatever order Python lists a set; otherwise an exception is raised. *)
Theorem C52_unique : forall (K N : Type) (keqb : K -> K -> bool) (neqb : N -> N -> bool) listed (d base : list (K * list (K * list N))),
  decides_eq keqb -> decides_eq neqb -> (forall l, Permutation (listed l) l) -> proper d -> proper base ->
  at_most 26 (room_of d) ->
  (raum_dict_checker keqb neqb listed d base = Ok true <->
   exists f, renaming (room_of d) f /\ matches f d base /\
     forall g, renaming (room_of d) g -> matches g d base -> forall r, room_of d r -> g r = f r) /\
  (raum_dict_checker keqb neqb listed d base = Ok true \/ raum_dict_checker keqb neqb listed d base = Err OtherException).
Proof. exact checker_unique. Qed.
Print Assumptions C52_unique.

(** C52: with more than 26 rooms a KeyError is raised, whatever the dicts are. *)
Theorem C52_many : forall (K N : Type) (keqb : K -> K -> bool) (neqb : N -> N -> bool) listed (d base : list (K * list (K * list N))),
  decides_eq neqb -> (forall l, Permutation (listed l) l) -> ~ at_most 26 (room_of d) ->
  raum_dict_checker keqb neqb listed d base = Err KeyError.
Proof. exact checker_many. Qed.
Print Assumptions C52_many.

(** C52: rooms of the reference that are not rooms of the dict have no effect. *)
Theorem C52_foreign : forall (K N : Type) (keqb : K -> K -> bool) (neqb : N -> N -> bool) listed (d base base' : list (K * list (K * list N))),
  decides_eq keqb -> decides_eq neqb -> (forall l, Permutation (listed l) l) -> proper d -> proper base -> proper base' ->
  at_most 26 (room_of d) ->
  (forall k, In k (map fst base) <-> In k (map fst base')) ->
  (forall k v w, In (k, v) base -> In (k, w) base' -> (forall kk, In kk (map fst v) <-> In kk (map fst w)) /\
     forall kk vv ww, In (kk, vv) v -> In (kk, ww) w -> forall x, room_of d x -> (In x vv <-> In x ww)) ->
  raum_dict_checker keqb neqb listed d base = raum_dict_checker keqb neqb listed d base'.
Proof. exact checker_foreign. Qed.
Print Assumptions C52_foreign.

(** C52, finding: a dict that equals the reference is rejected if the rooms can be exchanged. *)
Theorem C52_symmetric_refuted : let d := [("ma1", [("innenraum", ["R1"; "R2"])])]%string in
  raum_dict_checker String.eqb String.eqb (fun l => l) d d = Err OtherException.
Proof. exact checker_symmetric. Qed.
Print Assumptions C52_symmetric_refuted.

(** C52: a dict and a reference with the rooms exchanged and one room more *)
Example C52_example :
  let d := [("ma1", [("innenraum", ["R1"]); ("aussenraum", ["R2"])]); ("bo1", [("innenraum", []); ("aussenraum", ["R1"])])]%string in
  let base := [("bo1", [("aussenraum", ["R2"]); ("innenraum", ["R9"])]); ("ma1", [("innenraum", ["R2"]); ("aussenraum", ["R1"])])]%string in
  decides_eq String.eqb /\ (forall l : list string, Permutation (rev l) l) /\ proper d /\ proper base /\ at_most 26 (room_of d) /\
  raum_dict_checker String.eqb String.eqb (@rev string) d base = Ok true /\
  raum_dict_checker String.eqb String.eqb (@rev string) base d = Err OtherException.
Proof. exact checker_example. Qed.
