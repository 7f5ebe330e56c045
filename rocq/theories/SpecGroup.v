(** Vocabulary for the statements about walk_segments, find_loops and groups of polygons. *)
From Coq Require Import Reals ZArith Bool List Permutation Arith Sorted.
From Verif Require Import Base Arith ArithR MPoint MLine MPoly MGroup Spec.
Import ListNotations.

(** Python may iterate over a set in any order, but visits every element once. *)
Definition fair {A : Arith} (sch : sched A) : Prop :=
  (forall k l, Permutation (it_nv sch k l) l) /\ (forall k l, Permutation (it_segs sch k l) l).

(** s is the segment s', possibly with exchanged end points. *)
Definition turned {A : Arith} (s s' : seg A) : Prop := s = s' \/ s = mkseg (sc s') (sj s') (si s').

(** Every segment of r is one of the given ones, possibly with exchanged end points. *)
Definition made_of {A : Arith} (r given : list (seg A)) : Prop :=
  forall s, In s r -> exists s', In s' given /\ turned s s'.

(** The segments are the edges of the cycle through vs, all running the same way round, in any order. *)
Definition directed_cycle (vs : list (pt RA)) (l : list (seg RA)) : Prop :=
  exists cyc, Permutation l cyc /\ map (fun s => (si s, sj s)) cyc = cycle_edges vs.

(** The number of segments with an end at p. *)
Definition pt_dec (p q : pt RA) : {p = q} + {p <> q}.
Proof.
  destruct p as [a b], q as [c d].
  destruct (Req_EM_T a c) as [->|N]; [destruct (Req_EM_T b d) as [->|N]|]; [left; reflexivity|right; congruence|right; congruence].
Defined.
Definition incident (l : list (seg RA)) (p : pt RA) : nat :=
  length (filter (fun s => if pt_dec (si s) p then true else if pt_dec (sj s) p then true else false) l).

(** vs lists the end points of the segments, each once. *)
Definition nodes (l : list (seg RA)) (vs : list (pt RA)) : Prop :=
  NoDup vs /\ forall p, In p vs <-> In p (flat_map ij l).
(** The number of points of vs where n segments meet. *)
Definition of_degree (l : list (seg RA)) (vs : list (pt RA)) (n : nat) : nat :=
  length (filter (fun p => Nat.eqb (incident l p) n) vs).
