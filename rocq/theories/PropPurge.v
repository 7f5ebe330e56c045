(** GENERATED by tools/gen_props.py from PPurge.v: the property theorems only. *)
From Coq Require Import Reals ZArith Lra Lia Bool List Permutation Arith.
From Verif Require Import Base Arith ArithR MPoint MLine MPoly MHeap Spec SpecHeap SpecPurge PPoint PLine PTrig PShape PConvex PTri POrder PPoly PHeap.
Import ListNotations.
#[local] Existing Instance RA.
From Verif Require Import PPurge.

(** C27: if the end points form clusters and at least two of them coincide exactly, purge keeps number, order and
    class of the segments, moves each end to one Point object of its cluster, one and the same for the whole cluster. *)
Theorem C27_clusters : forall (h : heap RA) (l : list hseg), clustered h l -> some_coincide h l ->
  let P' := purge h (mkhp l false) in
  Forall2 (fun s s' => hc s' = hc s /\ close (h (hi s')) (h (hi s)) /\ close (h (hj s')) (h (hj s))) l (hsegs P') /\
  incl (objects (hsegs P')) (objects l) /\ hpurged P' = true /\
  (forall a b, In a (objects (hsegs P')) -> In b (objects (hsegs P')) -> close (h a) (h b) -> a = b).
Proof. exact purge_clusters. Qed.
Print Assumptions C27_clusters.

(** C27: without two exactly coincident end points purge changes nothing but the flag. *)
Theorem C27_skipped : forall (h : heap RA) (l : list hseg), ~ some_coincide h l -> purge h (mkhp l false) = mkhp l true.
Proof. exact purge_skipped. Qed.
Print Assumptions C27_skipped.
