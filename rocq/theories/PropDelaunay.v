(** GENERATED by tools/gen_props.py from PDelaunay.v: the property theorems only. *)
From Coq Require Import Reals ZArith Lra Lia Bool List Psatz Permutation.
From Verif Require Import Base Arith ArithR MPoint MLine MPoly MDelaunay Spec SpecDelaunay PPoint PLine PTrig.
Import ListNotations.
From Verif Require Import PDelaunay.

(** C45: the key of two different indices is the pair of them in ascending order; it does not depend on
    their order. *)
Theorem C45_makeKey : forall i j : nat,
  makeKey i j = makeKey j i /\ (fst (makeKey i j) <= snd (makeKey i j))%nat /\
  ((fst (makeKey i j) = i /\ snd (makeKey i j) = j) \/ (fst (makeKey i j) = j /\ snd (makeKey i j) = i)).
Proof. exact makeKey_spec. Qed.
Print Assumptions C45_makeKey.

(** C45: a flip of the edge (a, b) needs an edge with two triangles; they have a, b and one other vertex
    each, o1 and o2.  If the edge is not flipped nothing changes.  Otherwise these two triangles, and no
    others, are replaced by (o1, a, o2) and (o1, o2, b), and the edges to look at again are the four
    sides of the quadrilateral. *)
Theorem C45_flip_replaces : forall (A : Arith) (st st' : dst A) a b r, consistent st ->
  flipOneEdge st (a, b) = Ok (st', r) ->
  (st' = st /\ r = []) \/
  exists k1 k2 o1 o2,
    k1 <> k2 /\ In ((a, b), [k1; k2]) (de2t st) /\ o1 <> a /\ o1 <> b /\ o2 <> a /\ o2 <> b /\
    (forall v, has st k1 v <-> v = a \/ v = b \/ v = o1) /\ (forall v, has st k2 v <-> v = a \/ v = b \/ v = o2) /\
    dpts st' = dpts st /\ dbnd st' = dbnd st /\ length (dtris st') = length (dtris st) /\
    nth_error (dtris st') k1 = Some (o1, a, o2) /\ nth_error (dtris st') k2 = Some (o1, o2, b) /\
    (forall k, k <> k1 -> k <> k2 -> nth_error (dtris st') k = nth_error (dtris st) k) /\
    (forall x y, (x < y)%nat -> (In (x, y) r <-> ((x = o1 \/ x = o2) /\ (y = a \/ y = b)) \/ ((y = o1 \/ y = o2) /\ (x = a \/ x = b)))).
Proof. exact flip_replaces. Qed.
Print Assumptions C45_flip_replaces.

(** C45: a flip keeps the triangulation consistent: provided the two opposite vertices are different and
    not yet joined by an edge, the dict lists for every edge exactly the triangles which have it, also
    after the flip, and the flipped edge has been replaced by the other diagonal. *)
Theorem C45_flip_consistent : forall (A : Arith) (st st' : dst A) a b r, consistent st ->
  flipOneEdge st (a, b) = Ok (st', r) ->
  (forall k1 k2 v w, k1 <> k2 -> has st k1 a -> has st k1 b -> has st k1 v -> has st k2 a -> has st k2 b -> has st k2 w ->
     v <> a -> v <> b -> w <> a -> w <> b -> v <> w /\ forall k, ~ (has st k v /\ has st k w)) ->
  consistent st' /\
  (r <> [] -> (forall ts, ~ In ((a, b), ts) (de2t st')) /\
     exists k1 k2 o1 o2, (o1 <> o2 /\ has st k1 o1 /\ has st k2 o2 /\ In ((a, b), [k1; k2]) (de2t st)) /\
       In ((Nat.min o1 o2, Nat.max o1 o2), [k1; k2]) (de2t st')).
Proof. exact flip_consistent. Qed.
Print Assumptions C45_flip_consistent.

(** C45: in a consistent triangulation flipping an edge never fails, unless more than two triangles
    share the edge (ValueError). *)
Theorem C45_flip_total : forall (A : Arith) (st : dst A) a b, consistent st ->
  ((forall ts, In ((a, b), ts) (de2t st) -> (length ts <= 2)%nat) -> exists st' r, flipOneEdge st (a, b) = Ok (st', r)) /\
  (forall ts, In ((a, b), ts) (de2t st) -> (2 < length ts)%nat -> flipOneEdge st (a, b) = Err ValueError).
Proof. exact flip_total. Qed.
Print Assumptions C45_flip_total.
