(** Specification vocabulary for the triangulation: the dict from edges to triangles lists, for every
    edge, exactly the triangles that have this edge. *)
From Coq Require Import Reals List Arith.
From Verif Require Import Base Arith ArithR MPoint MDelaunay Spec.
Import ListNotations.

Section S.
Context {A : Arith}.

(** The triangle number k of the triangulation has the vertex v. *)
Definition has (st : dst A) (k v : nat) : Prop :=
  exists t, nth_error (dtris st) k = Some t /\ In v (tri_list t).

Record consistent (st : dst A) : Prop := {
  (* triangles have three different vertices, which are indices of points *)
  cs_tri : forall k t, nth_error (dtris st) k = Some t ->
             NoDup (tri_list t) /\ forall v, In v (tri_list t) -> v < length (dpts st);
  (* the dict has no key twice; a key (a, b) has a < b and at least one triangle, each listed once *)
  cs_keys : NoDup (map fst (de2t st));
  cs_val : forall a b ts, In ((a, b), ts) (de2t st) -> a < b /\ ts <> [] /\ NoDup ts;
  (* the triangles listed for (a, b) are exactly those with the vertices a and b *)
  cs_edge : forall a b ts, In ((a, b), ts) (de2t st) ->
             forall k, In k ts <-> has st k a /\ has st k b;
  (* and every edge of every triangle is a key *)
  cs_all : forall k a b, a < b -> has st k a -> has st k b -> exists ts, In ((a, b), ts) (de2t st) }.
End S.

(** al is the angle at o between the points p and q. *)
Definition dot (o p q : pt RA) : R :=
  ((px p - px o) * (px q - px o) + (py p - py o) * (py q - py o))%R.
Definition angle_at (o p q : pt RA) (al : R) : Prop :=
  (0 <= al <= PI /\ dist o p * dist o q * cos al = dot o p q)%R.
