(** GENERATED by tools/gen_props.py from PDelAdd.v: the property theorems only. *)
From Coq Require Import Reals ZArith Lra Lia Bool List Psatz Permutation.
From Verif Require Import Base Arith ArithR MPoint MLine MPoly MDelaunay Spec SpecDelaunay PPoint PLine PTrig PDelaunay PDelGeo.
Import ListNotations.
From Verif Require Import PDelAdd.

(** C45: adding the point number ip to a consistent triangulation, each of whose boundary edges belongs to
    a triangle and does not contain ip: it succeeds; for every boundary edge visible from the point, and
    no other, one triangle of this edge and the point is appended; the triangulation is consistent again;
    the new boundary edges are the invisible old ones and those new edges that have one triangle only; no
    visible edge gets two triangles and no boundary edge is listed twice, if none was. *)
Theorem C45_insert : forall (A : Arith) (st : dst A) ip, consistent st -> (ip < length (dpts st))%nat ->
  (forall a b, In (a, b) (dbnd st) -> a <> b /\ a <> ip /\ b <> ip /\ exists k, has st k a /\ has st k b) ->
  let vis e := In e (dbnd st) /\ isEdgeVisible (dpts st) ip e = Ok true in
  exists st' es ts, addPoint_insert st ip = Ok st' /\ consistent st' /\ dpts st' = dpts st /\ dtris st' = dtris st ++ ts /\
    (forall e, In e es <-> vis e) /\ Forall2 (fun e t => forall v, In v (tri_list t) <-> v = fst e \/ v = snd e \/ v = ip) es ts /\
    (forall a b, In (a, b) (dbnd st') <->
       (In (a, b) (dbnd st) /\ ~ vis (a, b)) \/
       ((exists e, vis e /\ ((a = fst e /\ b = ip) \/ (a = ip /\ b = snd e))) /\
        exists k, forall k', has st' k' a /\ has st' k' b <-> k' = k)) /\
    (NoDup (dbnd st) -> NoDup es /\ NoDup (dbnd st')).
Proof. exact insert_spec. Qed.
Print Assumptions C45_insert.

(** C45: the triangulation starts with one triangle of the first three points, and is consistent then; its
    edges are the boundary.  With fewer than three points nothing is triangulated. *)
Theorem C45_first_triangle : forall (A : Arith) (ps : list (pt A)),
  ((length ps < 3)%nat -> first_triangle ps = Ok None) /\
  ((3 <= length ps)%nat -> exists st t, first_triangle ps = Ok (Some st) /\ consistent st /\ dpts st = ps /\ dtris st = [t] /\
     (forall v, In v (tri_list t) <-> (v < 3)%nat) /\
     (forall a b, In (a, b) (dbnd st) -> a <> b /\ (a < 3)%nat /\ (b < 3)%nat /\ ~ In (b, a) (dbnd st)) /\
     (forall a b, a <> b -> (a < 3)%nat -> (b < 3)%nat -> In (a, b) (dbnd st) \/ In (b, a) (dbnd st))).
Proof. exact first_triangle_spec. Qed.
Print Assumptions C45_first_triangle.

(** The hypotheses of the theorems about a flip hold for the quadrilateral (0,0), (2,-1), (5,0), (2,1) with
    the edge (0,0)-(5,0), which is flipped. *)
Example C45_example :
  consistent ex_st /\ Forall stored (dpts ex_st) /\ In ((0, 1)%nat, [0%nat; 1%nat]) (de2t ex_st) /\
  has ex_st 0 2 /\ has ex_st 1 3 /\
  (orient (@mkpt RA 0%R 0%R) (@mkpt RA 5%R 0%R) (@mkpt RA 2%R 1%R) * orient (@mkpt RA 0%R 0%R) (@mkpt RA 5%R 0%R) (@mkpt RA 2%R (-1)%R) < 0)%R /\
  exists st' r, flipOneEdge ex_st (0, 1)%nat = Ok (st', r) /\ r <> [] /\ dtris st' = [(2, 0, 3)%nat; (2, 3, 1)%nat].
Proof. exact flip_example. Qed.

(** C45: whatever the order in which edges are looked at and however many rounds it takes, flipping
    changes neither the points nor the boundary nor the number of triangles; adding a point keeps the
    points and loses no triangle. *)
Theorem C45_flips_keep : forall (A : Arith) fuel ord (st st' : dst A),
  (flipEdges fuel ord st = Ok (Some st') -> dpts st' = dpts st /\ dbnd st' = dbnd st /\ length (dtris st') = length (dtris st)) /\
  (forall ip, consistent st -> (ip < length (dpts st))%nat ->
     (forall a b, In (a, b) (dbnd st) -> a <> b /\ a <> ip /\ b <> ip /\ exists k, has st k a /\ has st k b) ->
     addPoint fuel ord st ip = Ok (Some st') -> dpts st' = dpts st /\
       exists es, (forall e, In e es <-> In e (dbnd st) /\ isEdgeVisible (dpts st) ip e = Ok true) /\
         length (dtris st') = (length (dtris st) + length es)%nat).
Proof. exact flips_keep. Qed.
Print Assumptions C45_flips_keep.
