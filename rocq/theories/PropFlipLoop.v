(** GENERATED by tools/gen_props.py from PFlipLoop.v: the property theorems only. *)
From Coq Require Import Reals ZArith Lra Lia Bool List Psatz.
From Verif Require Import Base Arith ArithR MPoint MLine MPoly MDelaunay Spec SpecDelaunay SpecPlanar PPoint PLine PTrig PDelaunay PDelAdd PDelGeo PPlane PFlip.
Import ListNotations.
Local Open Scope R_scope.
#[local] Existing Instance RA.
From Verif Require Import PFlipLoop.

(** C85: let the triangles be planar: none is degenerate and no two have a common inner point; and let the
    dict be right.  Then flipping ends, whatever the order in which the edges of each round are looked at;
    and the outcome is planar again and a Delaunay triangulation (up to the tolerance of the code: the
    angles opposite to an edge sum up to 180 degrees times 1 + 1e-8 at most).  Points, boundary, the number
    of triangles, their total area and the set of the points they cover do not change. *)
Theorem C85_flips_end : forall (ord : list edge -> list edge) (st : dst RA), (forall es, incl es (ord es)) ->
  consistent st -> Forall stored (dpts st) -> planar st ->
  exists n st', (forall fuel, (n <= fuel)%nat -> flipEdges fuel ord st = Ok (Some st')) /\
    consistent st' /\ planar st' /\ delaunay st' /\
    dpts st' = dpts st /\ dbnd st' = dbnd st /\ length (dtris st') = length (dtris st) /\
    total_area st' = total_area st /\ (forall p, covered st' p <-> covered st p).
Proof. exact flips_end. Qed.
Print Assumptions C85_flips_end.

(** The two triangles (0,0), (5,0), (2,1) and (0,0), (2,-1), (5,0) are consistent and planar; the common
    edge is flipped. *)
Example C85_example : consistent ex_st /\ Forall stored (dpts ex_st) /\ planar ex_st /\ ~ delaunay ex_st.
Proof. exact flips_example. Qed.
