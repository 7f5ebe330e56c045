(** GENERATED by tools/gen_props.py from PArea.v: the property theorems only. *)
From Coq Require Import Reals ZArith Lra Lia Bool List Psatz Permutation Sorted.
From Verif Require Import Base Arith ArithR ArithF MPoint MLine MPoly MTri Spec SpecInside SpecGroup SpecTri
  PPoint PLine PShape PPoly PCommon PConvex POrder PMore PInside PTri PSplit PCorner PCollinear PEar PEar2.
Import ListNotations.
Local Open Scope R_scope.
#[local] Existing Instance RA.
From Verif Require Import PArea.

(** C70: the area of a closed polygon.  The triangulation library is asked with the distinct corners in
    some order (ap) and the segments as pairs of their numbers.  If it finds no triangles the area is 0.  If it answers
    with triangles on the given corners, none of them degenerate, then a value returned is the sum of the
    areas of those triangles that were accepted, rounded to 8 decimals; the area is returned whenever
    all the answers about internal points are given. *)
Theorem C70_area : forall (lib : mesh_lib RA) in1 in2 (vs : list (pt RA)) (l : list (seg RA)),
  polygon_of vs l -> NoDup vs -> separated vs -> Forall stored vs ->
  exists ap segs, Permutation ap vs /\ asked ap l segs /\
    (lib (map xy ap) segs = None -> area lib in1 in2 l = Ok 0) /\
    forall ts tris, lib (map xy ap) segs = Some (map xy ap, ts) -> Forall2 (numbered ap) ts tris ->
      Forall (fun '(a, b, c) => 0 < Rabs (orient a b c)) tris ->
      (forall v, area lib in1 in2 l = Ok v ->
         exists flags, length flags = length tris /\ v = Rround8 (flagged_area flags tris) /\
           forall n f a b c, nth_error flags n = Some f -> nth_error tris n = Some (a, b, c) -> decided (in2 n) vs l f a b c) /\
      ((forall k n q x, exists b1 b2, in1 k n q x = Ok b1 /\ in2 k n q x = Ok b2) -> exists v, area lib in1 in2 l = Ok v).
Proof. exact area_spec. Qed.
Print Assumptions C70_area.

(** C70: if the library answers with a triangulation of the counterclockwise polygon (its corners can be cut
    off one after the other, each leaving one of the triangles, up to the order of the triangles and of
    their corners), and the tests of internal points say that the means of the triangles are inside and no
    corners are inside the triangles, then the area is the shoelace area, rounded to 8 decimals. *)
Theorem C70_triangulated : forall (lib : mesh_lib RA) in1 in2 (vs : list (pt RA)) (l : list (seg RA)),
  polygon_of vs l -> NoDup vs -> separated vs -> Forall stored vs ->
  (forall ap segs, Permutation ap vs -> asked ap l segs ->
     exists ts tris cs tris' x y, lib (map xy ap) segs = Some (map xy ap, ts) /\ Forall2 (numbered ap) ts tris /\
       Permutation tris tris' /\ Forall2 same_corners tris' cs /\
       clipped (fun _ a p b => 0 < orient a p b) vs cs [x; y]) ->
  (forall k n q x, exists b1 b2, in1 k n q x = Ok b1 /\ in2 k n q x = Ok b2) ->
  (forall k a b c, incl [a; b; c] vs -> in2 k 0%nat l (mean3 a b c) <> Ok false) ->
  (forall k n t q, In q vs -> in2 k (S n) t q <> Ok true) ->
  area lib in1 in2 l = Ok (Rround8 (shoelace vs / 2)).
Proof. exact area_triangulated. Qed.
Print Assumptions C70_triangulated.

(** C70 (finding): a single triangle with (exactly) collinear, distinct corners among the library's
    triangles, even when it comes first and would count nothing, makes the area raise an exception. *)
Theorem C70_degenerate : forall (lib : mesh_lib RA) in1 in2 (vs : list (pt RA)) (l : list (seg RA)),
  polygon_of vs l -> NoDup vs -> separated vs -> Forall stored vs ->
  (forall ap segs, Permutation ap vs -> asked ap l segs ->
     exists i j k r a b c, lib (map xy ap) segs = Some (map xy ap, (i, j, k) :: r) /\
       numbered ap (i, j, k) (a, b, c) /\ NoDup [a; b; c] /\ orient a b c = 0) ->
  area lib in1 in2 l = Err OtherException.
Proof. exact area_degenerate. Qed.
Print Assumptions C70_degenerate.

(** C70 (every arithmetic): once the area has been returned, it is the answer for good: whatever is done with the polygon
    afterwards, every later question gets the same value. *)
Theorem C70_cache : forall (A : Arith) (p : apoly A) lib in1 in2 v,
  fst (area_get lib in1 in2 p) = Ok v ->
  forall (history : list (act A)) lib' in1' in2',
    fst (area_get lib' in1' in2' (fold_left act_do history (snd (area_get lib in1 in2 p)))) = Ok v.
Proof. exact area_cached. Qed.
Print Assumptions C70_cache.

(** C70 (every arithmetic): until a question has been answered, the area is computed from the segments of
    that moment. *)
Theorem C70_fresh : forall (A : Arith) (p : apoly A) lib in1 in2, a_cache p = None ->
  fst (area_get lib in1 in2 p) = area lib in1 in2 (a_segs p).
Proof. exact area_fresh. Qed.
Print Assumptions C70_fresh.
