(** GENERATED by tools/gen_props.py from PBase2.v: the property theorems only. *)
From Coq Require Import Reals ZArith Lra Lia Bool List Psatz Permutation Arith.
From Verif Require Import Base Arith ArithR MPoint MLine MPoly MTri MGroup MCycles MBase Spec SpecGroup SpecCycles SpecTri SpecBase
  PPoint PLine PShape PMore POrder PGroup PCycles PWalk PInside PCorner PConvex PEar2 PArea PRel PPath PBase.
Import ListNotations.
Local Open Scope R_scope.
#[local] Existing Instance RA.
From Verif Require Import PBase2.

(** C74: for two or more loops, whatever the hashes, the triangulation library and the answers of
    is_internal_point.  If the call returns, then: a loop that is not kept repeats the segments of another
    one or has the summed area of several loops; the rooms are the kept loops of a combination without
    clashing triangles, each as a closed continuous polygon; no other such combination has more loops, or as
    many and a larger area.  All kept loops not in the combination repeat the segments of one in it, but for
    at most one; that one is also returned exactly when all corners of some other kept loop are inside it,
    or all outside. *)
Theorem C74_rooms : forall (H : hashing nat) (HC : hashing (list nat)) lib inside h polygons rs, lists_all HC -> loops h polygons -> (2 <= length polygons)%nat ->
  keep_base_polygons H HC lib inside h polygons = Ok (Some rs) ->
  exists tris area_of kept best rooms more, triangulated lib inside h polygons tris area_of /\
    sublist kept (seq 0 (length polygons)) /\
    (forall x, (x < length polygons)%nat -> In x kept \/ repeated h polygons x \/ sums_up tris area_of (length polygons) x) /\
    sublist best kept /\ best <> [] /\ clash_free inside (flat_map tris best) /\
    (forall c, sublist c kept -> c <> [] -> clash_free inside (flat_map tris c) -> not_worse area_of best c) /\
    rs = rooms ++ more /\ Forall2 (fun k r => room_of r (loop h polygons k)) best rooms /\
    ((kept = best /\ more = []) \/
     (exists x out, In x kept /\ ~ In x best /\ rearranged out (loop h polygons x) /\
        (forall y, In y kept -> ~ In y best -> y = x \/ exists z, In z best /\ alike (loop h polygons y) (loop h polygons z)) /\
        (forall y, In y best -> ~ alike (loop h polygons x) (loop h polygons y)) /\
        ((more = [out] /\ exists b other, In b kept /\ b <> x /\ rearranged other (loop h polygons b) /\
            (all_points_are true inside out other \/ all_points_are false inside out other)) \/
         (more = [] /\ forall b, In b kept -> b <> x -> exists other, rearranged other (loop h polygons b) /\
            ~ all_points_are true inside out other /\ ~ all_points_are false inside out other)))).
Proof. exact keep_rooms. Qed.
Print Assumptions C74_rooms.

(** C74: two or more loops of which none repeats the segments of another one, none has the summed area of
    several, and whose triangles do not clash, are all returned, in their order, each as a closed
    continuous polygon. *)
Theorem C74_all : forall (H : hashing nat) (HC : hashing (list nat)) lib inside h polygons tris area_of, lists_all HC -> loops h polygons -> (2 <= length polygons)%nat ->
  triangulated lib inside h polygons tris area_of ->
  (forall k t, (k < length polygons)%nat -> In t (tris k) -> exists a, triangle_area t = Ok a) ->
  (forall x, (x < length polygons)%nat -> ~ repeated h polygons x /\ ~ sums_up tris area_of (length polygons) x) ->
  clash_free inside (flat_map tris (seq 0 (length polygons))) ->
  exists rooms, keep_base_polygons H HC lib inside h polygons = Ok (Some rooms) /\
    Forall2 (fun p r => room_of r (value h p)) polygons rooms.
Proof. exact keep_all. Qed.
Print Assumptions C74_all.

(** C74 (every arithmetic): a single loop is the only room, as it is; without any loop the rooms cannot be
    numbered: TypeError. *)
Theorem C74_few : forall (A : Arith) H HC (lib : mesh_lib A) inside h p,
  (forall ts, triangle_mesh lib (fun _ _ => inside) (value h p) = Ok ts ->
     keep_base_polygons H HC lib inside h [p] = Ok (Some [value h p]) /\ base_cycles (Some [value h p]) = Ok [(0%nat, value h p)]) /\
  (r <- keep_base_polygons H HC lib inside h [] ;; base_cycles r) = Err TypeError.
Proof. exact keep_few. Qed.
Print Assumptions C74_few.
