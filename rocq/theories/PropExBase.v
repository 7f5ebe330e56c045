(** GENERATED by tools/gen_props.py from PExBase.v: the property theorems only. *)
From Coq Require Import Reals ZArith Lra Lia Bool List Psatz Permutation.
From Verif Require Import Base Arith ArithR ArithF MPoint MLine MPoly MTri MGroup MCycles MBase Spec SpecInside SpecTri SpecCycles SpecBase
  PPoint PShape PCommon PInside PExamples POrder PMore PCorner PCollinear PEar PEar2 PArea PRel PExRel PBase PBase2.
Import ListNotations.
Local Open Scope R_scope.
#[local] Existing Instance RA.
From Verif Require Import PExBase.

(** Two triangles side by side, of areas 6 and 18: the hypotheses hold and both are returned, even with
    hashes that change from call to call. *)
Example C74_all_example : let ids := [[0; 1; 2]; [3; 4; 5]]%nat in
  loops d_heap ids /\ triangulated (one_triangle RA) d_inside d_heap ids d_tris d_area /\
  (forall k t, (k < 2)%nat -> In t (d_tris k) -> exists a, triangle_area t = Ok a) /\
  (forall x, (x < 2)%nat -> ~ repeated d_heap ids x /\ ~ sums_up d_tris d_area 2 x) /\
  clash_free d_inside (flat_map d_tris (seq 0 2)) /\
  exists rooms, keep_base_polygons (d_hash nat) (d_hash (list nat)) (one_triangle RA) d_inside d_heap ids = Ok (Some rooms) /\
    Forall2 (fun p r => room_of r (value d_heap p)) ids rooms.
Proof. exact keep_all_example. Qed.

(** Two triangles side by side, and a triangle in another: both are returned. *)
Example C74_rooms_example : forall L,
  rooms_of L fixed [[(1, 1); (10, 2); (3, 8)]; [(20, 1); (30, 3); (21, 9)]]%Z =
    Ok (Some [cycle_poly (zpts (FA L) [(1, 1); (10, 2); (3, 8)]%Z); cycle_poly (zpts (FA L) [(20, 1); (30, 3); (21, 9)]%Z)]) /\
  rooms_of L fixed [[(1, 1); (40, 2); (3, 38)]; [(5, 6); (15, 8); (7, 17)]]%Z =
    Ok (Some [cycle_poly (zpts (FA L) [(1, 1); (40, 2); (3, 38)]%Z); cycle_poly (zpts (FA L) [(5, 6); (15, 8); (7, 17)]%Z)]).
Proof. exact keep_rooms_example. Qed.

(** C74 (finding), binary64: three triangles, each inside the one before, raise an exception. *)
Theorem C74_nested_refuted : forall L,
  rooms_of L fixed [[(1, 1); (40, 2); (3, 38)]; [(3, 4); (30, 7); (7, 27)]; [(8, 9); (15, 10); (9, 17)]]%Z = Err OtherException.
Proof. exact keep_nested. Qed.
Print Assumptions C74_nested_refuted.

(** C74 (finding), binary64: a triangle found in both directions is returned once if hash() does not change
    from call to call; if it does (as for the polygons of this program) an exception is raised. *)
Theorem C74_hash_refuted : forall L,
  rooms_of L fixed [[(1, 1); (10, 2); (3, 8)]; [(1, 1); (3, 8); (10, 2)]]%Z =
    Ok (Some [cycle_poly (zpts (FA L) [(1, 1); (3, 8); (10, 2)]%Z)]) /\
  rooms_of L changing [[(1, 1); (10, 2); (3, 8)]; [(1, 1); (3, 8); (10, 2)]]%Z = Err OtherException.
Proof. exact keep_hash. Qed.
Print Assumptions C74_hash_refuted.

(** C74 (finding), binary64: of three separate triangles of areas 27.5, 14.5 and 42 the third is lost,
    because its area is the sum of the other two. *)
Theorem C74_lost_refuted : forall L,
  rooms_of L fixed [[(1, 1); (9, 2); (2, 8)]; [(20, 1); (25, 2); (21, 7)]; [(51, 2); (63, 2); (50, 9)]]%Z =
    Ok (Some [cycle_poly (zpts (FA L) [(1, 1); (9, 2); (2, 8)]%Z); cycle_poly (zpts (FA L) [(20, 1); (25, 2); (21, 7)]%Z)]).
Proof. exact keep_lost. Qed.
Print Assumptions C74_lost_refuted.
