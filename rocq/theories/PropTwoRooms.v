(** GENERATED by tools/gen_props.py from PTwoRooms.v: the property theorems only. *)
From Coq Require Import String Reals ZArith Lra Lia Bool List Psatz Permutation Arith Classical.
From Verif Require Import Base Arith ArithR ArithF MPoint MLine MPoly MTri MGroup MCycles MBase MContain MRaum MRooms
  Spec SpecGroup SpecCycles SpecLoops SpecBase SpecRooms PPoint PLine PConvex POrder PGroup PWalk PBase PBase2.
Import ListNotations.
Local Open Scope list_scope.
Local Open Scope R_scope.
#[local] Existing Instance RA.
From Verif Require Import PTwoRooms.

(** C100: three loops, in any order, whose segments are all of one class, none of which repeats another one.
    When the triangles of two of them cover the same area as those of the third one (their outline) and do
    not clash, keep_base_polygons drops the outline and returns the two others, in their order, each as a
    closed continuous polygon. *)
Theorem C100_outline : forall (H : hashing nat) (HC : hashing (list nat)) lib inside h polygons tris area_of (size : nat -> R) a b o, lists_all HC ->
  loops h polygons -> length polygons = 3%nat -> (forall x, (x < 3)%nat -> ~ repeated h polygons x) ->
  triangulated lib inside h polygons tris area_of -> (forall k, (k < 3)%nat -> total_area (tris k) (size k) /\ 2 / 10^8 <= size k) ->
  Permutation [a; b; o] [0; 1; 2]%nat -> (a < b)%nat -> size o = size a + size b -> clash_free inside (tris a ++ tris b) ->
  exists ra rb, keep_base_polygons H HC lib inside h polygons = Ok (Some [ra; rb]) /\ room_of ra (loop h polygons a) /\ room_of rb (loop h polygons b).
Proof. exact keep_two. Qed.
Print Assumptions C100_outline.
