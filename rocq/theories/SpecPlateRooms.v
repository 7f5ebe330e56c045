(** Vocabulary for the statements about the rooms of a vessel that a plate divides into two. *)
From Coq Require Import Reals List Permutation.
From Verif Require Import Base Arith ArithR MPoint MLine MPoly MTri Spec SpecGroup SpecBase.
Import ListNotations.
Local Open Scope R_scope.

(** Whatever the order and the directions of the segments of W, triangle_mesh cuts them into triangles of the
    total area z. *)
Definition cut_up (lib : mesh_lib RA) (inside : list (seg RA) -> pt RA -> res bool) (W : list (seg RA)) (z : R) : Prop :=
  forall c, rearranged c W -> exists ts, triangle_mesh lib (fun _ _ => inside) c = Ok ts /\ total_area ts z.
(** No two of the triangles of W and V are congruent or overlap, as far as Triangle.congruent and
    Triangle.overlap say. *)
Definition no_clash (lib : mesh_lib RA) (inside : list (seg RA) -> pt RA -> res bool) (W V : list (seg RA)) : Prop :=
  forall c d ts us, rearranged c W -> rearranged d V -> triangle_mesh lib (fun _ _ => inside) c = Ok ts -> triangle_mesh lib (fun _ _ => inside) d = Ok us ->
    clash_free inside (ts ++ us).
(** The walls are the given parts, in any order, some of their segments turned round. *)
Definition walls_of (walls parts : list (list (seg RA))) : Prop :=
  exists parts', Permutation parts' parts /\ Forall2 (Forall2 turned) walls parts'.
