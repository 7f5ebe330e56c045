(** GENERATED by tools/gen_props.py from PKeep.v: the property theorems only. *)
From Coq Require Import Reals ZArith List Bool Arith Lia Lra.
From Verif Require Import Base Arith ArithR MPoint MLine MPoly MTri MKeep Spec PPoint PPoly PConvex PTri PExTri.
Import ListNotations.
Local Open Scope R_scope.
From Verif Require Import PKeep.

(** Every arithmetic: once a polygon has triangles, they stay the same whatever is done with it, as long as no call forces
    a new triangulation; and such a call returns for every algorithm except None, even for an unknown one. *)
Theorem C84_kept : forall (A : Arith) (p : tpoly A) (history : list (tact A)), tp_tris p <> [] ->
  Forall (fun a => match a with Triangulate _ _ force => force = false | Change _ => True end) history ->
  tp_tris (fold_left tact_do history p) = tp_tris p /\
  forall o alg, triangulate o alg false (fold_left tact_do history p) = (fold_left tact_do history p, if match alg with ANone => true | _ => false end then Err OtherException else Ok tt).
Proof. exact triangles_kept. Qed.
Print Assumptions C84_kept.

(** Every arithmetic: without triangles, or when forced, the triangles are computed from the segments of that moment,
    whatever the triangles were before.  'triangle' gives those of the mesh, 'ear clipping' those of ear clipping, and
    'random' any of the three named algorithms, each with some draw. *)
Theorem C84_fresh : forall (A : Arith) (o : tenv A) (p : tpoly A) (force : bool), tp_tris p = [] \/ force = true ->
  (forall ts, triangle_mesh (te_lib o) (te_inside o) (tp_segs p) = Ok ts -> triangulate o ATriangle force p = (mktp (tp_segs p) ts, Ok tt)) /\
  (forall b ts, ear_clipping (te_ear o) (tp_segs p) = Ok (b, ts) -> triangulate o AEar force p = (mktp (tp_segs p) ts, Ok tt)) /\
  triangulate o AUnknown force p = (p, Err OtherException) /\
  (exists alg, In alg [ADelaunay; AEar; ATriangle] /\ triangulate o ARandom force p = triangulate o alg force p) /\
  (forall alg, In alg [ADelaunay; AEar; ATriangle] -> exists n, triangulate (mkte n (te_ear o) (te_lib o) (te_inside o)) ARandom force p = triangulate o alg force p).
Proof. exact triangles_fresh. Qed.
Print Assumptions C84_fresh.

(** Every arithmetic (finding): 'delaunay' never triangulates. A polygon that is only triangulated this way, forced or not, never has
    triangles, every such call raises AttributeError, and a forced call makes a polygon lose the triangles it had. *)
Theorem C84_delaunay_refuted : forall (A : Arith) (o : tenv A) (p : tpoly A) (history : list (tact A)),
  Forall (fun a => match a with Triangulate _ alg _ => alg = ADelaunay | Change _ => True end) history ->
  (tp_tris p = [] -> tp_tris (fold_left tact_do history p) = [] /\ forall force, snd (triangulate o ADelaunay force (fold_left tact_do history p)) = Err AttributeError) /\
  triangulate o ADelaunay true p = (mktp (tp_segs p) [], Err AttributeError).
Proof. exact delaunay_fails. Qed.
Print Assumptions C84_delaunay_refuted.

(** Every arithmetic (finding): polygons without triangles, never triangulated or not triangulable, are always reported disjunct. *)
Theorem C84_untriangulated : forall (A : Arith) inside (p q : tpoly A), tp_tris p = [] -> tp_tris q = [] -> disjunct inside p q = Ok true.
Proof. exact disjunct_untriangulated. Qed.
Print Assumptions C84_untriangulated.

(** Finding: two polygons reported disjunct stay so when one is moved onto the other: with the same segments they still count as
    disjunct, although with triangles computed afresh they would not. *)
Theorem C84_stale_refuted : forall inside (p q : tpoly RA) (f : list (seg RA) -> list (seg RA)) (o : tenv RA),
  disjunct inside p q = Ok true -> f (tp_segs q) = tp_segs p ->
  tp_segs (change f q) = tp_segs p /\ disjunct inside p (change f q) = Ok true /\
  (forall p' q' inside', triangulate o ATriangle true p = (p', Ok tt) -> triangulate o ATriangle true (change f q) = (q', Ok tt) ->
     tp_tris p' <> [] -> disjunct inside' p' q' <> Ok true).
Proof. exact disjunct_stale. Qed.
Print Assumptions C84_stale_refuted.

(** The triangle (0,0), (4,0), (4,3) has triangles after it has been triangulated; two such polygons are reported disjunct before. *)
Example C84_example : forall e : ear_oracle RA, let o := mkte 0 e t_lib t_in in let p := mktp t_segs [] in
  (exists ts, ts <> [] /\ triangulate o ATriangle false p = (mktp t_segs ts, Ok tt)) /\ disjunct t_in p p = Ok true.
Proof. exact keep_example. Qed.
