(** Model of PolygonLine.triangulate (geometry/SR_polygon.py:663-743): the choice of the algorithm, and the triangles
    a polygon keeps; and of PolygonLine.disjunct (139-148), which uses the triangles kept. *)
From Coq Require Import List Bool ZArith.
From Verif Require Import Base Arith MPoint MLine MPoly MTri.
Import ListNotations.

Section Keep.
Context {A : Arith}.
Notation poly := (list (seg A)).

(** The argument [algorithm]: None, one of the four known names, or another string. *)
Inductive algorithm := ANone | ARandom | ADelaunay | AEar | ATriangle | AUnknown.
(** A polygon with its set of triangles (SR_polygon.py:33, 97-102), as a list. *)
Record tpoly := mktp { tp_segs : poly; tp_tris : list poly }.
(** What a call depends on besides the polygon: random.choice, the draws of ear clipping, the library of triangle_mesh, and
    the answers about internal points. *)
Record tenv := mkte { te_choice : nat; te_ear : ear_oracle A; te_lib : mesh_lib A; te_inside : nat -> nat -> poly -> pt A -> res bool }.

(** SR_polygon.py:671-672 *)
Definition chosen (o : tenv) (alg : algorithm) : algorithm :=
  match alg with
  | ARandom => nth (te_choice o mod 3) [ADelaunay; AEar; ATriangle] ATriangle
  | a => a
  end.
(** SR_polygon.py:663-683, and 685-709 for delaunay: the old triangles are deleted, then self.delaunay is read, which is
    never set (34).  An exception within ear clipping or triangle_mesh may leave some triangles; none are given here. *)
Definition triangulate (o : tenv) (alg : algorithm) (force : bool) (p : tpoly) : tpoly * res unit :=
  match alg with
  | ANone => (p, Err OtherException)
  | _ =>
    if (match tp_tris p with [] => true | _ => false end) || force then
      match chosen o alg with
      | ADelaunay => (mktp (tp_segs p) [], Err AttributeError)
      | AEar => match ear_clipping (te_ear o) (tp_segs p) with
                | Ok (_, ts) => (mktp (tp_segs p) ts, Ok tt)
                | Err e => (mktp (tp_segs p) [], Err e)
                end
      | ATriangle => match triangle_mesh (te_lib o) (te_inside o) (tp_segs p) with
                     | Ok ts => (mktp (tp_segs p) ts, Ok tt)
                     | Err e => (mktp (tp_segs p) [], Err e)
                     end
      | _ => (p, Err OtherException)
      end
    else (p, Ok tt)
  end.

(** SR_polygon.py:257-274, 429-434, 560-591: what changes the segments of a polygon leaves its triangles alone.
    [f]: the new segments. *)
Definition change (f : poly -> poly) (p : tpoly) : tpoly := mktp (f (tp_segs p)) (tp_tris p).

(** SR_polygon.py:139-148 *)
Definition disjunct (inside : nat -> nat -> poly -> pt A -> res bool) (p q : tpoly) : res bool :=
  poly_disjunct inside (tp_tris p ++ tp_tris q).

(** What is done with a polygon. *)
Inductive tact := Triangulate (o : tenv) (alg : algorithm) (force : bool) | Change (f : poly -> poly).
Definition tact_do (p : tpoly) (a : tact) : tpoly :=
  match a with Triangulate o alg force => fst (triangulate o alg force p) | Change f => change f p end.
End Keep.
#[global] Arguments tpoly A : clear implicits.
#[global] Arguments tenv A : clear implicits.
#[global] Arguments tact A : clear implicits.
