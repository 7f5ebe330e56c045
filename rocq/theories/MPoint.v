(** Model of geometry/SR_point.py. *)
From Coq Require Import List Bool ZArith.
From Verif Require Import Base Arith.
Import ListNotations.

Section Point.
Context {A : Arith}.
Local Open Scope num_scope.

(** ** Value layer: valid Points *)

(** SR_point.py:21-30, 73-86: a valid Point is its pair of stored coordinates. *)
Record pt := mkpt { px : num; py : num }.

(** SR_point.py:88-94 on two numbers: [Point((x, y))]. *)
Definition Point_new (x y : num) : pt := mkpt (nround8 x) (nround8 y).

(** SR_point.py:41-45, 47-51 for valid operands. *)
Definition pt_sub (p q : pt) : pt := Point_new (px p - px q) (py p - py q).
Definition pt_add (p q : pt) : pt := Point_new (px p + px q) (py p + py q).

(** SR_point.py:64: the tolerance [EPS * 1e3]. *)
Definition pt_tol : num := EPS * nofZ 1000.

(** SR_point.py:53-65 [__eq__] for valid Points of the same class. *)
Definition pt_eqb (p q : pt) : bool :=
  (nabs (px p - px q) <? pt_tol) && (nabs (py p - py q) <? pt_tol).

(** SR_point.py:67-68 *)
Definition pt_neb (p q : pt) : bool := negb (pt_eqb p q).

(** SR_point.py:70-71: sets and dicts identify Points by the hash of the exact coordinates
    (plus [==], which then holds for finite coordinates). *)
Definition pt_sameb (p q : pt) : bool := (px p =? px q) && (py p =? py q).

(** SR_point.py:13-18, 107-108 *)
Definition pt_distance (p q : pt) : num :=
  nsqrt (sqr (px p - px q) + sqr (py p - py q)).

(** SR_point.py:127-128 *)
Definition pt_bounding_box (p : pt) : (num * num) * (num * num) :=
  ((px p, px p), (py p, py p)).

(** ** Object layer: construction from arbitrary Python values and the validity protocol *)

(** A Python value handed to the constructor. [VNumStr x] is a string that [float()] parses to x,
    [VStr] a string it rejects (ValueError), [VOther] any object [float()] rejects with TypeError
    (and which is not an int or float itself). *)
Inductive pyval :=
| VNone | VNum (x : num) | VBool (b : bool) | VNumStr (x : num) | VStr | VOther.

(** The constructor argument: a sequence of values or something not iterable. *)
Inductive pyarg := ASeq (is_tuple : bool) (l : list pyval) | AScalar.

(** float(x) *)
Definition py_float (v : pyval) : res num :=
  match v with
  | VNum x | VNumStr x => Ok x
  | VBool b => Ok (if b then n1 else n0)
  | VStr => Err ValueError
  | VNone | VOther => Err TypeError
  end.

(** SR_point.py:88-94 [_set_coords]: rounding, or the raw argument after a TypeError;
    a ValueError of [float] is not caught. *)
Definition set_coords (a : pyarg) : res pyarg :=
  match a with
  | AScalar => Ok AScalar
  | ASeq t l =>
    match mapM (fun v => x <- py_float v ;; Ok (VNum (nround8 x))) l with
    | Ok l' => Ok (ASeq true l')
    | Err TypeError => Ok a
    | Err e => Err e
    end
  end.

(** SR_point.py:7 *)
Definition EMPTY : pyarg := ASeq true [VNone; VNone].

(** [_coords == EMPTY] *)
Definition is_EMPTY (a : pyarg) : bool :=
  match a with ASeq true [VNone; VNone] => true | _ => false end.

(** [self._coords[k]] *)
Definition coord_at (k : nat) (a : pyarg) : res pyval :=
  match a with
  | AScalar => Err TypeError
  | ASeq _ l => match nth_error l k with Some v => Ok v | None => Err IndexError end
  end.

(** isinstance(v, (int, float)); bool is a subclass of int. *)
Definition is_int_float (v : pyval) : bool :=
  match v with VNum _ | VBool _ => true | _ => false end.

(** SR_point.py:111-125, the body of [isvalid]. The last test, [len(self.xy) != 2], is on a pair. *)
Definition isvalid_body (a : pyarg) : res bool :=
  if is_EMPTY a then Ok false else
  x <- coord_at 0 a ;;
  if negb (is_int_float x) then Ok false else
  y <- coord_at 1 a ;;
  if negb (is_int_float y) then Ok false else Ok true.

(** A Point object: its [_coords] and the cached value of [isvalid] (cached_property, line 110). *)
Record ptobj := mkobj { o_coords : pyarg; o_valid : option bool }.

(** SR_point.py:22-30 *)
Definition obj_new (a : pyarg) : res ptobj :=
  c <- set_coords a ;; Ok (mkobj c None).

(** Reading [isvalid]: the cached value, or the body, whose normal result is cached. *)
Definition obj_isvalid (o : ptobj) : res bool * ptobj :=
  match o_valid o with
  | Some b => (Ok b, o)
  | None => match isvalid_body (o_coords o) with
            | Ok b => (Ok b, mkobj (o_coords o) (Some b))
            | Err e => (Err e, o)
            end
  end.

(** SR_point.py:88-94 and 96-98 called on an existing object: the cache is not invalidated. *)
Definition obj_set_coords (a : pyarg) (o : ptobj) : res ptobj :=
  c <- set_coords a ;; Ok (mkobj c (o_valid o)).
Definition obj_empty (o : ptobj) : ptobj := mkobj EMPTY (o_valid o).

(** SR_point.py:100-105 *)
Definition obj_isempty (o : ptobj) : bool := is_EMPTY (o_coords o).

End Point.
Arguments pt _ : clear implicits.
Arguments pyval _ : clear implicits.
Arguments pyarg _ : clear implicits.
Arguments ptobj _ : clear implicits.
#[global] Arguments Point_new : simpl never.
#[global] Arguments pt_eqb : simpl never.
#[global] Arguments pt_sameb : simpl never.
#[global] Arguments pt_distance : simpl never.
