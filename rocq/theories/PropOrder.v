(** GENERATED by tools/gen_props.py from POrder.v: the property theorems only. *)
From Coq Require Import Reals ZArith Lra Lia Bool List Psatz Permutation Arith FinFun.
From Verif Require Import Base Arith ArithR ArithF MPoint MLine MPoly Spec PPoint PLine PShape PConvex.
Import ListNotations.
#[local] Existing Instance RA.
From Verif Require Import POrder.

(** C31: vs are the corners of a cycle of 3 to 249 segments, no two of them identified by ==; the
    given segments are its edges in any order and with any directions.  order() returns True and
    leaves the same segments, some reversed, as a closed continuous polygon around the same corners;
    it starts at the corner nearest the origin (ties: smaller x, then smaller y). *)
Theorem C31_order_cycle : forall (vs : list (pt RA)) (given cyc : list (seg RA)),
  (3 <= length vs < 250)%nat -> NoDup vs -> separated vs ->
  Forall2 joins (cycle_edges vs) cyc -> Permutation given cyc ->
  exists us r, order given = Ok (true, r) /\ rearranged r given /\
    Permutation us vs /\ map (fun s => (si s, sj s)) r = cycle_edges us /\
    iscontinuous r = true /\ isclosed r = Ok true /\
    (forall v w, In v vs -> nth_error us 0 = Some w -> nearer_origin w v).
Proof. exact order_spec. Qed.
Print Assumptions C31_order_cycle.

(** C31: the hypotheses hold for a concrete triangle with shuffled, partly reversed edges. *)
Example C31_example : let vs := [@mkpt RA 3 1; @mkpt RA 9 2; @mkpt RA 4 7]%R in
  let cyc := [LineSegment (@mkpt RA 3 1) (@mkpt RA 9 2); LineSegment (@mkpt RA 4 7) (@mkpt RA 9 2); LineSegment (@mkpt RA 4 7) (@mkpt RA 3 1)]%R in
  (3 <= length vs < 250)%nat /\ NoDup vs /\ separated vs /\ Forall2 joins (cycle_edges vs) cyc /\ Permutation (rev cyc) cyc.
Proof. exact order_example. Qed.

(** C32: with 250 or more edges a cycle is never ordered: the call raises. *)
Theorem C32_limit : forall (vs : list (pt RA)) (given cyc : list (seg RA)),
  (250 <= length vs)%nat -> NoDup vs -> separated vs ->
  Forall2 joins (cycle_edges vs) cyc -> Permutation given cyc ->
  order given = Err OtherException.
Proof. exact order_limit. Qed.
Print Assumptions C32_limit.

(** C32: a cycle with 250 corners on a parabola meets the hypotheses. *)
Example C32_limit_example : let vs := map (fun k => @mkpt RA (INR k) (INR k * INR k)%R) (seq 0 250) in
  (250 <= length vs)%nat /\ NoDup vs /\ separated vs /\ Forall2 joins (cycle_edges vs) (cycle_poly vs).
Proof. exact limit_example. Qed.

(** C32: whatever the input and the arithmetic, order() only permutes, reverses and drops segments;
    when it returns False it has at most reversed some of them in place. *)
Theorem C32_no_invention : forall (A : Arith) (g r : list (seg A)) (b : bool), order g = Ok (b, r) ->
  (b = false -> Forall2 (fun s s' => s = s' \/ s = mkseg (sc s') (sj s') (si s')) r g) /\
  (b = true -> exists kept dropped, Permutation (kept ++ dropped) g /\ rearranged r kept).
Proof. exact order_no_invention. Qed.
Print Assumptions C32_no_invention.

(** C32, findings (binary64): of two separate triangles one is silently dropped although True is
    returned; a triangle with a tail gives True and a line that is not closed; an open chain gives
    False but one segment stays reversed; the same triangle given in two directions is ordered into
    two different polygons, and on an empty polygon the call fails. *)
Theorem C32_findings_refuted : forall L : Libm,
  let T := zpts (FA L) [(0,0);(10,0);(5,5)]%Z in
  let U := zpts (FA L) [(20,0);(30,0);(25,5)]%Z in
  let chain ps := map (fun '(p, q) => LineSegment p q) (pairs (zpts (FA L) ps)) in
  (order (cycle_poly T ++ cycle_poly U) = Ok (true, cycle_poly T)) /\
  (order (chain [(5,60);(5,30);(5,5)]%Z ++ cycle_poly T) = Ok (true, chain [(0,0);(10,0);(5,5)]%Z ++ chain [(5,30);(5,5);(0,0)]%Z) /\
   isclosed (chain [(0,0);(10,0);(5,5)]%Z ++ chain [(5,30);(5,5);(0,0)]%Z) = Ok false) /\
  (order (chain [(0,0);(5,5)]%Z ++ chain [(9,0);(5,5)]%Z) = Ok (false, chain [(0,0);(5,5);(9,0)]%Z)) /\
  (order (cycle_poly T) = Ok (true, cycle_poly T) /\
   order (cycle_poly (rev T)) = Ok (true, cycle_poly (zpts (FA L) [(0,0);(5,5);(10,0)]%Z))) /\
  @order (FA L) [] = Err IndexError.
Proof. exact order_findings. Qed.
Print Assumptions C32_findings_refuted.
