(** GENERATED by tools/gen_props.py from PPoly.v: the property theorems only. *)
From Coq Require Import Reals ZArith Lra Lia Bool List Psatz Permutation.
From Coq Require Import SpecFloat.
From Verif Require Import Base Arith ArithR ArithF MPoint MLine MPoly Spec PPoint PLine PFloat.
Import ListNotations.
Local Open Scope R_scope.
From Verif Require Import PPoly.

(** C24, for every arithmetic whose comparisons are a total order on the numbers involved: the box
    contains every end point, and if the coordinates are within +-1e11 each side of the box is
    attained by an end point. *)
Theorem C24_bounding_box : forall (A : Arith) (ok : num -> Prop) (l : list (seg A)) (xmin xmax ymin ymax : num),
  ord_laws A ok -> ok (nofZ 100000000000) -> ok (nopp (nofZ 100000000000)) ->
  let ends := flat_map ij l in
  (forall p, In p ends -> ok (px p) /\ ok (py p)) ->
  bounding_box l = ((xmin, xmax), (ymin, ymax)) ->
  (forall p, In p ends -> nleb xmin (px p) = true /\ nleb (px p) xmax = true /\
                          nleb ymin (py p) = true /\ nleb (py p) ymax = true) /\
  (l <> [] ->
   (forall p, In p ends ->
      nleb (nopp (nofZ 100000000000)) (px p) = true /\ nleb (px p) (nofZ 100000000000) = true /\
      nleb (nopp (nofZ 100000000000)) (py p) = true /\ nleb (py p) (nofZ 100000000000) = true) ->
   (exists p, In p ends /\ nleb (px p) xmin = true) /\ (exists p, In p ends /\ nleb xmax (px p) = true) /\
   (exists p, In p ends /\ nleb (py p) ymin = true) /\ (exists p, In p ends /\ nleb ymax (py p) = true)).
Proof. exact bounding_box_spec. Qed.
Print Assumptions C24_bounding_box.

(** The laws assumed by C24_bounding_box hold for the exact reals and for all binary64 numbers that
    are not NaN. *)
Theorem C24_order_laws :
  ord_laws RA (fun _ => True) /\ (forall L : Libm, ord_laws (FA L) (fun x => x <> S754_nan)).
Proof. exact ord_laws_hold. Qed.
Print Assumptions C24_order_laws.

(** C24, exact arithmetic: a tight box, each side through an end point. *)
Theorem C24_bounding_box_exact : forall (l : list (seg RA)) (xmin xmax ymin ymax : R),
  let ends := flat_map ij l in l <> [] ->
  (forall p, In p ends -> Rabs (px p) <= 10^11 /\ Rabs (py p) <= 10^11) ->
  bounding_box l = ((xmin, xmax), (ymin, ymax)) ->
  (forall p, In p ends -> xmin <= px p <= xmax /\ ymin <= py p <= ymax) /\
  (exists p, In p ends /\ px p = xmin) /\ (exists p, In p ends /\ px p = xmax) /\
  (exists p, In p ends /\ py p = ymin) /\ (exists p, In p ends /\ py p = ymax).
Proof. exact bounding_box_exact. Qed.
Print Assumptions C24_bounding_box_exact.

(** C24, binary64: contains every end point whatever the libm, unless a coordinate is NaN. *)
Theorem C24_bounding_box_binary64 : forall (L : Libm) (l : list (seg (FA L))) (xmin xmax ymin ymax : F),
  (forall p, In p (flat_map ij l) -> px p <> S754_nan /\ py p <> S754_nan) ->
  bounding_box l = ((xmin, xmax), (ymin, ymax)) ->
  forall p, In p (flat_map ij l) ->
    SFleb xmin (px p) = true /\ SFleb (px p) xmax = true /\ SFleb ymin (py p) = true /\ SFleb (py p) ymax = true.
Proof. exact bounding_box_binary64. Qed.
Print Assumptions C24_bounding_box_binary64.

(** C24, finding: beyond 1e11 the box is not tight. *)
Theorem C24_bounding_box_big_refuted : exists (l : list (seg RA)) (xmin xmax ymin ymax : R),
  bounding_box l = ((xmin, xmax), (ymin, ymax)) /\ forall p, In p (flat_map ij l) -> xmin < px p.
Proof. exact bounding_box_big_refuted. Qed.
Print Assumptions C24_bounding_box_big_refuted.
