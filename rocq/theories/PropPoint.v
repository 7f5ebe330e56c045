(** GENERATED by tools/gen_props.py from PPoint.v: the property theorems only. *)
From Coq Require Import Reals ZArith Lra Lia Bool List Psatz.
From Verif Require Import Base Arith ArithR MPoint MLine Spec.
Import ListNotations.
Local Open Scope R_scope.
#[local] Existing Instance RA.
From Verif Require Import PPoint.

(** C01: stored coordinates are multiples of 1e-8 within 5e-9 of the given ones, and rebuilding a
    Point from them changes nothing. *)
Theorem C01_point_rounding : forall x y : R,
  let p := Point_new x y in
  (exists k : Z, px p = IZR k / 10^8) /\ (exists l : Z, py p = IZR l / 10^8) /\
  Rabs (px p - x) <= 5 / 10^9 /\ Rabs (py p - y) <= 5 / 10^9 /\
  Point_new (px p) (py p) = p.
Proof. exact point_rounding. Qed.
Print Assumptions C01_point_rounding.

(** C01: rounding never swaps the order of two inputs, and is symmetric about 0. *)
Theorem C01_point_rounding_monotone : forall x x' y y' : R,
  (x <= x' -> px (Point_new x y) <= px (Point_new x' y')) /\
  (y <= y' -> py (Point_new x y) <= py (Point_new x' y')) /\
  px (Point_new (- x) y) = - px (Point_new x y) /\
  py (Point_new x (- y)) = - py (Point_new x y).
Proof. exact point_rounding_monotone. Qed.
Print Assumptions C01_point_rounding_monotone.

(** C01: no multiple of 1e-8 is closer to the given coordinate than the stored one. *)
Theorem C01_point_rounding_nearest : forall (x y : R) (k : Z),
  Rabs (px (Point_new x y) - x) <= Rabs (IZR k / 10^8 - x) /\
  Rabs (py (Point_new x y) - y) <= Rabs (IZR k / 10^8 - y).
Proof. exact point_rounding_nearest. Qed.
Print Assumptions C01_point_rounding_nearest.

Example C01_example : px (Point_new (1/3) 0) = 33333333 / 10^8.
Proof. exact point_rounding_example. Qed.

(** C02: [==] is the open box of half-width 1e-5; [!=] its negation. *)
Theorem C02_point_eq_iff : forall p q : pt RA,
  (pt_eqb p q = true <-> Rabs (px p - px q) < / 10^5 /\ Rabs (py p - py q) < / 10^5) /\
  pt_eqb p p = true /\ pt_eqb p q = pt_eqb q p /\ pt_neb p q = negb (pt_eqb p q).
Proof. exact point_eq_iff. Qed.
Print Assumptions C02_point_eq_iff.

(** C02: where distinct Points are at least 2e-5 apart in some coordinate, [==] is transitive. *)
Theorem C02_point_eq_separated : forall l : list (pt RA),
  (forall p q, In p l -> In q l -> p = q \/ 2 / 10^5 <= Rabs (px p - px q) \/ 2 / 10^5 <= Rabs (py p - py q)) ->
  forall p q r, In p l -> In q l -> In r l -> pt_eqb p q = true -> pt_eqb q r = true -> pt_eqb p r = true.
Proof. exact point_eq_separated. Qed.
Print Assumptions C02_point_eq_separated.

(** C03: a set of Points holds each coordinate pair exactly once. *)
Theorem C03_set_identical : forall (l : list (pt RA)),
  (forall p, In p (dedup pt_sameb l) <-> In p l) /\ NoDup (dedup pt_sameb l).
Proof. exact set_identical. Qed.
Print Assumptions C03_set_identical.

(** C03: if the unequal-coordinate Points of a collection are never [==], no two elements of its set
    are [==]; otherwise some are. *)
Theorem C03_set_separated : forall (l : list (pt RA)),
  (forall p q, In p (dedup pt_sameb l) -> In q (dedup pt_sameb l) -> pt_eqb p q = true -> p = q) <->
  (forall p q, In p l -> In q l -> pt_eqb p q = true -> px p = px q /\ py p = py q).
Proof. exact set_separated. Qed.
Print Assumptions C03_set_separated.

(** C04: which sequences construct a valid Point: at least two entries, and either [float] accepts
    all entries, or the first entry it does not accept is not a string and the first two entries
    are numbers. *)
Theorem C04_validity_iff : forall (A : Arith) (t : bool) (l : list (pyval A)),
  let number v := match v with VNum _ | VBool _ => True | _ => False end in
  let accepts v := match v with VNum _ | VBool _ | VNumStr _ => True | _ => False end in
  (exists o, obj_new (ASeq t l) = Ok o /\ fst (obj_isvalid o) = Ok true) <->
  exists v0 v1 rest, l = v0 :: v1 :: rest /\
    (Forall accepts l \/
     (number v0 /\ number v1 /\
      exists pre v post, l = pre ++ v :: post /\ Forall accepts pre /\ (v = VNone \/ v = VOther))).
Proof. exact validity_iff. Qed.
Print Assumptions C04_validity_iff.

(** C04: two numbers make a valid Point storing both rounded to 8 decimals; the empty Point is
    invalid. *)
Theorem C04_validity_two_numbers : forall (A : Arith) (x y : @num A),
  obj_new (ASeq true [VNum x; VNum y]) =
    Ok (mkobj (ASeq true [VNum (nround8 x); VNum (nround8 y)]) None) /\
  (forall o, obj_new (ASeq true [VNum x; VNum y]) = Ok o -> fst (obj_isvalid o) = Ok true) /\
  (exists o, obj_new (@EMPTY A) = Ok o /\ fst (obj_isvalid o) = Ok false /\ obj_isempty o = true).
Proof. exact validity_two_numbers. Qed.
Print Assumptions C04_validity_two_numbers.

(** C04: the first answer of [isvalid] is frozen: no later coordinate change alters it. *)
Theorem C04_validity_frozen : forall (A : Arith) (o : ptobj A) b ops o',
  fst (obj_isvalid o) = Ok b ->
  run_ops ops (snd (obj_isvalid o)) = Ok o' ->
  fst (obj_isvalid o') = Ok b.
Proof. exact validity_frozen. Qed.
Print Assumptions C04_validity_frozen.

(** C04, finding: "exactly two coordinates are needed" is false - for any arithmetic, three numbers
    are accepted, and a third non-number even leaves the first two unrounded. *)
Theorem C04_two_coordinates_refuted : forall (A : Arith) (x y z : @num A),
  (exists o, obj_new (ASeq true [VNum x; VNum y; VNum z]) = Ok o /\ fst (obj_isvalid o) = Ok true) /\
  (exists o, obj_new (ASeq true [VNum x; VNum y; VNone]) = Ok o /\ fst (obj_isvalid o) = Ok true /\
             coord_at 0 (o_coords o) = Ok (VNum x) /\ coord_at 1 (o_coords o) = Ok (VNum y)).
Proof. exact two_coordinates_refuted. Qed.
Print Assumptions C04_two_coordinates_refuted.

(** C04, finding: after the coordinates were revoked the Point still claims to be valid when it had
    been asked before. *)
Theorem C04_stale_validity_refuted : forall (A : Arith) (x y : @num A),
  exists o o', obj_new (ASeq true [VNum x; VNum y]) = Ok o /\
    run_ops [OpQuery; OpEmpty] o = Ok o' /\
    obj_isempty o' = true /\ fst (obj_isvalid o') = Ok true.
Proof. exact stale_validity_refuted. Qed.
Print Assumptions C04_stale_validity_refuted.

(** C05: [distance] is a metric. *)
Theorem C05_distance_metric : forall p q r : pt RA,
  0 <= pt_distance p q /\
  (pt_distance p q = 0 <-> px p = px q /\ py p = py q) /\
  pt_distance p q = pt_distance q p /\
  pt_distance p r <= pt_distance p q + pt_distance q r.
Proof. exact distance_metric. Qed.
Print Assumptions C05_distance_metric.

(** C05: [==] and [distance]: Points closer than 1e-5 are [==], and [==] Points are closer than
    1.5e-5. *)
Theorem C05_distance_eq : forall p q : pt RA,
  (pt_distance p q < / 10^5 -> pt_eqb p q = true) /\
  (pt_eqb p q = true -> pt_distance p q < 15 / 10^6).
Proof. exact distance_eq. Qed.
Print Assumptions C05_distance_eq.

(** C06: on stored coordinates sum and difference are exact, commutative and mutually inverse. *)
Theorem C06_add_sub : forall x y x' y' : R,
  let p := Point_new x y in let q := Point_new x' y' in
  pt_add p q = mkpt (px p + px q) (py p + py q) /\
  pt_sub p q = mkpt (px p - px q) (py p - py q) /\
  pt_add p q = pt_add q p /\
  pt_sub (pt_add p q) q = p /\ pt_add (pt_sub p q) q = p.
Proof. exact add_sub_exact. Qed.
Print Assumptions C06_add_sub.

(** C06: for arbitrary operands sum and difference are the componentwise ones up to 5e-9. *)
Theorem C06_add_sub_rounding : forall p q : pt RA,
  Rabs (px (pt_add p q) - (px p + px q)) <= 5 / 10^9 /\ Rabs (py (pt_add p q) - (py p + py q)) <= 5 / 10^9 /\
  Rabs (px (pt_sub p q) - (px p - px q)) <= 5 / 10^9 /\ Rabs (py (pt_sub p q) - (py p - py q)) <= 5 / 10^9.
Proof. exact add_sub_rounding. Qed.
Print Assumptions C06_add_sub_rounding.
