(** GENERATED by tools/gen_props.py from PFloat.v: the property theorems only. *)
From Coq Require Import ZArith Bool List Lia Floats.SpecFloat.
From Verif Require Import Base Arith ArithF MPoint MLine.
Import ListNotations.
Local Open Scope Z_scope.
From Verif Require Import PFloat.

(** C02, binary64, all libm: [==] is symmetric for all doubles and reflexive for finite ones. *)
Theorem C02_point_eq_binary64 : forall (L : Libm) (p q : pt (FA L)),
  @pt_eqb (FA L) p q = @pt_eqb (FA L) q p /\
  (finite (px p) -> finite (py p) -> @pt_eqb (FA L) p p = true).
Proof. exact point_eq_binary64. Qed.
Print Assumptions C02_point_eq_binary64.

(** C02, finding, binary64: [==] is not transitive (stored points 0, 9e-6, 1.8e-5 on the x axis). *)
Theorem C02_not_transitive_refuted : forall L : Libm, exists p q r : pt (FA L),
  p = @Point_new (FA L) (FofZ 0) (FofZ 0) /\
  q = @Point_new (FA L) (Fdec 9 1000000) (FofZ 0) /\
  r = @Point_new (FA L) (Fdec 18 1000000) (FofZ 0) /\
  pt_eqb p q = true /\ pt_eqb q r = true /\ pt_eqb p r = false.
Proof. exact not_transitive_refuted. Qed.
Print Assumptions C02_not_transitive_refuted.

(** C03, finding, binary64: two [==] Points are two elements of a set. *)
Theorem C03_set_contract_refuted : forall L : Libm, exists p q : pt (FA L),
  p = @Point_new (FA L) (FofZ 1) (FofZ 0) /\
  q = @Point_new (FA L) (Fdec 1000001 1000000) (FofZ 0) /\
  pt_eqb p q = true /\ length (dedup pt_sameb [p; q]) = 2%nat.
Proof. exact set_contract_refuted. Qed.
Print Assumptions C03_set_contract_refuted.

(** C08, finding, binary64: "on the line" does not exclude "to the right": the stored point
    (0.5, -1e-8) relative to the segment (0,0)-(0.5,0.0). *)
Theorem C08_on_and_right_refuted : forall L : Libm, exists (s : seg (FA L)) (p : pt (FA L)),
  s = LineSegment (@Point_new (FA L) (FofZ 0) (FofZ 0)) (@Point_new (FA L) (Fdec 5 10) (FofZ 0)) /\
  p = @Point_new (FA L) (Fdec 25 100) (Fdec (-1) 100000000) /\
  is_point_on_line s p = Ok true /\ is_point_to_right s p = true.
Proof. exact on_and_right_refuted. Qed.
Print Assumptions C08_on_and_right_refuted.

(** C20, finding, binary64: the angle of the segment (0,0)-(2,3) with itself is a ValueError (the
    cosine is computed as 13 / 12.999999999999998 > 1), whatever libm does. *)
Theorem C20_angle_domain_refuted : forall L : Libm, exists s : seg (FA L),
  s = LineSegment (@Point_new (FA L) (FofZ 0) (FofZ 0)) (@Point_new (FA L) (FofZ 2) (FofZ 3)) /\
  angle_between_lines s s = Err ValueError.
Proof. exact angle_domain_refuted. Qed.
Print Assumptions C20_angle_domain_refuted.

(** C59, finding, binary64: the segment (0.1,0.3)-(0.2,0.6) lies on (0,0)-(0.3,0.9), but the program
    finds the two neither parallel nor overlapping. *)
Theorem C59_collinear_not_parallel_refuted : forall L : Libm, exists s t : seg (FA L),
  s = LineSegment (@Point_new (FA L) (FofZ 0) (FofZ 0)) (@Point_new (FA L) (Fdec 3 10) (Fdec 9 10)) /\
  t = LineSegment (@Point_new (FA L) (Fdec 1 10) (Fdec 3 10)) (@Point_new (FA L) (Fdec 2 10) (Fdec 6 10)) /\
  is_collinear s t = Ok true /\ ls_is_internal_point s (si t) = true /\ ls_is_internal_point s (sj t) = true /\
  is_parallel s t = false /\ overlap s t = Ok (false, None) /\ common_part s t = Ok None.
Proof. exact collinear_not_parallel_refuted. Qed.
Print Assumptions C59_collinear_not_parallel_refuted.
