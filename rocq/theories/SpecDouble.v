(** Vocabulary for statements about the program as it runs, on binary64 numbers: what real number a
    double is, which double stands for a decimal, and the same words for Points and histories. *)
From Coq Require Import ZArith Reals List Bool Floats.SpecFloat.
From Flocq Require Import Core BinarySingleNaN.
From Verif Require Import Base Arith ArithR ArithF MPoint MLine MHeap Spec SpecHeap.
Import ListNotations.
Local Open Scope R_scope.

(** A finite double (the triple is in range and in normal form), and the real number it is. *)
Definition double (x : F) : Prop := valid_binary 53 1024 x = true /\ is_finite_SF x = true.
Definition value (x : F) : R := SF2R radix2 x.

(** The double nearest to a real number (53 binary digits, ties to even): what the literal u of a
    source text becomes. *)
Definition nearest (u : R) : R := round radix2 (FLT_exp (-1074) 53) ZnearestE u.
Definition stands (x : F) (u : R) : Prop := double x /\ value x = nearest u.

(** A stored Point, an end point, a segment of the running program and the exact one it stands for. *)
Definition stands_pt {L} (p : pt (FA L)) (q : pt RA) : Prop := stands (px p) (px q) /\ stands (py p) (py q).
Definition stands_seg {L} (s : seg (FA L)) (t : seg RA) : Prop :=
  sc s = sc t /\ stands_pt (si s) (si t) /\ stands_pt (sj s) (sj t).

(** At most a million in size. *)
Definition moderate (p : pt RA) : Prop := Rabs (px p) <= 10^6 /\ Rabs (py p) <= 10^6.

(** Identical, or more than 1e-5 apart in one coordinate. *)
Definition clear_of (p q : pt RA) : Prop := p = q \/ 1 / 10^5 < Rabs (px p - px q) \/ 1 / 10^5 < Rabs (py p - py q).

(** Histories of the running program: moves and reflections by doubles. *)
Inductive dstep := DShift (u v : F) | DFlip (x0 : F).
Definition stands_step (d : dstep) (t : step) : Prop :=
  match d, t with
  | DShift x y, Shift u v => stands x u /\ stands y v
  | DFlip x, Flip u => stands x u
  | _, _ => False
  end.
Fixpoint run_dsteps {L} (ts : list dstep) (h : heap (FA L)) (P : hpoly) : heap (FA L) * hpoly :=
  match ts with
  | [] => (h, P)
  | DShift u v :: r => let '(h', P') := move (A := FA L) u v h P in run_dsteps r h' P'
  | DFlip x0 :: r => let '(h', P') := mirror_vertical (A := FA L) x0 h P in run_dsteps r h' P'
  end.
(** Where the point p is after the history. *)
Definition place_after (ts : list step) (p : pt RA) : pt RA := fold_left (fun q t => step_image t q) ts p.

(** A number, Point or segment of the running program that is the exact one, without any error. *)
Definition exactly (x : F) (u : R) : Prop := double x /\ value x = u.
Definition exact_pt {L} (p : pt (FA L)) (q : pt RA) : Prop := exactly (px p) (px q) /\ exactly (py p) (py q).
Definition exact_seg {L} (s : seg (FA L)) (t : seg RA) : Prop := sc s = sc t /\ exact_pt (si s) (si t) /\ exact_pt (sj s) (sj t).
Definition exact_pair (p : F * F) (q : R * R) : Prop := exactly (fst p) (fst q) /\ exactly (snd p) (snd q).

(** Multiples of 1/256 up to 65536. *)
Definition dyadic (u : R) : Prop := exists k : Z, (Z.abs k <= 2 ^ 24)%Z /\ u = IZR k / 256.
Definition dyadic_pt (q : pt RA) : Prop := dyadic (px q) /\ dyadic (py q).
Definition dyadic_seg (s : seg RA) : Prop := dyadic_pt (si s) /\ dyadic_pt (sj s).
Definition dyadic_pair (q : R * R) : Prop := dyadic (fst q) /\ dyadic (snd q).

(** Multiples of 1/1000 up to 1000. *)
Definition milli (u : R) : Prop := exists k : Z, (Z.abs k <= 1000000)%Z /\ u = IZR k / 1000.
Definition milli_pt (q : pt RA) : Prop := milli (px q) /\ milli (py q).
Definition milli_seg (s : seg RA) : Prop := milli_pt (si s) /\ milli_pt (sj s).

(** Whole coordinates up to 2000. *)
Definition whole_seg (s : seg RA) : Prop := lattice 2000 (si s) /\ lattice 2000 (sj s).
