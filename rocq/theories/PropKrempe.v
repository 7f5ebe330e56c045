(** GENERATED by tools/gen_props.py from PKrempe.v: the property theorems only. *)
From Coq Require Import Reals ZArith Lra Lia Bool List Psatz Permutation.
From Verif Require Import Base Arith ArithR ArithF MPoint MLine MPoly MHeap MVessel MKrempe Spec SpecHeap SpecKrempe PPoint PLine PPoly PShape PHeap PMore POrder PVessel.
Import ListNotations.
Local Open Scope R_scope.
#[local] Existing Instance RA.
From Verif Require Import PKrempe.

(** C81: the transition without a knuckle (r = 0) between a cone and a shell that fit.  It is accepted exactly if rounding
    the two cut points moves them, times the height of the part, by less than 1e-8.  Then the cone ends and the shell begins at the
    cut points; the transition is the closed polygon start - bend - stop and its mirror image. *)
Theorem C81_sharp : forall j hts below, fits j -> given j hts below -> let q0 := rounded (start j) in let q1 := rounded (stop j) in let m := mirror (axis j) in
  (Rabs (cone_h j * (px q0 - px (start j))) < 1 / 10^8 /\ Rabs (shell_h j * (px q1 - px (stop j))) < 1 / 10^8 ->
   exists k r, kegelkrempe (up j) (down j) 0 hts (cone j) = Ok k /\
     k_kegel k = outline (axis j) (foot j) q0 /\ k_oben k = outline (axis j) q1 (head j) /\ k_unten k = option_map (below_outline j) below /\
     krempe_part k = Ok (true, r) /\ iscontinuous r = true /\ isclosed r = Ok true /\ rearranged r (k_segs k) /\
     k_segs k = [Wall q0 (bend j); Wall (bend j) q1; NonWall q1 (m q1); Wall (m (bend j)) (m q1); Wall (m q0) (m (bend j)); NonWall (m q0) q0]) /\
  (~ (Rabs (cone_h j * (px q0 - px (start j))) < 1 / 10^8 /\ Rabs (shell_h j * (px q1 - px (stop j))) < 1 / 10^8) ->
   kegelkrempe (up j) (down j) 0 hts (cone j) = Err AssertionError).
Proof. exact sharp_krempe. Qed.
Print Assumptions C81_sharp.

(** C81: parts less than 2 high are always accepted. *)
Theorem C81_small : forall j hts below, fits j -> given j hts below -> cone_h j < 2 -> shell_h j < 2 ->
  exists k, kegelkrempe (A := RA) (up j) (down j) 0 hts (cone j) = Ok k.
Proof. exact small_krempe. Qed.
Print Assumptions C81_small.

(** C81, finding: if the cone is also given as the part below (as in the project's own test of from_dict), it is left as it was; the
    lower walls of the transition then lie on its walls. *)
Theorem C81_twice_refuted : forall j, fits j -> Rabs (cone_h j * (px (rounded (start j)) - px (start j))) < 1 / 10^8 -> Rabs (shell_h j * (px (rounded (stop j)) - px (stop j))) < 1 / 10^8 ->
  exists k, kegelkrempe (A := RA) (up j) (down j) 0 [shell j; cone j] (cone j) = Ok k /\
    k_unten k = Some (m_segs (cone j)) /\ In (Wall (foot j) (bend j)) (m_segs (cone j)) /\
    In (Wall (rounded (start j)) (bend j)) (k_segs k) /\ on_segment (foot j) (bend j) (start j).
Proof. exact cone_twice. Qed.
Print Assumptions C81_twice_refuted.

(** C81, finding (binary64): a cone of height 700 with diameters 1000 and 2000 under a shell of height 500; reaching down 100 and up 50 is refused
    with an AssertionError.  The same vessel in a unit 1000 times as large is accepted. *)
Theorem C81_tall_refuted : forall L, let z k : @num (FA L) := nofZ k in let m k : @num (FA L) := ndec k 1000 in
  kegelkrempe (z 50%Z) (z 100%Z) (z 0%Z) [mantel (z 700%Z) (z 0%Z) (z 2000%Z) (z 2000%Z) (z 500%Z)] (mantel (z 0%Z) (z 0%Z) (z 1000%Z) (z 2000%Z) (z 700%Z)) = Err AssertionError /\
  exists k, kegelkrempe (m 50%Z) (m 100%Z) (m 0%Z) [mantel (m 700%Z) (m 0%Z) (m 2000%Z) (m 2000%Z) (m 500%Z)] (mantel (m 0%Z) (m 0%Z) (m 1000%Z) (m 2000%Z) (m 700%Z)) = Ok k.
Proof. exact tall_refuted. Qed.
Print Assumptions C81_tall_refuted.

(** C81, finding (binary64): a cone with the upper diameter 4 under a shell with the diameter 5 is accepted; the walls of the transition
    do not meet, its order() reports failure and its outline is not closed. *)
Theorem C81_gap_refuted : forall L, let z k : @num (FA L) := nofZ k in exists k r,
  kegelkrempe (ndec 4 10) (ndec 3 10) (z 0%Z) [mantel (z 2%Z) (z 0%Z) (z 5%Z) (z 5%Z) (z 1%Z)] (mantel (z 1%Z) (z 0%Z) (z 2%Z) (z 4%Z) (z 1%Z)) = Ok k /\
  krempe_part k = Ok (false, r) /\ isclosed r = Ok false.
Proof. exact gap_refuted. Qed.
Print Assumptions C81_gap_refuted.

(** Non-vacuity of C81: the vessel of the project's tests (cone 2 to 4, height 1, shell 4, height 1.5, transition 0.3 down and 0.4 up), with and without
    a part below. *)
Example C81_example : let j := mkjoint 0 2 1 (3 / 2) 2 4 4 (3 / 10) (4 / 10) in
  fits j /\ (exists k, kegelkrempe (A := RA) (4 / 10) (3 / 10) 0 [shell j] (cone j) = Ok k) /\
  (exists k, kegelkrempe (A := RA) (4 / 10) (3 / 10) 0 [shell j; standzarge (A := RA) 0 0 4 4 2] (cone j) = Ok k).
Proof. exact krempe_example. Qed.

(** C81 (every arithmetic): with one or two parts, a cone that does not open upward, or a length that is not positive, is refused with an
    AssertionError; no or more than two parts as well; a radius that is neither positive nor zero makes it raise. *)
Theorem C81_refused : forall (A : Arith) (h_oben h_unten r : @num A) (hts : list (mpart A)) (kegel : mpart A),
  ((length hts = 0)%nat \/ (2 < length hts)%nat \/ nltb (m_d0 kegel) (m_d1 kegel) = false \/ nltb n0 h_oben = false \/ nltb n0 h_unten = false ->
   kegelkrempe h_oben h_unten r hts kegel = Err AssertionError) /\
  (forall k, kegelkrempe h_oben h_unten r hts kegel = Ok k ->
    (1 <= length hts <= 2)%nat /\ nltb (m_d0 kegel) (m_d1 kegel) = true /\ nltb n0 h_oben = true /\ nltb n0 h_unten = true /\ (nltb n0 r = true \/ neqb r n0 = true)).
Proof. exact krempe_refused. Qed.
Print Assumptions C81_refused.
