(** GENERATED by tools/gen_props.py from PIntex.v: the property theorems only. *)
From Coq Require Import Reals ZArith Lra Lia Bool List Psatz Permutation.
From Verif Require Import Base Arith ArithR ArithF MPoint MLine MPoly MHeap MVessel MContain MIntex Spec SpecHeap SpecIntex PPoint PLine PPoly PShape PHeap PMore PVessel.
Import ListNotations.
Local Open Scope R_scope.
#[local] Existing Instance RA.
From Verif Require Import PIntex.

(** C79: a Mantel with 8-decimal sizes that is not too flat and not too small.  However the test for inner
    points is answered for points on the boundary, each of the two walls gets two internal points, which are
    inside, and two external ones, which are outside beside it. *)
Theorem C79_mantel : forall inside (pos_v pos_h d0 d1 h : R), decimal8 pos_h -> decimal8 pos_v -> decimal8 h -> decimal8 (d0 / 2) -> decimal8 (d1 / 2) ->
  0 < d0 -> 0 < d1 -> 0 < h ->
  let steep := 1 + Rabs (d1 - d0) / (2 * h) in steep <= 10^6 * h -> steep <= 100 * d0 -> steep <= 20000 ->
  let l := mantel_segments pos_v pos_h d0 d1 h in right_answers inside l ->
  exists r0 r1, mantel_intex inside pos_h 50000 (2 / 1000) (wall_segments l) = Ok (combine (wall_segments l) [r0; r1]) /\ two_and_two l r0 /\ two_and_two l r1.
Proof. exact mantel_probes. Qed.
Print Assumptions C79_mantel.

(** C79 (finding): a Mantel with a tip below (lower diameter 0).  Its points to the left and to the right of a wall
    coincide: they are all on the wall. *)
Theorem C79_apex_refuted : forall (pos_v pos_h d1 h : R) s, 0 < d1 -> 0 < h -> decimal8 pos_h -> In s (wall_segments (mantel_segments (A := RA) pos_v pos_h 0 d1 h)) ->
  py (si s) <> py (sj s) ->
  exists a b, probe_points (A := RA) pos_h 50000 (2 / 1000) s = Ok [a; a; b; b] /\
    point_on_line_at_ratio s (1 / 100) = Ok a /\ point_on_line_at_ratio s (99 / 100) = Ok b.
Proof. exact apex_probes. Qed.
Print Assumptions C79_apex_refuted.

(** C79 (finding): the distance of the points from the wall is limited to 0.002 on the right side only; for a lower
    diameter of 1000 the points of the left wall are 0.01 away from it. *)
Theorem C79_uneven_refuted : exists a b c d a' b' c' d',
  let l := mantel_segments (A := RA) 0 0 1000 1000 100 in
  mapM (probe_points (A := RA) 0 50000 (2 / 1000)) (wall_segments l) = Ok [[a; b; c; d]; [a'; b'; c'; d']] /\
  px a = 500 + 2 / 1000 /\ px b = 500 - 2 / 1000 /\ px a' = - 500 + 1 / 100 /\ px b' = - 500 - 1 / 100.
Proof. exact uneven_probes. Qed.
Print Assumptions C79_uneven_refuted.

(** C79: a head of diameter 1e-4 or more whose axis has an 8-decimal position.  Each of the two walls of its graph gets two internal points, which are under the
    wall, and one external point beyond it, all on the side of the wall. *)
Theorem C79_head : forall pos_v pos_h d orient : R, decimal8 pos_h -> 1 / 10^4 <= d -> orient = 1 \/ orient = -1 ->
  let g := head_graph (A := RA) pos_v pos_h d orient in let hg := Rmax (1 / 10) (d / 1000) in
  exists left right, head_intex (A := RA) pos_v pos_h d orient g = Ok (combine g [left; right]) /\
    forall r side, (r = left /\ side = -1) \/ (r = right /\ side = 1) ->
      length (pr_internal r) = 2%nat /\ length (pr_external r) = 1%nat /\ pr_indifferent r = [] /\
      Forall (beside pos_h side) (pr_internal r ++ pr_external r) /\
      Forall (under_roof pos_v pos_h d orient hg) (pr_internal r) /\ Forall (over_roof pos_v pos_h d orient hg) (pr_external r) /\
      Forall stored (pr_internal r ++ pr_external r).
Proof. exact head_probes. Qed.
Print Assumptions C79_head.

(** C79 (finding), binary64: a head of diameter 2 with its axis at 1/3.  The stored top of the graph is a little to the
    left of the axis, so the points of the right wall are all put to the left, under and beyond the left wall. *)
Theorem C79_axis_refuted : forall L, let pos_h : @num (FA L) := (nofZ 1 / nofZ 3)%num in
  let g := head_graph (A := FA L) (nofZ 0) pos_h (nofZ 2) (nofZ 1) in
  exists left right, head_intex (A := FA L) (nofZ 0) pos_h (nofZ 2) (nofZ 1) g = Ok (combine g [left; right]) /\
    forallb (fun p => px p <? pos_h)%num (pr_internal left ++ pr_external left ++ pr_internal right ++ pr_external right) = true /\
    length (pr_internal right) = 2%nat /\ length (pr_external right) = 1%nat.
Proof. exact head_axis. Qed.
Print Assumptions C79_axis_refuted.

(** C79: a Flachboden with 8-decimal axis and diameter 1e-5 or more has two indifferent points on the axis, one strictly above
    and one strictly below its wall, at a distance of a hundredth of the diameter; a RaumEnde has no points. *)
Theorem C79_flat : forall (pos_v pos_h d : R), decimal8 pos_v -> decimal8 pos_h -> decimal8 (d / 2) -> 1 / 10^5 <= d ->
  let l := flachboden_segments (A := RA) pos_v pos_h d in
  raumende_intex l = map (fun s => (s, mkprobes [] [] [])) l /\
  exists s a b, l = [s] /\ flachboden_intex (A := RA) pos_v pos_h d l = [(s, mkprobes [] [] [a; b])] /\
    px a = pos_h /\ px b = pos_h /\ pos_v < py a /\ py b < pos_v /\
    Rabs (py a - (pos_v + d / 100)) <= 5 / 10^9 /\ Rabs (py b - (pos_v - d / 100)) <= 5 / 10^9.
Proof. exact flat_probes. Qed.
Print Assumptions C79_flat.

(** C79 (any arithmetic): the internal points of a Flachboden are those of its wall, except the two ends. *)
Theorem C79_flat_internal : forall (A : Arith) (s : seg A) p,
  flachboden_is_internal [s] p = Ok (ls_is_internal_point s p && negb (existsb (fun q => pt_eqb q p) (point_set [s]))).
Proof. exact flat_internal. Qed.
Print Assumptions C79_flat_internal.

(** C80 (any arithmetic): after renew the graph has the given segments; its internal, external and indifferent points are
    - segment by segment, each with its segment, rounded - those that the part gives for the segment; each list is from
    another evaluation of the part's points.  It raises exactly if an evaluation does, or has no entry for the segment. *)
Theorem C80_renew : forall (A : Arith) (intex : nat -> res (pdict (A := A))) (g : list (seg A)),
  (forall r, renew intex g = Ok r -> ip_segs r = g /\ exists is es fs,
    let pts l := flat_map (fun '(s, ps) => map (fun p : pt A => (Point_new (px p) (py p), s)) ps) (combine g l) in
    ip_int r = pts is /\ ip_ext r = pts es /\ ip_ind r = pts fs /\ length is = length g /\ length es = length g /\ length fs = length g /\
    forall n s, nth_error g n = Some s ->
      (exists d x, intex (4 * n + 1)%nat = Ok d /\ row_of s d = Ok x /\ nth_error is n = Some (pr_internal x)) /\
      (exists d x, intex (4 * n + 2)%nat = Ok d /\ row_of s d = Ok x /\ nth_error es n = Some (pr_external x)) /\
      (exists d x, intex (4 * n + 3)%nat = Ok d /\ row_of s d = Ok x /\ nth_error fs n = Some (pr_indifferent x))) /\
  ((exists r, renew intex g = Ok r) <-> forall n s j, nth_error g n = Some s -> (j < 4)%nat -> exists d x, intex (4 * n + j)%nat = Ok d /\ row_of s d = Ok x).
Proof. exact renew_spec. Qed.
Print Assumptions C80_renew.

(** C80: so the graph of a Mantel as in C79 has its two walls, two internal points for each, all inside, two external points
    for each, all outside, and no others - also if every evaluation has other answers for points on the boundary. *)
Theorem C80_mantel : forall (inside : nat -> nat -> nat -> nat -> pt RA -> res bool) (pos_v pos_h d0 d1 h : R),
  decimal8 pos_h -> decimal8 pos_v -> decimal8 h -> decimal8 (d0 / 2) -> decimal8 (d1 / 2) -> 0 < d0 -> 0 < d1 -> 0 < h ->
  let steep := 1 + Rabs (d1 - d0) / (2 * h) in steep <= 10^6 * h -> steep <= 100 * d0 -> steep <= 20000 ->
  let l := mantel_segments pos_v pos_h d0 d1 h in (forall k, right_answers (inside k) l) ->
  exists s t g, wall_segments l = [s; t] /\ renew (fun k => mantel_intex (inside k) pos_h 50000 (2 / 1000) (wall_segments l)) (wall_segments l) = Ok g /\
    ip_segs g = [s; t] /\ map snd (ip_int g) = [s; s; t; t] /\ map snd (ip_ext g) = [s; s; t; t] /\ ip_ind g = [] /\
    Forall (strictly_in l) (map fst (ip_int g)) /\ Forall (beside_it l) (map fst (ip_ext g)).
Proof. exact mantel_graph. Qed.
Print Assumptions C80_mantel.

(** Non-vacuity of C79 and C80: the Mantel with axis 1, base 2, diameters 4 and 6 and height 3 gets its eight points, and so does its graph. *)
Example C80_example : let l := mantel_segments (A := RA) 2 1 4 6 3 in
  (exists r0 r1, mantel_intex (fun _ _ _ => answer_for l) 1 50000 (2 / 1000) (wall_segments l) = Ok (combine (wall_segments l) [r0; r1]) /\ two_and_two l r0 /\ two_and_two l r1) /\
  exists g, renew (fun _ => mantel_intex (fun _ _ _ => answer_for l) 1 50000 (2 / 1000) (wall_segments l)) (wall_segments l) = Ok g /\
    length (ip_int g) = 4%nat /\ length (ip_ext g) = 4%nat /\ ip_ind g = [].
Proof. exact mantel_example. Qed.

(** Non-vacuity of C79 for heads and flat ends: a head of diameter 4 above y = 2 with axis 1, and a plate of diameter 4 there. *)
Example C79_example : (exists left right, head_intex (A := RA) 2 1 4 1 (head_graph 2 1 4 1) = Ok (combine (head_graph 2 1 4 1) [left; right]) /\
    length (pr_internal left) = 2%nat /\ length (pr_external right) = 1%nat /\ Forall (under_roof 2 1 4 1 (Rmax (1 / 10) (4 / 1000))) (pr_internal left) /\ Forall (beside 1 (-1)) (pr_internal left ++ pr_external left)) /\
  exists s a b, flachboden_intex (A := RA) 2 1 4 (flachboden_segments 2 1 4) = [(s, mkprobes [] [] [a; b])] /\ py b < 2 < py a.
Proof. exact head_example. Qed.
