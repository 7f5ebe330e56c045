(** Probe points of the vessel parts. *)
From Coq Require Import Reals ZArith Lra Lia Bool List Psatz Permutation.
From Verif Require Import Base Arith ArithR ArithF MPoint MLine MPoly MHeap MVessel MContain MIntex Spec SpecHeap SpecIntex PPoint PLine PPoly PShape PHeap PMore PVessel.
Import ListNotations.
Local Open Scope R_scope.
#[local] Existing Instance RA.

(** ** The arithmetic *)
Lemma Rabs_le' : forall x a, Rabs x <= a -> - a <= x <= a.
Proof. intros x a H. unfold Rabs in H. destruct (Rcase_abs x); lra. Qed.
Section Trapezoid.
(** half widths, height; the offset e; the place t on the wall; rounding errors *)
Variables (w0 w1 h e t n m : R).
Hypotheses (W0 : 0 < w0) (W1 : 0 < w1) (H : 0 < h) (T : 1 / 100 <= t <= 99 / 100)
  (N : Rabs n <= 5 / 10^9) (M : Rabs m <= 1 / 10^8)
  (C1 : h + Rabs (w1 - w0) <= 10^7 * (h * e)) (C2 : e <= w0 / 50000) (C3 : h + Rabs (w1 - w0) <= 10^7 * (h * (h / 10))).
Lemma slip : Rabs ((w1 - w0) * n) + Rabs (h * m) <= h * e / 2.
Proof.
  rewrite !Rabs_mult, (Rabs_pos_eq h) by lra. assert (0 <= Rabs (w1 - w0)) by apply Rabs_pos. assert (0 <= Rabs n) by apply Rabs_pos. assert (0 <= Rabs m) by apply Rabs_pos.
  assert (Rabs (w1 - w0) * Rabs n <= Rabs (w1 - w0) * (5 / 10^9)) by (apply Rmult_le_compat_l; auto).
  assert (h * Rabs m <= h * (1 / 10^8)) by (apply Rmult_le_compat_l; lra).
  lra.
Qed.
Let v := t * h + n.
Lemma v_in : 0 < v < h.
Proof.
  unfold v. apply Rabs_le' in N. assert (h <= 10^7 * (h * (h / 10))) by (assert (0 <= Rabs (w1 - w0)) by apply Rabs_pos; lra).
  assert (1 / 10^6 <= h) by nra. split; nra.
Qed.
Lemma inner : let u := w0 + t * (w1 - w0) - e + m in
  0 < (w1 - w0) * v - h * (u - w0) /\ 0 < (w1 - w0) * v + h * u + h * w0.
Proof.
  intros u. pose proof slip as S1. set (a := (w1 - w0) * n) in *. set (b := h * m) in *.
  assert (- (h * e / 2) <= a - b <= h * e / 2 /\ - (h * e / 2) <= a + b <= h * e / 2).
  { unfold Rabs in S1. destruct (Rcase_abs a), (Rcase_abs b); lra. }
  assert (HE : 0 < h * e) by (assert (0 <= Rabs (w1 - w0)) by apply Rabs_pos; lra).
  replace ((w1 - w0) * v - h * (u - w0)) with (h * e + (a - b)) by (unfold u, v, a, b; ring).
  replace ((w1 - w0) * v + h * u + h * w0) with (2 * (h * (w0 + t * (w1 - w0))) - h * e + (a + b)) by (unfold u, v, a, b; ring).
  split; [lra|]. assert (w0 / 100 <= w0 + t * (w1 - w0)) by nra. assert (h * (w0 / 100) <= h * (w0 + t * (w1 - w0))) by (apply Rmult_le_compat_l; lra).
  assert (h * e <= h * (w0 / 50000)) by (apply Rmult_le_compat_l; lra). assert (0 < h * w0) by (apply Rmult_lt_0_compat; auto). lra.
Qed.
Lemma outer : let u := w0 + t * (w1 - w0) + e + m in (w1 - w0) * v - h * (u - w0) < 0.
Proof.
  intros u. pose proof slip as S1. set (a := (w1 - w0) * n) in *. set (b := h * m) in *.
  assert (- (h * e / 2) <= a - b <= h * e / 2).
  { unfold Rabs in S1. destruct (Rcase_abs a), (Rcase_abs b); lra. }
  assert (HE : 0 < h * e) by (assert (0 <= Rabs (w1 - w0)) by apply Rabs_pos; lra).
  replace ((w1 - w0) * v - h * (u - w0)) with (- (h * e) + (a - b)) by (unfold u, v, a, b; ring). lra.
Qed.
End Trapezoid.

(** ** The points *)
Lemma near_ratio : forall (s : seg RA) (t e : R), 0 < t < 1 -> exists a, point_on_line_at_ratio s t = Ok a /\
  forall f : R, exists m n, Rabs m <= 1 / 10^8 /\ Rabs n <= 5 / 10^9 /\
    Point_new (px a + f) (py a) = @mkpt RA (px (si s) + t * (px (sj s) - px (si s)) + f + m) (py (si s) + t * (py (sj s) - py (si s)) + n).
Proof.
  intros s t e T. unfold point_on_line_at_ratio, assert_; ra.
  replace (Rleb 0 t) with true by (symmetry; apply Rleb_true; lra). replace (Rleb t 1) with true by (symmetry; apply Rleb_true; lra). cbn [andb bind].
  replace (Reqb t 0) with false by (symmetry; apply Reqb_false; lra). replace (Reqb t 1) with false by (symmetry; apply Reqb_false; lra).
  eexists. split; [reflexivity|]. intros f. unfold Point_new. cbn [px py]. ra.
  set (x := (1 - t) * px (si s) + t * px (sj s)). set (y := (1 - t) * py (si s) + t * py (sj s)).
  exists (Rround8 (Rround8 x + f) - (x + f)), (Rround8 y - y). pose proof (Rround8_err x) as E1. pose proof (Rround8_err (Rround8 x + f)) as E2. pose proof (Rround8_err y) as E3.
  split; [|split].
  - replace (Rround8 (Rround8 x + f) - (x + f)) with ((Rround8 (Rround8 x + f) - (Rround8 x + f)) + (Rround8 x - x)) by ring.
    eapply Rle_trans; [apply Rabs_triang|]. lra.
  - lra.
  - rewrite Rround8_idem. f_equal; unfold x, y; ring.
Qed.
Lemma probe_points_spec : forall (X div cap : R) (s : seg RA) (lp up : pt RA) (e : R),
  (if Rltb (py (sj s)) (py (si s)) then (sj s, si s) else (si s, sj s)) = (lp, up) ->
  e = Rabs (Rmin ((py up - py lp) / 10) (Rmin ((px lp - X) / div) cap)) ->
  exists ps, probe_points (A := RA) X div cap s = Ok ps /\
    Forall2 (fun '(t, f) p => exists m n, Rabs m <= 1 / 10^8 /\ Rabs n <= 5 / 10^9 /\
      p = @mkpt RA (px (si s) + t * (px (sj s) - px (si s)) + f + m) (py (si s) + t * (py (sj s) - py (si s)) + n))
      [(1 / 100, e); (1 / 100, - e); (99 / 100, e); (99 / 100, - e)] ps.
Proof.
  intros X div cap s lp up e EL EE. unfold probe_points. change (@nltb RA) with Rltb. rewrite EL.
  rewrite !nmin_R. change (@nabs RA) with Rabs. change (@nsub RA) with Rminus. change (@ndiv RA) with Rdiv. change (@nadd RA) with Rplus. change (@nofZ RA) with IZR.
  match goal with |- context [Rabs ?x] => replace (Rabs x) with e end.
  change (@ndec RA 1 100) with (1 / 100)%R. change (@ndec RA 99 100) with (99 / 100)%R.
  destruct (near_ratio s (1 / 100) e) as (a & -> & Ha); [lra|]. destruct (near_ratio s (99 / 100) e) as (b & -> & Hb); [lra|]. cbn [bind].
  eexists. split; [reflexivity|]. 
  assert (MI : forall x : R, x - e = x + - e) by (intros; ring). rewrite !MI.
  repeat (apply Forall2_cons; [first [apply Ha|apply Hb]|]). constructor.
Qed.

(** ** The Mantel *)
Lemma side_of_right : forall inside l m n p, right_answers inside l ->
  (strictly_in l p -> side_of inside m n p = Ok true) /\ (strictly_out l p -> side_of inside m n p = Ok false).
Proof.
  intros inside l m n p RI. unfold side_of.
  destruct (RI m n 0%nat p) as (b0 & -> & A0 & B0). destruct (RI m n 1%nat p) as (b1 & -> & A1 & B1).
  destruct (RI m n 2%nat p) as (b2 & -> & A2 & B2). destruct (RI m n 3%nat p) as (b3 & -> & A3 & B3). cbn [bind].
  split; intros K; [rewrite A0, A1 by auto|rewrite B0, B2, B3 by auto]; reflexivity.
Qed.
Definition trap (X Y w0 w1 h : R) : list (seg RA) :=
  let p1 := @mkpt RA (X + w0) Y in let p2 := @mkpt RA (X + w1) (Y + h) in let p3 := @mkpt RA (X - w1) (Y + h) in let p4 := @mkpt RA (X - w0) Y in
  [Wall p1 p2; NonWall p2 p3; Wall p3 p4; NonWall p4 p1].
Lemma mantel_trap : forall pos_v pos_h d0 d1 h : R, decimal8 pos_h -> decimal8 pos_v -> decimal8 h -> decimal8 (d0 / 2) -> decimal8 (d1 / 2) ->
  mantel_segments pos_v pos_h d0 d1 h = trap pos_h pos_v (d0 / 2) (d1 / 2) h.
Proof.
  intros pos_v pos_h d0 d1 h A B C D E. destruct (mantel_spec pos_v pos_h d0 d1 h A) as (p1 & p2 & -> & _ & _ & K & _). destruct (K D E B C) as [-> ->].
  unfold trap, mirror. cbn [px py]. replace (2 * pos_h - (pos_h + d0 / 2)) with (pos_h - d0 / 2) by ring. replace (2 * pos_h - (pos_h + d1 / 2)) with (pos_h - d1 / 2) by ring. reflexivity.
Qed.
Lemma in_trap : forall X Y w0 w1 h u v : R, 0 < w0 -> 0 < w1 -> 0 < v < h -> 0 < (w1 - w0) * v - h * (u - w0) -> 0 < (w1 - w0) * v + h * u + h * w0 ->
  strictly_in (trap X Y w0 w1 h) (@mkpt RA (X + u) (Y + v)).
Proof.
  intros X Y w0 w1 h u v W0 W1 V R1 R2 s I. cbn in I. decompose [or] I; subst; try contradiction; unfold orient; cbn [si sj px py Wall NonWall].
  - replace (_ - _) with ((w1 - w0) * v - h * (u - w0)) by ring. auto.
  - replace (_ - _) with (2 * (w1 * (h - v))) by ring. assert (0 < w1 * (h - v)) by (apply Rmult_lt_0_compat; lra). lra.
  - replace (_ - _) with ((w1 - w0) * v + h * u + h * w0) by ring. auto.
  - replace (_ - _) with (2 * (w0 * v)) by ring. assert (0 < w0 * v) by (apply Rmult_lt_0_compat; lra). lra.
Qed.
Lemma level_trap : forall X Y w0 w1 h u v : R, 0 < v < h -> strictly_out (trap X Y w0 w1 h) (@mkpt RA (X + u) (Y + v)) ->
  beside_it (trap X Y w0 w1 h) (@mkpt RA (X + u) (Y + v)).
Proof.
  intros X Y w0 w1 h u v V O. split; auto. split; eexists; split; [left; reflexivity|cbn; lra|right; left; reflexivity|cbn; lra].
Qed.
Lemma out_right : forall X Y w0 w1 h u v : R, (w1 - w0) * v - h * (u - w0) < 0 -> strictly_out (trap X Y w0 w1 h) (@mkpt RA (X + u) (Y + v)).
Proof.
  intros X Y w0 w1 h u v R1. eexists. split; [left; reflexivity|]. unfold orient; cbn [si sj px py Wall]. replace (_ - _) with ((w1 - w0) * v - h * (u - w0)) by ring. auto.
Qed.
Lemma out_left : forall X Y w0 w1 h u v : R, (w1 - w0) * v + h * u + h * w0 < 0 -> strictly_out (trap X Y w0 w1 h) (@mkpt RA (X + u) (Y + v)).
Proof.
  intros X Y w0 w1 h u v R1. eexists. split; [right; right; left; reflexivity|]. unfold orient; cbn [si sj px py Wall]. replace (_ - _) with ((w1 - w0) * v + h * u + h * w0) by ring. auto.
Qed.
Lemma probe_stored : forall (X div cap : R) s ps, probe_points (A := RA) X div cap s = Ok ps -> Forall stored ps.
Proof.
  intros X div cap s ps. unfold probe_points. match goal with |- (let '(lp, up) := ?c in _) = _ -> _ => destruct c as [lp up] end.
  destruct (point_on_line_at_ratio s (ndec 1 100)) as [a|]; [|discriminate]. cbn [bind]. destruct (point_on_line_at_ratio s (ndec 99 100)) as [b|]; [|discriminate]. cbn [bind].
  intros [= <-]. assert (ST : forall x y : R, stored (Point_new x y)).
  { intros x y. unfold Point_new. change (@nround8 RA) with Rround8. split; cbn [px py]; apply decimal8_grid, Rround8_grid. }
  repeat (apply Forall_cons; [apply ST|]). constructor.
Qed.
(** rows of points with alternating sides *)
Lemma side_row_spec : forall inside l pos_h div cap m s a b c d (f : bool), right_answers inside l ->
  probe_points (A := RA) pos_h div cap s = Ok [a; b; c; d] ->
  (if f then strictly_in l a /\ strictly_in l c /\ beside_it l b /\ beside_it l d else strictly_in l b /\ strictly_in l d /\ beside_it l a /\ beside_it l c) ->
  exists r, side_row inside pos_h div cap m s = Ok (s, r) /\ two_and_two l r.
Proof.
  intros inside l pos_h div cap m s a b c d f RI E K. pose proof (probe_stored _ _ _ _ _ E) as ST.
  inversion ST as [|? ? Sa ST1]; subst. inversion ST1 as [|? ? Sb ST2]; subst. inversion ST2 as [|? ? Sc ST3]; subst. inversion ST3 as [|? ? Sd _]; subst. unfold side_row. rewrite E. cbn [bind length seq combine mapM].
  destruct f; destruct K as (K1 & K2 & K3 & K4).
  - rewrite (proj1 (side_of_right inside l m 0%nat a RI) K1), (proj2 (side_of_right inside l m 1%nat b RI) (proj1 K3)), (proj1 (side_of_right inside l m 2%nat c RI) K2), (proj2 (side_of_right inside l m 3%nat d RI) (proj1 K4)).
    cbn [bind filter snd fst map negb]. eexists. split; [reflexivity|]. unfold two_and_two. cbn [pr_internal pr_external pr_indifferent app length].
    repeat match goal with |- _ /\ _ => split | |- Forall _ (_ :: _) => constructor | |- Forall _ [] => constructor end; auto.
  - rewrite (proj2 (side_of_right inside l m 0%nat a RI) (proj1 K3)), (proj1 (side_of_right inside l m 1%nat b RI) K1), (proj2 (side_of_right inside l m 2%nat c RI) (proj1 K4)), (proj1 (side_of_right inside l m 3%nat d RI) K2).
    cbn [bind filter snd fst map negb]. eexists. split; [reflexivity|]. unfold two_and_two. cbn [pr_internal pr_external pr_indifferent app length].
    repeat match goal with |- _ /\ _ => split | |- Forall _ (_ :: _) => constructor | |- Forall _ [] => constructor end; auto.
Qed.

Lemma Forall2_4 : forall X Y (P : X -> Y -> Prop) a b c d ps, Forall2 P [a; b; c; d] ps ->
  exists p q r s, ps = [p; q; r; s] /\ P a p /\ P b q /\ P c r /\ P d s.
Proof.
  intros X Y P a b c d ps F. inversion F as [|? p ? l1 H1 F1]; subst. inversion F1 as [|? q ? l2 H2 F2]; subst. inversion F2 as [|? r ? l3 H3 F3]; subst.
  inversion F3 as [|? s ? l4 H4 F4]; subst. inversion F4; subst. exists p, q, r, s. auto.
Qed.

(*@ C79_mantel *)
(** C79: a Mantel with 8-decimal sizes that is not too flat and not too small.  However the test for inner
    points is answered for points on the boundary, each of the two walls gets two internal points, which are
    inside, and two external ones, which are outside beside it. *)
Lemma mantel_probes : forall inside (pos_v pos_h d0 d1 h : R), decimal8 pos_h -> decimal8 pos_v -> decimal8 h -> decimal8 (d0 / 2) -> decimal8 (d1 / 2) ->
  0 < d0 -> 0 < d1 -> 0 < h ->
  let steep := 1 + Rabs (d1 - d0) / (2 * h) in steep <= 10^6 * h -> steep <= 100 * d0 -> steep <= 20000 ->
  let l := mantel_segments pos_v pos_h d0 d1 h in right_answers inside l ->
  exists r0 r1, mantel_intex inside pos_h 50000 (2 / 1000) (wall_segments l) = Ok (combine (wall_segments l) [r0; r1]) /\ two_and_two l r0 /\ two_and_two l r1.
Proof.
  intros inside pos_v pos_h d0 d1 h D1 D2 D3 D4 D5 P0 P1 PH steep S1 S2 S3 l RI. unfold l in *. rewrite mantel_trap in * by auto. clear l.
  set (w0 := d0 / 2) in *. set (w1 := d1 / 2) in *. assert (W0 : 0 < w0) by (unfold w0; lra). assert (W1 : 0 < w1) by (unfold w1; lra).
  assert (HS : h + Rabs (w1 - w0) = h * steep).
  { unfold steep, w1, w0. replace (d1 / 2 - d0 / 2) with ((d1 - d0) * / 2) by field. rewrite Rabs_mult, (Rabs_pos_eq (/ 2)) by lra. field. lra. }
  assert (GE : forall e, steep <= 10^7 * e -> h + Rabs (w1 - w0) <= 10^7 * (h * e)).
  { intros e K. rewrite HS. replace (10^7 * (h * e)) with (h * (10^7 * e)) by ring. apply Rmult_le_compat_l; lra. }
  assert (C3 : h + Rabs (w1 - w0) <= 10^7 * (h * (h / 10))) by (apply GE; lra).
  set (l := trap pos_h pos_v w0 w1 h) in *.
  set (p1 := @mkpt RA (pos_h + w0) pos_v). set (p2 := @mkpt RA (pos_h + w1) (pos_v + h)). set (p3 := @mkpt RA (pos_h - w1) (pos_v + h)). set (p4 := @mkpt RA (pos_h - w0) pos_v).
  assert (EW : wall_segments l = [Wall p1 p2; Wall p3 p4]) by reflexivity.
  (* right wall *)
  set (e := Rmin (h / 10) (Rmin (w0 / 50000) (2 / 1000))).
  assert (E1 : 0 < e /\ e <= w0 / 50000 /\ steep <= 10^7 * e).
  { unfold e, w0. unfold Rmin. repeat destruct Rle_dec; lra. }
  destruct (probe_points_spec pos_h 50000 (2 / 1000) (Wall p1 p2) p1 p2 e) as (ps & EP & F).
  { unfold p1, p2. cbn [si sj Wall py]. replace (Rltb (pos_v + h) pos_v) with false by (symmetry; apply Rltb_false; lra). reflexivity. }
  { unfold p1, p2. cbn [px py]. replace (pos_v + h - pos_v) with h by ring. replace (pos_h + w0 - pos_h) with w0 by ring. symmetry. apply Rabs_pos_eq. fold e. lra. }
  assert (R0 : exists r, side_row inside pos_h 50000 (2 / 1000) 0 (Wall p1 p2) = Ok (Wall p1 p2, r) /\ two_and_two l r).
  { destruct (Forall2_4 _ _ _ _ _ _ _ _ F) as (a & b & c & d & -> & (ma & na & Ma & Na & ->) & (mb & nb & Mb & Nb & ->) & (mc & nc & Mc & Nc & ->) & (md & nd & Md & Nd & ->)).
    eapply (side_row_spec inside l _ _ _ _ _ _ _ _ _ false RI EP).
    assert (SH : forall t f m n, @mkpt RA (px (si (Wall p1 p2)) + t * (px (sj (Wall p1 p2)) - px (si (Wall p1 p2))) + f + m) (py (si (Wall p1 p2)) + t * (py (sj (Wall p1 p2)) - py (si (Wall p1 p2))) + n) =
      @mkpt RA (pos_h + (w0 + t * (w1 - w0) + f + m)) (pos_v + (t * h + n))) by (intros; unfold p1, p2; cbn [si sj Wall px py]; f_equal; ring).
    rewrite !SH. clear SH.
    assert (IN : forall t m n, 1 / 100 <= t <= 99 / 100 -> Rabs n <= 5 / 10^9 -> Rabs m <= 1 / 10^8 -> strictly_in l (@mkpt RA (pos_h + (w0 + t * (w1 - w0) + - e + m)) (pos_v + (t * h + n)))).
    { intros t m n T N M. destruct (inner w0 w1 h e t n m W0 W1 PH T N M) as [I1 I2]; auto; [apply GE; lra|lra|]. apply in_trap; auto. apply (v_in w0 w1 h t n); auto. }
    assert (OUT : forall t m n, 1 / 100 <= t <= 99 / 100 -> Rabs n <= 5 / 10^9 -> Rabs m <= 1 / 10^8 -> beside_it l (@mkpt RA (pos_h + (w0 + t * (w1 - w0) + e + m)) (pos_v + (t * h + n)))).
    { intros t m n T N M. apply level_trap; [apply (v_in w0 w1 h t n); auto|]. apply out_right. apply (outer w0 w1 h e t n m); auto. apply GE. lra. }
    split; [apply IN; auto; lra|]. split; [apply IN; auto; lra|]. split; apply OUT; auto; lra. }
  (* left wall *)
  clear F EP ps. set (e' := w0 / 50000).
  destruct (probe_points_spec pos_h 50000 (2 / 1000) (Wall p3 p4) p4 p3 e') as (ps & EP & F).
  { unfold p3, p4. cbn [si sj Wall py]. replace (Rltb pos_v (pos_v + h)) with true by (symmetry; apply Rltb_true; lra). reflexivity. }
  { unfold p3, p4. cbn [px py]. replace (pos_v + h - pos_v) with h by ring. replace (pos_h - w0 - pos_h) with (- w0) by ring.
    unfold Rmin. repeat destruct Rle_dec; try lra. unfold e'. rewrite Rabs_left; lra. }
  assert (R1 : exists r, side_row inside pos_h 50000 (2 / 1000) 1 (Wall p3 p4) = Ok (Wall p3 p4, r) /\ two_and_two l r).
  { destruct (Forall2_4 _ _ _ _ _ _ _ _ F) as (a & b & c & d & -> & (ma & na & Ma & Na & ->) & (mb & nb & Mb & Nb & ->) & (mc & nc & Mc & Nc & ->) & (md & nd & Md & Nd & ->)).
    eapply (side_row_spec inside l _ _ _ _ _ _ _ _ _ true RI EP).
    assert (SH : forall t f m n, @mkpt RA (px (si (Wall p3 p4)) + t * (px (sj (Wall p3 p4)) - px (si (Wall p3 p4))) + f + m) (py (si (Wall p3 p4)) + t * (py (sj (Wall p3 p4)) - py (si (Wall p3 p4))) + n) =
      @mkpt RA (pos_h + - (w0 + (1 - t) * (w1 - w0) - f + - m)) (pos_v + ((1 - t) * h + n))) by (intros; unfold p3, p4; cbn [si sj Wall px py]; f_equal; ring).
    rewrite !SH. clear SH.
    assert (GE' : h + Rabs (w1 - w0) <= 10^7 * (h * e')) by (apply GE; unfold e', w0; lra).
    assert (IN : forall t m n, 1 / 100 <= t <= 99 / 100 -> Rabs n <= 5 / 10^9 -> Rabs m <= 1 / 10^8 -> strictly_in l (@mkpt RA (pos_h + - (w0 + (1 - t) * (w1 - w0) - e' + - m)) (pos_v + ((1 - t) * h + n)))).
    { intros t m n T N M. rewrite <- Rabs_Ropp in M. destruct (inner w0 w1 h e' (1 - t) n (- m) W0 W1 PH ltac:(lra) N M) as [I1 I2]; auto; [unfold e'; lra|]. apply in_trap; auto; [apply (v_in w0 w1 h (1 - t) n); auto; lra| |].
      - replace (_ - _) with ((w1 - w0) * ((1 - t) * h + n) + h * (w0 + (1 - t) * (w1 - w0) - e' + - m) + h * w0) by ring. auto.
      - replace (_ + _) with ((w1 - w0) * ((1 - t) * h + n) - h * (w0 + (1 - t) * (w1 - w0) - e' + - m - w0)) by ring. auto. }
    assert (OUT : forall t m n, 1 / 100 <= t <= 99 / 100 -> Rabs n <= 5 / 10^9 -> Rabs m <= 1 / 10^8 -> beside_it l (@mkpt RA (pos_h + - (w0 + (1 - t) * (w1 - w0) - - e' + - m)) (pos_v + ((1 - t) * h + n)))).
    { intros t m n T N M. rewrite <- Rabs_Ropp in M. apply level_trap; [apply (v_in w0 w1 h (1 - t) n); auto; lra|]. apply out_left. pose proof (outer w0 w1 h e' (1 - t) n (- m) PH N M GE') as O. cbv zeta in O.
      replace (_ + _) with ((w1 - w0) * ((1 - t) * h + n) - h * (w0 + (1 - t) * (w1 - w0) + e' + - m - w0)) by ring. auto. }
    split; [apply IN; auto; lra|]. split; [apply IN; auto; lra|]. split; apply OUT; auto; lra. }
  destruct R0 as (r0 & R0 & T0), R1 as (r1 & R1 & T1). exists r0, r1. split; auto.
  rewrite EW. unfold mantel_intex. cbn [length seq combine mapM]. rewrite R0, R1. reflexivity.
Qed.

(*@ C79_apex_refuted *)
(** C79 (finding): a Mantel with a tip below (lower diameter 0).  Its points to the left and to the right of a wall
    coincide: they are all on the wall. *)
Lemma apex_probes : forall (pos_v pos_h d1 h : R) s, 0 < d1 -> 0 < h -> decimal8 pos_h -> In s (wall_segments (mantel_segments (A := RA) pos_v pos_h 0 d1 h)) ->
  py (si s) <> py (sj s) ->
  exists a b, probe_points (A := RA) pos_h 50000 (2 / 1000) s = Ok [a; a; b; b] /\
    point_on_line_at_ratio s (1 / 100) = Ok a /\ point_on_line_at_ratio s (99 / 100) = Ok b.
Proof.
  intros pos_v pos_h d1 h s D1 H DH I NE.
  assert (E0 : Rround8 (pos_h + 0 / 2) = pos_h) by (replace (pos_h + 0 / 2) with pos_h by field; apply Rround8_id, decimal8_grid; auto).
  assert (E0' : Rround8 (pos_h - 0 / 2) = pos_h) by (replace (pos_h - 0 / 2) with pos_h by field; apply Rround8_id, decimal8_grid; auto).
  set (lo := if Rltb (py (sj s)) (py (si s)) then sj s else si s). set (up := if Rltb (py (sj s)) (py (si s)) then si s else sj s).
  assert (PX : px lo = pos_h /\ py lo < py up).
  { assert (MO : Rround8 pos_v <= Rround8 (pos_v + h)) by (apply Rround8_mono; lra).
    unfold lo, up. clear lo up. destruct I as [<-|[<-|[]]]; cbn [si sj Wall] in *; unfold Point_new in *; cbn [px py] in *; change (@nround8 RA) with Rround8 in *; change (@nadd RA) with Rplus in *; change (@nsub RA) with Rminus in *; change (@ndiv RA) with Rdiv in *; change (@n2 RA) with 2 in *.
    - replace (Rltb (Rround8 (pos_v + h)) (Rround8 pos_v)) with false by (symmetry; apply Rltb_false; lra). cbn [px py]. split; [exact E0|lra].
    - replace (Rltb (Rround8 pos_v) (Rround8 (pos_v + h))) with true by (symmetry; apply Rltb_true; lra). cbn [px py]. split; [exact E0'|lra]. }
  unfold probe_points. change (@nltb RA) with Rltb.
  replace (if Rltb (py (sj s)) (py (si s)) then (sj s, si s) else (si s, sj s)) with (lo, up) by (unfold lo, up; destruct (Rltb (py (sj s)) (py (si s))); reflexivity).
  rewrite !nmin_R. change (@nabs RA) with Rabs. change (@nsub RA) with Rminus. change (@ndiv RA) with Rdiv. change (@nadd RA) with Rplus. change (@nofZ RA) with IZR.
  replace (Rabs _) with 0.
  2:{ destruct PX as [-> L]. replace ((pos_h - pos_h) / 50000) with 0 by field. unfold Rmin. repeat destruct Rle_dec; try rewrite Rabs_R0; auto; lra. }
  change (@ndec RA 1 100) with (1 / 100)%R. change (@ndec RA 99 100) with (99 / 100)%R.
  destruct (near_ratio s (1 / 100) 0 ltac:(lra)) as (a & Ea & _). destruct (near_ratio s (99 / 100) 0 ltac:(lra)) as (b & Eb & _). rewrite Ea, Eb. cbn [bind].
  assert (G : forall t p, 0 < t < 1 -> point_on_line_at_ratio s t = Ok p -> exists x y, p = Point_new x y).
  { intros t p T. unfold point_on_line_at_ratio, assert_; ra. destruct (Rleb 0 t && Rleb t 1); [|discriminate]. cbn [bind].
    replace (Reqb t 0) with false by (symmetry; apply Reqb_false; lra). replace (Reqb t 1) with false by (symmetry; apply Reqb_false; lra). intros [= <-]. eauto. }
  assert (K : forall p x y, p = Point_new x y -> Point_new (px p + 0) (py p) = p /\ Point_new (px p - 0) (py p) = p).
  { intros p x y ->. unfold Point_new. cbn [px py]. change (@nround8 RA) with Rround8. rewrite Rplus_0_r, Rminus_0_r, !Rround8_idem. auto. }
  destruct (G (1 / 100) a ltac:(lra) Ea) as (xa & ya & Xa). destruct (G (99 / 100) b ltac:(lra) Eb) as (xb & yb & Xb).
  destruct (K _ _ _ Xa) as [-> ->]. destruct (K _ _ _ Xb) as [-> ->]. exists a, b. auto.
Qed.

(*@ C79_uneven_refuted *)
(** C79 (finding): the distance of the points from the wall is limited to 0.002 on the right side only; for a lower
    diameter of 1000 the points of the left wall are 0.01 away from it. *)
Lemma uneven_probes : exists a b c d a' b' c' d',
  let l := mantel_segments (A := RA) 0 0 1000 1000 100 in
  mapM (probe_points (A := RA) 0 50000 (2 / 1000)) (wall_segments l) = Ok [[a; b; c; d]; [a'; b'; c'; d']] /\
  px a = 500 + 2 / 1000 /\ px b = 500 - 2 / 1000 /\ px a' = - 500 + 1 / 100 /\ px b' = - 500 - 1 / 100.
Proof.
  assert (K : forall k, Rround8 (IZR k / 100000000) = IZR k / 100000000) by (intros k; apply Rround8_id; exists k; lra).
  assert (K0 : forall x k, x = IZR k / 100000000 -> Rround8 x = x) by (intros x k ->; apply K).
  assert (EL : wall_segments (mantel_segments (A := RA) 0 0 1000 1000 100) = [Wall (@mkpt RA 500 0) (@mkpt RA 500 100); Wall (@mkpt RA (-500) 100) (@mkpt RA (-500) 0)]).
  { unfold mantel_segments, wall_segments. cbn [filter is_wall sc Wall NonWall scls_eqb]. unfold Point_new. change (@nround8 RA) with Rround8. change (@nadd RA) with Rplus. change (@nsub RA) with Rminus. change (@ndiv RA) with Rdiv. change (@n2 RA) with 2.
    replace (0 + 1000 / 2) with 500 by field. replace (0 - 1000 / 2) with (-500) by field. replace (0 + 100) with 100 by ring.
    rewrite (K0 500 50000000000%Z), (K0 (-500) (-50000000000)%Z), (K0 0 0%Z), (K0 100 10000000000%Z) by lra. reflexivity. }
  enough (G : exists a b c d a' b' c' d', mapM (probe_points (A := RA) 0 50000 (2 / 1000)) [Wall (@mkpt RA 500 0) (@mkpt RA 500 100); Wall (@mkpt RA (-500) 100) (@mkpt RA (-500) 0)] = Ok [[a; b; c; d]; [a'; b'; c'; d']] /\
    px a = 500 + 2 / 1000 /\ px b = 500 - 2 / 1000 /\ px a' = - 500 + 1 / 100 /\ px b' = - 500 - 1 / 100) by (rewrite <- EL in G; exact G).
  assert (PR : forall X Y0 Y1 t k, X = IZR k / 100000000 -> 0 < t < 1 -> exists y, point_on_line_at_ratio (Wall (@mkpt RA X Y0) (@mkpt RA X Y1)) t = Ok (@mkpt RA X y)).
  { intros X Y0 Y1 t k EX T. unfold point_on_line_at_ratio, assert_; ra.
    replace (Rleb 0 t) with true by (symmetry; apply Rleb_true; lra). replace (Rleb t 1) with true by (symmetry; apply Rleb_true; lra). cbn [andb bind].
    replace (Reqb t 0) with false by (symmetry; apply Reqb_false; lra). replace (Reqb t 1) with false by (symmetry; apply Reqb_false; lra).
    cbn [si sj Wall px py]. unfold Point_new. eexists. f_equal. f_equal. change (@nround8 RA) with Rround8. replace ((1 - t) * X + t * X) with X by ring. apply (K0 X k EX). }
  unfold probe_points. change (@nltb RA) with Rltb. cbn [mapM si sj Wall py px].
  replace (Rltb 100 0) with false by (symmetry; apply Rltb_false; lra). replace (Rltb 0 100) with true by (symmetry; apply Rltb_true; lra). cbn [px py].
  rewrite !nmin_R. change (@nabs RA) with Rabs. change (@nsub RA) with Rminus. change (@ndiv RA) with Rdiv. change (@nadd RA) with Rplus. change (@nofZ RA) with IZR.
  change (@ndec RA 1 100) with (1 / 100)%R. change (@ndec RA 99 100) with (99 / 100)%R.
  replace (Rabs (Rmin ((100 - 0) / 10) (Rmin ((500 - 0) / 50000) (2 / 1000)))) with (2 / 1000) by (unfold Rmin; repeat destruct Rle_dec; try lra; rewrite Rabs_pos_eq; lra).
  replace (Rabs (Rmin ((100 - 0) / 10) (Rmin ((-500 - 0) / 50000) (2 / 1000)))) with (1 / 100) by (unfold Rmin; repeat destruct Rle_dec; try lra; rewrite Rabs_left; lra).
  destruct (PR 500 0 100 (1 / 100) 50000000000%Z) as (y1 & ->); [lra|lra|]. destruct (PR 500 0 100 (99 / 100) 50000000000%Z) as (y2 & ->); [lra|lra|].
  destruct (PR (-500) 100 0 (1 / 100) (-50000000000)%Z) as (y3 & ->); [lra|lra|]. destruct (PR (-500) 100 0 (99 / 100) (-50000000000)%Z) as (y4 & ->); [lra|lra|].
  cbn [bind px py]. do 8 eexists. split; [reflexivity|]. unfold Point_new. cbn [px]. change (@nround8 RA) with Rround8.
  split; [rewrite (K0 _ 50000200000%Z); lra|]. split; [rewrite (K0 _ 49999800000%Z); lra|]. split; [rewrite (K0 _ (-49999000000)%Z); lra|rewrite (K0 _ (-50001000000)%Z); lra].
Qed.

(** ** Heads *)
Lemma roof : forall pos_h pos_v d or side hg a b x y ex ey : R, 1 / 10^4 <= d -> (side = 1 \/ side = -1) -> (or = 1 \/ or = -1) -> 1 / 10 <= hg -> hg = Rmax (1 / 10) (d / 1000) ->
  5 / 100 <= a <= 45 / 100 -> 5 / 100 <= b -> Rabs ex <= 5 / 10^9 -> Rabs ey <= 5 / 10^9 ->
  x = pos_h + side * a * d + ex -> y = pos_v + or * b * hg + ey ->
  beside pos_h side (@mkpt RA x y) /\
  (b <= 1 - 2 * a - 5 / 100 -> under_roof pos_v pos_h d or hg (@mkpt RA x y)) /\
  (1 - 2 * a + 5 / 100 <= b -> over_roof pos_v pos_h d or hg (@mkpt RA x y)).
Proof.
  intros pos_h pos_v d or side hg a b x y ex ey D SD OD HG EH A B EX EY -> ->. apply Rabs_le' in EX. apply Rabs_le' in EY.
  assert (AD : 5 / 10^6 <= a * d) by nra. assert (BH : 5 / 1000 <= b * hg) by nra.
  unfold beside, under_roof, over_roof. cbn [px py].
  replace (pos_h + side * a * d + ex - pos_h) with (side * (a * d) + ex) by ring. replace (pos_v + or * b * hg + ey - pos_v) with (or * (b * hg) + ey) by ring.
  assert (BS : 0 < side * (side * (a * d) + ex)) by (destruct SD as [-> | ->]; lra).
  assert (AB : exists f, Rabs (side * (a * d) + ex) = a * d + f /\ - (5 / 10^9) <= f <= 5 / 10^9).
  { destruct SD as [-> | ->]; [exists ex; rewrite Rabs_pos_eq by lra|exists (- ex); rewrite Rabs_left by lra]; lra. }
  assert (OY : exists g, or * (or * (b * hg) + ey) = b * hg + g /\ - (5 / 10^9) <= g <= 5 / 10^9).
  { destruct OD as [-> | ->]; [exists ey|exists (- ey)]; lra. }
  destruct AB as (f & -> & F), OY as (g & -> & G).
  assert (Q : hg * (1 - (a * d + f) / (d / 2)) = hg * (1 - 2 * a) - f * (2 * (hg / d))) by (field; lra). rewrite Q.
  assert (HD : 0 < hg / d <= 1000).
  { split; [apply Rdiv_lt_0_compat; lra|]. apply (Rmult_le_reg_r d); [lra|]. replace (hg / d * d) with hg by (field; lra). rewrite EH. unfold Rmax. destruct Rle_dec; lra. }
  assert (FQ : - (1 / 10^5) <= f * (2 * (hg / d)) <= 1 / 10^5).
  { assert (Rabs (f * (2 * (hg / d))) <= 5 / 10^9 * 2000) by (rewrite Rabs_mult; apply Rmult_le_compat; try apply Rabs_pos; [unfold Rabs; destruct Rcase_abs; lra|rewrite Rabs_pos_eq; lra]).
    apply Rabs_le' in H. lra. }
  split; auto. split; [intros L; split; [lra|]; nra|intros L; split; [lra|]; nra].
Qed.

(*@ C79_head *)
(** C79: a head of diameter 1e-4 or more whose axis has an 8-decimal position.  Each of the two walls of its graph gets two internal points, which are under the
    wall, and one external point beyond it, all on the side of the wall. *)
Lemma head_probes : forall pos_v pos_h d orient : R, decimal8 pos_h -> 1 / 10^4 <= d -> orient = 1 \/ orient = -1 ->
  let g := head_graph (A := RA) pos_v pos_h d orient in let hg := Rmax (1 / 10) (d / 1000) in
  exists left right, head_intex (A := RA) pos_v pos_h d orient g = Ok (combine g [left; right]) /\
    forall r side, (r = left /\ side = -1) \/ (r = right /\ side = 1) ->
      length (pr_internal r) = 2%nat /\ length (pr_external r) = 1%nat /\ pr_indifferent r = [] /\
      Forall (beside pos_h side) (pr_internal r ++ pr_external r) /\
      Forall (under_roof pos_v pos_h d orient hg) (pr_internal r) /\ Forall (over_roof pos_v pos_h d orient hg) (pr_external r) /\
      Forall stored (pr_internal r ++ pr_external r).
Proof.
  intros pos_v pos_h d or DH D OD g hg. unfold g, head_graph, head_intex. cbn [mapM]. unfold head_row, Point_new. cbn [si sj Wall px py].
  change (@nltb RA) with Rltb. change (@nround8 RA) with Rround8. change (@nadd RA) with Rplus. change (@nsub RA) with Rminus. change (@ndiv RA) with Rdiv. change (@nmul RA) with Rmult. change (@nopp RA) with Ropp. change (@n2 RA) with 2. change (@n1 RA) with 1.
  assert (HG : @h_graph RA d = hg) by (unfold h_graph; rewrite nmax_R; reflexivity). rewrite HG.
  change (@ndec RA 45 100) with (45 / 100)%R. change (@ndec RA 5 100) with (5 / 100)%R. change (@ndec RA 85 100) with (85 / 100)%R. change (@ndec RA 25 100) with (25 / 100)%R. change (@ndec RA 55 100) with (55 / 100)%R.
  pose proof (Rround8_err (- d / 2 + pos_h)) as E1. pose proof (Rround8_err (d / 2 + pos_h)) as E2. pose proof (Rround8_err pos_h) as E3.
  apply Rabs_le' in E1. apply Rabs_le' in E2. apply Rabs_le' in E3.
  rewrite (Rround8_id pos_h) by (apply decimal8_grid; auto).
  replace (Rltb pos_h (Rround8 (- d / 2 + pos_h))) with false by (symmetry; apply Rltb_false; lra).
  replace (Rltb (Rround8 (- d / 2 + pos_h)) pos_h) with true by (symmetry; apply Rltb_true; lra).
  replace (Rltb (Rround8 (d / 2 + pos_h)) pos_h) with false by (symmetry; apply Rltb_false; lra).
  replace (Rltb pos_h (Rround8 (d / 2 + pos_h))) with true by (symmetry; apply Rltb_true; lra).
  replace (Rltb pos_h pos_h) with false by (symmetry; apply Rltb_false; lra).
  assert (H10 : 1 / 10 <= hg) by apply Rmax_l.
  assert (PT : forall side a b, (side = 1 \/ side = -1) -> 5 / 100 <= a <= 45 / 100 -> 5 / 100 <= b ->
    let p := @mkpt RA (Rround8 (pos_h + side * a * d)) (Rround8 (pos_v + or * b * hg)) in
    beside pos_h side p /\ (b <= 1 - 2 * a - 5 / 100 -> under_roof pos_v pos_h d or hg p) /\ (1 - 2 * a + 5 / 100 <= b -> over_roof pos_v pos_h d or hg p)).
  { intros side a b SD A B p. apply (roof pos_h pos_v d or side hg a b _ _ (Rround8 (pos_h + side * a * d) - (pos_h + side * a * d)) (Rround8 (pos_v + or * b * hg) - (pos_v + or * b * hg))); auto; try (eapply Rle_trans; [apply Rround8_err|lra]); try ring. }
  cbn [bind]. eexists. eexists. split; [reflexivity|].
  intros r side [[-> ->]|[-> ->]]; cbn [pr_internal pr_external pr_indifferent]; (split; [reflexivity|]); (split; [reflexivity|]); (split; [reflexivity|]).
  - destruct (PT (-1) (45 / 100) (5 / 100)) as (B1 & U1 & _); [auto|lra|lra|]. destruct (PT (-1) (5 / 100) (85 / 100)) as (B2 & U2 & _); [auto|lra|lra|]. destruct (PT (-1) (25 / 100) (55 / 100)) as (B3 & _ & O3); [auto|lra|lra|].
    change (Ropp 1) with (-1) in *. replace (- (1)) with (-1) by ring.
    split; [repeat constructor; auto|]. split; [repeat (apply Forall_cons; [first [apply U1; lra|apply U2; lra]|]); constructor|split; [apply Forall_cons; [apply O3; lra|constructor]|]].
    repeat (apply Forall_cons; [split; cbn [px py]; apply decimal8_grid, Rround8_grid|]); constructor.
  - destruct (PT 1 (45 / 100) (5 / 100)) as (B1 & U1 & _); [auto|lra|lra|]. destruct (PT 1 (5 / 100) (85 / 100)) as (B2 & U2 & _); [auto|lra|lra|]. destruct (PT 1 (25 / 100) (55 / 100)) as (B3 & _ & O3); [auto|lra|lra|].
    split; [repeat constructor; auto|]. split; [repeat (apply Forall_cons; [first [apply U1; lra|apply U2; lra]|]); constructor|split; [apply Forall_cons; [apply O3; lra|constructor]|]].
    repeat (apply Forall_cons; [split; cbn [px py]; apply decimal8_grid, Rround8_grid|]); constructor.
Qed.

(*@ C79_axis_refuted *)
(** C79 (finding), binary64: a head of diameter 2 with its axis at 1/3.  The stored top of the graph is a little to the
    left of the axis, so the points of the right wall are all put to the left, under and beyond the left wall. *)
Lemma head_axis : forall L, let pos_h : @num (FA L) := (nofZ 1 / nofZ 3)%num in
  let g := head_graph (A := FA L) (nofZ 0) pos_h (nofZ 2) (nofZ 1) in
  exists left right, head_intex (A := FA L) (nofZ 0) pos_h (nofZ 2) (nofZ 1) g = Ok (combine g [left; right]) /\
    forallb (fun p => px p <? pos_h)%num (pr_internal left ++ pr_external left ++ pr_internal right ++ pr_external right) = true /\
    length (pr_internal right) = 2%nat /\ length (pr_external right) = 1%nat.
Proof.
  intros L pos_h g.
  assert (H : forall s : seg (FA L), ((if px (sj s) <? px (si s) then px (sj s) else px (si s)) <? pos_h)%num = true ->
    exists r, head_row (A := FA L) (nofZ 0) pos_h (nofZ 2) (nofZ 1) s = Ok (s, r) /\
      let p a b := Point_new (pos_h + nopp n1 * a * nofZ 2)%num (nofZ 0 + nofZ 1 * b * h_graph (nofZ 2))%num in
      r = mkprobes [p (ndec 45 100) (ndec 5 100); p (ndec 5 100) (ndec 85 100)] [p (ndec 25 100) (ndec 55 100)] []).
  { intros s E. unfold head_row. rewrite E. cbn [bind]. eexists. split; reflexivity. }
  unfold head_intex. unfold g at 1. unfold head_graph. cbn [mapM].
  match goal with |- context [head_row _ _ _ _ (Wall ?x ?y)] => destruct (H (Wall x y)) as (r & E & R) end; [vm_compute; reflexivity|]. cbv zeta in E. rewrite E. cbn [bind].
  match goal with |- context [head_row _ _ _ _ (Wall ?x ?y)] => destruct (H (Wall x y)) as (r' & E' & R') end; [vm_compute; reflexivity|]. rewrite E'. cbn [bind].
  exists r, r'. split; [reflexivity|]. rewrite R, R'. split; [vm_compute; reflexivity|]. split; reflexivity.
Qed.

(** ** Flat ends *)
(*@ C79_flat *)
(** C79: a Flachboden with 8-decimal axis and diameter 1e-5 or more has two indifferent points on the axis, one strictly above
    and one strictly below its wall, at a distance of a hundredth of the diameter; a RaumEnde has no points. *)
Lemma flat_probes : forall (pos_v pos_h d : R), decimal8 pos_v -> decimal8 pos_h -> decimal8 (d / 2) -> 1 / 10^5 <= d ->
  let l := flachboden_segments (A := RA) pos_v pos_h d in
  raumende_intex l = map (fun s => (s, mkprobes [] [] [])) l /\
  exists s a b, l = [s] /\ flachboden_intex (A := RA) pos_v pos_h d l = [(s, mkprobes [] [] [a; b])] /\
    px a = pos_h /\ px b = pos_h /\ pos_v < py a /\ py b < pos_v /\
    Rabs (py a - (pos_v + d / 100)) <= 5 / 10^9 /\ Rabs (py b - (pos_v - d / 100)) <= 5 / 10^9.
Proof.
  intros pos_v pos_h d DV DH DD D l. unfold l. rewrite flat_spec by auto. split; [reflexivity|].
  unfold flachboden_intex. cbn [wall_segments filter is_wall sc Wall scls_eqb map]. eexists. eexists. eexists. split; [reflexivity|]. split; [reflexivity|].
  unfold Point_new. cbn [px py]. change (@nround8 RA) with Rround8. change (@nadd RA) with Rplus. change (@nmul RA) with Rmult. change (@nopp RA) with Ropp. change (@ndec RA 1 100) with (1 / 100)%R.
  rewrite (Rround8_id pos_h) by (apply decimal8_grid; auto).
  pose proof (Rround8_err (1 / 100 * d + pos_v)) as E1. pose proof (Rround8_err (- (1 / 100) * d + pos_v)) as E2.
  replace (pos_v + d / 100) with (1 / 100 * d + pos_v) by field. replace (pos_v - d / 100) with (- (1 / 100) * d + pos_v) by field.
  split; auto. split; auto. pose proof (Rabs_le' _ _ E1). pose proof (Rabs_le' _ _ E2). repeat split; lra.
Qed.

(*@ C79_flat_internal *)
(** C79 (any arithmetic): the internal points of a Flachboden are those of its wall, except the two ends. *)
Lemma flat_internal : forall (A : Arith) (s : seg A) p,
  flachboden_is_internal [s] p = Ok (ls_is_internal_point s p && negb (existsb (fun q => pt_eqb q p) (point_set [s]))).
Proof. intros A s p. unfold flachboden_is_internal. destruct (existsb _ _); [rewrite andb_false_r|rewrite andb_true_r]; reflexivity. Qed.

(** ** Collecting the points *)
Lemma add_spec : forall (A : Arith) intex ss k (g r : ipoly A), add_intex_points intex k ss g = Ok r ->
  ip_segs r = ip_segs g /\ exists is es fs, length is = length ss /\ length es = length ss /\ length fs = length ss /\
    let pts l := flat_map (fun '(s, ps) => map (fun p : pt A => (Point_new (px p) (py p), s)) ps) (combine ss l) in
    ip_int r = ip_int g ++ pts is /\ ip_ext r = ip_ext g ++ pts es /\ ip_ind r = ip_ind g ++ pts fs /\
    forall n s, nth_error ss n = Some s ->
      (exists d x, intex (k + 4 * n + 1)%nat = Ok d /\ row_of s d = Ok x /\ nth_error is n = Some (pr_internal x)) /\
      (exists d x, intex (k + 4 * n + 2)%nat = Ok d /\ row_of s d = Ok x /\ nth_error es n = Some (pr_external x)) /\
      (exists d x, intex (k + 4 * n + 3)%nat = Ok d /\ row_of s d = Ok x /\ nth_error fs n = Some (pr_indifferent x)).
Proof.
  intros A intex ss. induction ss as [|s ss IH]; intros k g r E.
  - injection E as <-. split; auto. exists [], [], []. cbn. rewrite !app_nil_r. repeat split; auto; destruct n; discriminate.
  - cbn [add_intex_points] in E. destruct (intex k) as [d0|]; [|discriminate]. cbn [bind] in E. destruct (row_of s d0) as [x0|]; [|discriminate]. cbn [bind] in E.
    destruct (intex (1 + k)%nat) as [d1|] eqn:E1; [|discriminate]. cbn [bind] in E. destruct (row_of s d1) as [x1|] eqn:R1; [|discriminate]. cbn [bind] in E.
    destruct (intex (2 + k)%nat) as [d2|] eqn:E2; [|discriminate]. cbn [bind] in E. destruct (row_of s d2) as [x2|] eqn:R2; [|discriminate]. cbn [bind] in E.
    destruct (intex (3 + k)%nat) as [d3|] eqn:E3; [|discriminate]. cbn [bind] in E. destruct (row_of s d3) as [x3|] eqn:R3; [|discriminate]. cbn [bind] in E.
    destruct (IH _ _ _ E) as (S0 & is & es & fs & L1 & L2 & L3 & P1 & P2 & P3 & N). cbn [ip_segs ip_int ip_ext ip_ind] in *.
    split; auto. exists (pr_internal x1 :: is), (pr_external x2 :: es), (pr_indifferent x3 :: fs). cbn [length combine flat_map]. rewrite L1, L2, L3.
    split; auto. split; auto. split; auto. cbv zeta. rewrite P1, P2, P3, <- !app_assoc. split; auto. split; auto. split; auto.
    intros [|n] t Et; cbn in Et.
    + injection Et as <-. replace (k + 4 * 0 + 1)%nat with (1 + k)%nat by lia. replace (k + 4 * 0 + 2)%nat with (2 + k)%nat by lia. replace (k + 4 * 0 + 3)%nat with (3 + k)%nat by lia.
      split; [exists d1, x1; auto|]. split; [exists d2, x2; auto|exists d3, x3; auto].
    + replace (k + 4 * S n + 1)%nat with (4 + k + 4 * n + 1)%nat by lia. replace (k + 4 * S n + 2)%nat with (4 + k + 4 * n + 2)%nat by lia. replace (k + 4 * S n + 3)%nat with (4 + k + 4 * n + 3)%nat by lia. apply N. auto.
Qed.

(*@ C80_renew *)
(** C80 (any arithmetic): after renew the graph has the given segments; its internal, external and indifferent points are
    - segment by segment, each with its segment, rounded - those that the part gives for the segment; each list is from
    another evaluation of the part's points.  It raises exactly if an evaluation does, or has no entry for the segment. *)
Lemma renew_spec : forall (A : Arith) (intex : nat -> res (pdict (A := A))) (g : list (seg A)),
  (forall r, renew intex g = Ok r -> ip_segs r = g /\ exists is es fs,
    let pts l := flat_map (fun '(s, ps) => map (fun p : pt A => (Point_new (px p) (py p), s)) ps) (combine g l) in
    ip_int r = pts is /\ ip_ext r = pts es /\ ip_ind r = pts fs /\ length is = length g /\ length es = length g /\ length fs = length g /\
    forall n s, nth_error g n = Some s ->
      (exists d x, intex (4 * n + 1)%nat = Ok d /\ row_of s d = Ok x /\ nth_error is n = Some (pr_internal x)) /\
      (exists d x, intex (4 * n + 2)%nat = Ok d /\ row_of s d = Ok x /\ nth_error es n = Some (pr_external x)) /\
      (exists d x, intex (4 * n + 3)%nat = Ok d /\ row_of s d = Ok x /\ nth_error fs n = Some (pr_indifferent x))) /\
  ((exists r, renew intex g = Ok r) <-> forall n s j, nth_error g n = Some s -> (j < 4)%nat -> exists d x, intex (4 * n + j)%nat = Ok d /\ row_of s d = Ok x).
Proof.
  intros A intex g. split.
  - intros r E. destruct (add_spec _ _ _ _ _ _ E) as (S0 & is & es & fs & L1 & L2 & L3 & P1 & P2 & P3 & N). split; auto. exists is, es, fs. auto 10.
  - unfold renew. cut (forall k g0, (exists r, add_intex_points intex k g g0 = Ok r) <-> forall n s j, nth_error g n = Some s -> (j < 4)%nat -> exists d x, intex (k + 4 * n + j)%nat = Ok d /\ row_of s d = Ok x).
    { intros H. apply (H 0%nat). }
    induction g as [|s g IH]; intros k g0.
    { split; [intros _ [|n]; discriminate|]. intros _. exists g0. reflexivity. }
    split.
    + intros (r & E). cbn [add_intex_points] in E. destruct (intex k) as [d0|] eqn:E0; [|discriminate]. cbn [bind] in E. destruct (row_of s d0) as [x0|] eqn:R0; [|discriminate]. cbn [bind] in E.
      destruct (intex (1 + k)%nat) as [d1|] eqn:E1; [|discriminate]. cbn [bind] in E. destruct (row_of s d1) as [x1|] eqn:R1; [|discriminate]. cbn [bind] in E.
      destruct (intex (2 + k)%nat) as [d2|] eqn:E2; [|discriminate]. cbn [bind] in E. destruct (row_of s d2) as [x2|] eqn:R2; [|discriminate]. cbn [bind] in E.
      destruct (intex (3 + k)%nat) as [d3|] eqn:E3; [|discriminate]. cbn [bind] in E. destruct (row_of s d3) as [x3|] eqn:R3; [|discriminate]. cbn [bind] in E.
      intros [|n] t j Et L; cbn in Et.
      * injection Et as <-. destruct j as [|[|[|[|j]]]]; [| | | |lia].
        { replace (k + 4 * 0 + 0)%nat with k by lia. eauto. } { replace (k + 4 * 0 + 1)%nat with (1 + k)%nat by lia. eauto. }
        { replace (k + 4 * 0 + 2)%nat with (2 + k)%nat by lia. eauto. } { replace (k + 4 * 0 + 3)%nat with (3 + k)%nat by lia. eauto. }
      * replace (k + 4 * S n + j)%nat with (4 + k + 4 * n + j)%nat by lia. eapply IH; eauto.
    + intros H. cbn [add_intex_points].
      destruct (H 0%nat s 0%nat eq_refl ltac:(lia)) as (d0 & x0 & E0 & R0). destruct (H 0%nat s 1%nat eq_refl ltac:(lia)) as (d1 & x1 & E1 & R1).
      destruct (H 0%nat s 2%nat eq_refl ltac:(lia)) as (d2 & x2 & E2 & R2). destruct (H 0%nat s 3%nat eq_refl ltac:(lia)) as (d3 & x3 & E3 & R3).
      replace (k + 4 * 0 + 0)%nat with k in E0 by lia. replace (k + 4 * 0 + 1)%nat with (1 + k)%nat in E1 by lia. replace (k + 4 * 0 + 2)%nat with (2 + k)%nat in E2 by lia. replace (k + 4 * 0 + 3)%nat with (3 + k)%nat in E3 by lia.
      rewrite E0. cbn [bind]. rewrite R0. cbn [bind]. rewrite E1. cbn [bind]. rewrite R1. cbn [bind]. rewrite E2. cbn [bind]. rewrite R2. cbn [bind]. rewrite E3. cbn [bind]. rewrite R3. cbn [bind].
      apply IH. intros n t j Et L. replace (4 + k + 4 * n + j)%nat with (k + 4 * S n + j)%nat by lia. apply H; auto.
Qed.

(*@ C80_mantel *)
(** C80: so the graph of a Mantel as in C79 has its two walls, two internal points for each, all inside, two external points
    for each, all outside, and no others - also if every evaluation has other answers for points on the boundary. *)
Lemma mantel_graph : forall (inside : nat -> nat -> nat -> nat -> pt RA -> res bool) (pos_v pos_h d0 d1 h : R),
  decimal8 pos_h -> decimal8 pos_v -> decimal8 h -> decimal8 (d0 / 2) -> decimal8 (d1 / 2) -> 0 < d0 -> 0 < d1 -> 0 < h ->
  let steep := 1 + Rabs (d1 - d0) / (2 * h) in steep <= 10^6 * h -> steep <= 100 * d0 -> steep <= 20000 ->
  let l := mantel_segments pos_v pos_h d0 d1 h in (forall k, right_answers (inside k) l) ->
  exists s t g, wall_segments l = [s; t] /\ renew (fun k => mantel_intex (inside k) pos_h 50000 (2 / 1000) (wall_segments l)) (wall_segments l) = Ok g /\
    ip_segs g = [s; t] /\ map snd (ip_int g) = [s; s; t; t] /\ map snd (ip_ext g) = [s; s; t; t] /\ ip_ind g = [] /\
    Forall (strictly_in l) (map fst (ip_int g)) /\ Forall (beside_it l) (map fst (ip_ext g)).
Proof.
  intros inside pos_v pos_h d0 d1 h D1 D2 D3 D4 D5 P0 P1 PH steep S1 S2 S3 l RI.
  assert (MP := fun k => mantel_probes (inside k) pos_v pos_h d0 d1 h D1 D2 D3 D4 D5 P0 P1 PH S1 S2 S3 (RI k)). cbv zeta in MP. fold l in MP.
  assert (EW : exists s t, wall_segments l = [s; t] /\ py (si s) <> py (si t)).
  { unfold l. rewrite mantel_trap by auto. eexists. eexists. split; [reflexivity|]. cbn. lra. }
  destruct EW as (s & t & EW & NE). exists s, t. rewrite EW in *.
  assert (SS : forall u : seg RA, seg_sameb u u = true).
  { intros u. unfold seg_sameb, pt_sameb. ra. destruct (sc u); cbn; rewrite ?(proj2 (Reqb_true _ _) eq_refl); reflexivity. }
  assert (ST : seg_sameb t s = false).
  { unfold seg_sameb, pt_sameb. ra. replace (Reqb (py (si t)) (py (si s))) with false by (symmetry; apply Reqb_false; auto). rewrite andb_false_r, andb_false_r. reflexivity. }
  destruct (renew_spec RA (fun k => mantel_intex (inside k) pos_h 50000 (2 / 1000) [s; t]) [s; t]) as [H1 H2].
  assert (ROW : forall k u, In u [s; t] -> exists d x, mantel_intex (inside k) pos_h 50000 (2 / 1000) [s; t] = Ok d /\ row_of u d = Ok x /\ two_and_two l x).
  { intros k u I. destruct (MP k) as (r0 & r1 & E & T0 & T1). cbn [combine] in E. destruct I as [<-|[<-|[]]].
    - exists [(s, r0); (t, r1)], r0. split; auto. split; auto. cbn [row_of]. rewrite ST, SS. reflexivity.
    - exists [(s, r0); (t, r1)], r1. split; auto. split; auto. cbn [row_of]. rewrite SS. reflexivity. }
  destruct (proj2 H2) as (g & Eg).
  { intros n u j En L. destruct (ROW (4 * n + j)%nat u (nth_error_In _ _ En)) as (d & x & A1 & A2 & _). eauto. }
  exists g. split; auto. split; auto. destruct (H1 g Eg) as (S0 & is & es & fs & PI & PE & PF & LI & LE & LF & N). split; auto.
  assert (RW : forall j k u d x, (k = j)%nat -> In u [s; t] -> mantel_intex (inside k) pos_h 50000 (2 / 1000) [s; t] = Ok d -> row_of u d = Ok x -> two_and_two l x).
  { intros j k u d x -> I A1 A2. destruct (ROW j u I) as (d' & x' & B1 & B2 & T). congruence. }
  destruct (N 0%nat s eq_refl) as ((d & x & A1 & A2 & A3) & (d' & x' & B1 & B2 & B3) & (d'' & x'' & C1 & C2 & C3)).
  destruct (N 1%nat t eq_refl) as ((e & y & A1' & A2' & A3') & (e' & y' & B1' & B2' & B3') & (e'' & y'' & C1' & C2' & C3')).
  pose proof (RW _ _ _ _ _ eq_refl (or_introl eq_refl) A1 A2) as T1. pose proof (RW _ _ _ _ _ eq_refl (or_introl eq_refl) B1 B2) as T2. pose proof (RW _ _ _ _ _ eq_refl (or_introl eq_refl) C1 C2) as T3.
  pose proof (RW _ _ _ _ _ eq_refl (or_intror (or_introl eq_refl)) A1' A2') as T4. pose proof (RW _ _ _ _ _ eq_refl (or_intror (or_introl eq_refl)) B1' B2') as T5. pose proof (RW _ _ _ _ _ eq_refl (or_intror (or_introl eq_refl)) C1' C2') as T6.
  destruct is as [|i1 [|i2 [|? ?]]]; try discriminate LI. destruct es as [|e1 [|e2 [|? ?]]]; try discriminate LE. destruct fs as [|f1 [|f2 [|? ?]]]; try discriminate LF.
  injection A3 as ->. injection A3' as ->. injection B3 as ->. injection B3' as ->. injection C3 as ->. injection C3' as ->.
  cbv zeta in PI, PE, PF. cbn [combine flat_map] in PI, PE, PF. rewrite !app_nil_r in *.
  assert (RD : forall ps (q : pt RA -> Prop), Forall stored ps -> Forall q ps -> Forall q (map (fun p => Point_new (px p) (py p)) ps)).
  { intros ps q F1 F2. apply Forall_map. rewrite Forall_forall in *. intros p I. unfold Point_new. change (@nround8 RA) with Rround8. destruct (F1 p I) as [G1 G2].
    rewrite !Rround8_id by (apply decimal8_grid; auto). specialize (F2 _ I). destruct p; auto. }
  assert (TW : forall (x : probes RA) (u : seg RA), length (pr_internal x) = 2%nat -> map snd (map (fun p : pt RA => (Point_new (px p) (py p), u)) (pr_internal x)) = [u; u]).
  { intros z u L. destruct (pr_internal z) as [|? [|? [|? ?]]]; try discriminate L. reflexivity. }
  assert (TE : forall (x : probes RA) (u : seg RA), length (pr_external x) = 2%nat -> map snd (map (fun p : pt RA => (Point_new (px p) (py p), u)) (pr_external x)) = [u; u]).
  { intros z u L. destruct (pr_external z) as [|? [|? [|? ?]]]; try discriminate L. reflexivity. }
  rewrite PI, PE, PF. rewrite !map_app. rewrite !map_map with (g := fst). cbn [fst].
  destruct T1 as (N1 & N2 & N3 & N4 & N5 & N6), T2 as (M1 & M2 & M3 & M4 & M5 & M6), T3 as (O1 & O2 & O3 & _), T4 as (Q1 & Q2 & Q3 & Q4 & Q5 & Q6), T5 as (U1 & U2 & U3 & U4 & U5 & U6), T6 as (V1 & V2 & V3 & _).
  apply Forall_app in N6 as [N6 _]. apply Forall_app in M6 as [_ M6]. apply Forall_app in Q6 as [Q6 _]. apply Forall_app in U6 as [_ U6].
  rewrite !TW, !TE, O3, V3 by auto. split; [reflexivity|]. split; [reflexivity|]. split; [reflexivity|]. split; apply Forall_app; split; apply RD; auto.
Qed.

(** ** Examples *)
Definition answer_for (l : list (seg RA)) (p : pt RA) : res bool :=
  Ok (forallb (fun s => if Rlt_dec 0 (orient (si s) (sj s) p) then true else false) l).
Lemma answer_right : forall l, right_answers (fun _ _ _ => answer_for l) l.
Proof.
  intros l m n k p. unfold answer_for. eexists. split; [reflexivity|]. split.
  - intros K. apply forallb_forall. intros s I. destruct (Rlt_dec _ _); auto.
  - intros (s & I & K). apply not_true_is_false. intros E. rewrite forallb_forall in E. specialize (E s I). destruct (Rlt_dec _ _) as [L|]; [lra|discriminate].
Qed.
(*@ex C80_example *)
(** Non-vacuity of C79 and C80: the Mantel with axis 1, base 2, diameters 4 and 6 and height 3 gets its eight points, and so does its graph. *)
Example mantel_example : let l := mantel_segments (A := RA) 2 1 4 6 3 in
  (exists r0 r1, mantel_intex (fun _ _ _ => answer_for l) 1 50000 (2 / 1000) (wall_segments l) = Ok (combine (wall_segments l) [r0; r1]) /\ two_and_two l r0 /\ two_and_two l r1) /\
  exists g, renew (fun _ => mantel_intex (fun _ _ _ => answer_for l) 1 50000 (2 / 1000) (wall_segments l)) (wall_segments l) = Ok g /\
    length (ip_int g) = 4%nat /\ length (ip_ext g) = 4%nat /\ ip_ind g = [].
Proof.
  intros l. assert (D : forall n, decimal8 (IZR n)) by (intros n; exists (n * 100000000)%Z; rewrite mult_IZR; field).
  assert (AB : Rabs (6 - 4) = 2) by (rewrite Rabs_right; lra).
  assert (D2 : decimal8 (4 / 2)) by (replace (4 / 2) with (IZR 2) by field; apply D). assert (D3 : decimal8 (6 / 2)) by (replace (6 / 2) with (IZR 3) by field; apply D). split.
  - apply (mantel_probes (fun _ _ _ => answer_for l) 2 1 4 6 3); auto; try lra; try (cbv zeta; rewrite AB; lra). apply answer_right.
  - destruct (mantel_graph (fun _ _ _ _ => answer_for l) 2 1 4 6 3) as (s & t & g & EW & EG & _ & MI & ME & MF & _); auto; try lra; try (cbv zeta; rewrite AB; lra).
    { intros _. apply answer_right. }
    exists g. fold l in EG. split; auto. apply (f_equal (@length _)) in MI, ME. rewrite map_length in MI, ME. auto.
Qed.
(*@ex C79_example *)
(** Non-vacuity of C79 for heads and flat ends: a head of diameter 4 above y = 2 with axis 1, and a plate of diameter 4 there. *)
Example head_example : (exists left right, head_intex (A := RA) 2 1 4 1 (head_graph 2 1 4 1) = Ok (combine (head_graph 2 1 4 1) [left; right]) /\
    length (pr_internal left) = 2%nat /\ length (pr_external right) = 1%nat /\ Forall (under_roof 2 1 4 1 (Rmax (1 / 10) (4 / 1000))) (pr_internal left) /\ Forall (beside 1 (-1)) (pr_internal left ++ pr_external left)) /\
  exists s a b, flachboden_intex (A := RA) 2 1 4 (flachboden_segments 2 1 4) = [(s, mkprobes [] [] [a; b])] /\ py b < 2 < py a.
Proof.
  assert (D : forall n, decimal8 (IZR n)) by (intros n; exists (n * 100000000)%Z; rewrite mult_IZR; field). split.
  - destruct (head_probes 2 1 4 1) as (l & r & E & K); auto; try lra. exists l, r. split; [exact E|].
    destruct (K l (-1)) as (A1 & A2 & A3 & A4 & A5 & A6); auto. destruct (K r 1) as (B1 & B2 & B3 & B4 & B5 & B6); auto.
  - destruct (flat_probes 2 1 4) as (_ & s & a & b & _ & E & _ & _ & U & L & _); auto; try lra. { replace (4 / 2) with (IZR 2) by field. apply D. }
    exists s, a, b. auto.
Qed.
