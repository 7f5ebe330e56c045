(** Lemmas on segments over the exact reals: products, sides, boxes, intersection, distance. *)
From Coq Require Import Reals ZArith Lra Lia Bool List Psatz.
From Verif Require Import Base Arith ArithR MPoint MLine Spec PPoint.
Import ListNotations.
Local Open Scope R_scope.
#[local] Existing Instance RA.

Lemma scls_eqb_iff : forall a b, scls_eqb a b = true <-> a = b.
Proof. intros [] []; simpl; split; congruence. Qed.
Lemma scls_eqb_refl : forall a, scls_eqb a a = true.
Proof. intros []; reflexivity. Qed.
Lemma scls_eqb_sym : forall a b, scls_eqb a b = scls_eqb b a.
Proof. intros [] []; reflexivity. Qed.

Ltac rb :=
  repeat match goal with
  | H : Rltb _ _ = true |- _ => apply Rltb_true in H
  | H : Rltb _ _ = false |- _ => apply Rltb_false in H
  | H : Rleb _ _ = true |- _ => apply Rleb_true in H
  | H : Rleb _ _ = false |- _ => apply Rleb_false in H
  | H : Reqb _ _ = true |- _ => apply Reqb_true in H
  | H : Reqb _ _ = false |- _ => apply Reqb_false in H
  | H : _ && _ = true |- _ => apply andb_true_iff in H; destruct H
  | H : _ || _ = false |- _ => apply orb_false_iff in H; destruct H
  | H : negb _ = true |- _ => apply negb_true_iff in H
  | H : negb _ = false |- _ => apply negb_false_iff in H
  end.

Lemma crossproduct_R : forall s t : seg RA, crossproduct s t =
  (px (sj s) - px (si s)) * (py (sj t) - py (si t)) - (py (sj s) - py (si s)) * (px (sj t) - px (si t)).
Proof. intros. unfold crossproduct, delta_x, delta_y; ra. reflexivity. Qed.

Lemma dotproduct_R : forall s t : seg RA, dotproduct s t =
  (px (sj s) - px (si s)) * (px (sj t) - px (si t)) + (py (sj s) - py (si s)) * (py (sj t) - py (si t)).
Proof. intros. unfold dotproduct, delta_x, delta_y; ra. reflexivity. Qed.

Lemma norm_R : forall s : seg RA, norm s =
  sqrt ((px (sj s) - px (si s)) * (px (sj s) - px (si s)) + (py (sj s) - py (si s)) * (py (sj s) - py (si s))).
Proof. intros. unfold norm, delta_x, delta_y, sqr; ra. reflexivity. Qed.

Lemma norm_dist : forall s : seg RA, norm s = pt_distance (si s) (sj s).
Proof. intros. rewrite norm_R, pt_distance_R. f_equal. ring. Qed.

Lemma dist_distance : forall p q, dist p q = pt_distance p q.
Proof. intros; rewrite pt_distance_R. unfold dist. f_equal. ring. Qed.

Lemma is_parallel_iff : forall s t : seg RA, is_parallel s t = true <-> crossproduct s t = 0.
Proof.
  intros. unfold is_parallel; ra. destruct (Reqb (crossproduct s t) 0) eqn:E; rb; split; auto; try discriminate.
Qed.

Lemma is_parallel_false : forall s t : seg RA, is_parallel s t = false <-> crossproduct s t <> 0.
Proof. intros. rewrite <- is_parallel_iff. destruct (is_parallel s t); split; congruence. Qed.

Lemma nmin_R : forall a b : R, nmin a b = Rmin a b.
Proof.
  intros. unfold nmin; ra. destruct (Rltb b a) eqn:E; rb; unfold Rmin; destruct (Rle_dec a b); lra.
Qed.
Lemma nmax_R : forall a b : R, nmax a b = Rmax a b.
Proof.
  intros. unfold nmax; ra. destruct (Rltb a b) eqn:E; rb; unfold Rmax; destruct (Rle_dec a b); lra.
Qed.

Lemma cross_common_R : forall s p, crossproduct_commonstart s (LineSegment (si s) p) =
  Ok (orient (si s) (sj s) p).
Proof.
  intros. unfold crossproduct_commonstart. simpl. rewrite pt_eqb_refl. simpl.
  unfold orient; ra. reflexivity.
Qed.

(** * C07 *)

(*@ C07_products *)
(** C07: antisymmetry/symmetry, sign change under reversal of one operand, invariance under
    translation of one operand. *)
Lemma products : forall (s t : seg RA) (u v : R),
  crossproduct s t = - crossproduct t s /\ dotproduct s t = dotproduct t s /\
  crossproduct (seg_reverse s) t = - crossproduct s t /\ dotproduct (seg_reverse s) t = - dotproduct s t /\
  crossproduct (seg_translate u v s) t = crossproduct s t /\
  dotproduct (seg_translate u v s) t = dotproduct s t /\
  crossproduct s s = 0 /\ dotproduct s s = norm s * norm s.
Proof.
  intros. rewrite !crossproduct_R, !dotproduct_R, norm_R.
  unfold seg_reverse, seg_translate, translate; simpl. ra.
  repeat split; try ring. rewrite sqrt_sqrt by apply sum_sq_nonneg. ring.
Qed.

(*@ C07_parallel *)
(** C07: parallelity is reflexive, symmetric, direction-insensitive; [is_intersecting] is its negation. *)
Lemma parallel_laws : forall s t : seg RA,
  is_parallel s s = true /\ is_parallel s t = is_parallel t s /\
  is_parallel (seg_reverse s) t = is_parallel s t /\
  is_intersecting s t = negb (is_parallel s t) /\
  (is_parallel s t = true <->
   (px (sj s) - px (si s)) * (py (sj t) - py (si t)) = (py (sj s) - py (si s)) * (px (sj t) - px (si t))).
Proof.
  intros. destruct (products s t 0 0) as (E1 & _ & E3 & _ & _ & _ & E7 & _).
  repeat split.
  - apply is_parallel_iff; auto.
  - apply eq_true_iff_eq. rewrite !is_parallel_iff, E1. split; lra.
  - apply eq_true_iff_eq. rewrite !is_parallel_iff, E3. split; lra.
  - rewrite is_parallel_iff, crossproduct_R. lra.
  - rewrite is_parallel_iff, crossproduct_R. lra.
Qed.

(*@ C07_parallel_trans *)
(** C07: parallelity is transitive through a segment with distinct endpoints. *)
Lemma parallel_trans : forall s t r : seg RA,
  (px (si t) <> px (sj t) \/ py (si t) <> py (sj t)) ->
  is_parallel s t = true -> is_parallel t r = true -> is_parallel s r = true.
Proof.
  intros s t r N. rewrite !is_parallel_iff, !crossproduct_R.
  set (a := px (sj s) - px (si s)). set (b := py (sj s) - py (si s)).
  assert (px (sj t) - px (si t) <> 0 \/ py (sj t) - py (si t) <> 0) as N' by lra.
  revert N'. set (c := px (sj t) - px (si t)). set (d := py (sj t) - py (si t)).
  set (e := px (sj r) - px (si r)). set (f := py (sj r) - py (si r)).
  intros [H|H] H1 H2.
  - apply (Rmult_eq_reg_r c); auto. replace ((a * f - b * e) * c) with (a * (c * f - d * e) + e * (a * d - b * c)) by ring.
    rewrite H1, H2. ring.
  - apply (Rmult_eq_reg_r d); auto. replace ((a * f - b * e) * d) with (b * (c * f - d * e) + f * (a * d - b * c)) by ring.
    rewrite H1, H2. ring.
Qed.

(** * C08 *)
Lemma right_iff : forall s p, is_point_to_right s p = true <-> orient (si s) (sj s) p < 0.
Proof.
  intros. unfold is_point_to_right. rewrite crossproduct_R. unfold orient; simpl; ra.
  match goal with |- context [Rltb ?a 0] => destruct (Rltb a 0) eqn:E end; rb; [tauto|].
  match goal with |- context [Rltb ?a ?b] => destruct (Rltb a b) end; split; try discriminate; intros; lra.
Qed.

Lemma on_line_R : forall s p, is_point_on_line s p =
  Ok (pt_eqb p (si s) || pt_eqb p (sj s) || Rltb (Rabs (orient (si s) (sj s) p)) (1/100000000)).
Proof.
  intros. unfold is_point_on_line. destruct (pt_eqb p (si s) || pt_eqb p (sj s)); auto.
  rewrite cross_common_R. ra. reflexivity.
Qed.

(*@ C08_sides *)
(** C08: "right" is exactly negative signed area; the side queries never raise; left and right
    exclude each other; off the line exactly one holds. *)
Lemma sides : forall (s : seg RA) (p : pt RA),
  (is_point_to_right s p = true <-> orient (si s) (sj s) p < 0) /\
  exists on left, is_point_on_line s p = Ok on /\ is_point_to_left s p = Ok left /\
    (left = true <-> on = false /\ 0 < orient (si s) (sj s) p) /\
    ~ (left = true /\ is_point_to_right s p = true) /\
    (on = false -> left = negb (is_point_to_right s p)).
Proof.
  intros. split; [apply right_iff|].
  unfold is_point_to_left. rewrite on_line_R. simpl.
  do 2 eexists. split; [reflexivity|]. split; [reflexivity|].
  set (on := _ || _ || _) at 1 2 3 4 5.
  assert (on = false -> 1/100000000 <= Rabs (orient (si s) (sj s) p)) as ON.
  { unfold on. intros H. rb. auto. }
  pose proof (right_iff s p) as RI.
  destruct on; repeat split; try discriminate; intros; try (intuition discriminate).
  - destruct (is_point_to_right s p); [discriminate|].
    specialize (ON eq_refl).
    destruct (Rlt_dec (orient (si s) (sj s) p) 0) as [L|L]; [apply RI in L; discriminate|].
    rewrite Rabs_right in ON; lra.
  - destruct (is_point_to_right s p) eqn:E; auto. destruct H as [_ H]. destruct RI as [RI _].
    specialize (RI eq_refl). lra.
  - destruct (is_point_to_right s p); simpl; intuition discriminate.
Qed.

Lemma orient_swap : forall a b p, orient b a p = - orient a b p.
Proof. intros; unfold orient; ring. Qed.

(*@ C08_sides_reverse *)
(** C08: reversing the segment keeps the on-line answer and swaps the strict sides; translating
    segment and point together changes nothing. *)
Lemma sides_reverse : forall (s : seg RA) (p : pt RA) (u v : R),
  is_point_on_line (seg_reverse s) p = is_point_on_line s p /\
  (is_point_on_line s p = Ok false ->
     is_point_to_left (seg_reverse s) p = Ok (is_point_to_right s p) /\
     is_point_to_left s p = Ok (is_point_to_right (seg_reverse s) p)) /\
  is_point_on_line (seg_translate u v s) (translate u v p) = is_point_on_line s p /\
  is_point_to_right (seg_translate u v s) (translate u v p) = is_point_to_right s p /\
  is_point_to_left (seg_translate u v s) (translate u v p) = is_point_to_left s p.
Proof.
  assert (forall s p, is_point_on_line (seg_reverse s) p = is_point_on_line s p) as R1.
  { intros. rewrite !on_line_R. simpl. rewrite orient_swap, Rabs_Ropp.
    rewrite (orb_comm (pt_eqb p (sj s))). reflexivity. }
  assert (forall u v p q, pt_eqb (translate u v p) (translate u v q) = pt_eqb p q) as TE.
  { intros. unfold pt_eqb, translate; ra; simpl.
    replace (px p + u - (px q + u)) with (px p - px q) by ring.
    replace (py p + v - (py q + v)) with (py p - py q) by ring. reflexivity. }
  assert (forall u v a b c, orient (translate u v a) (translate u v b) (translate u v c) = orient a b c) as TO.
  { intros. unfold orient, translate; simpl. ring. }
  assert (forall u v s p, is_point_on_line (seg_translate u v s) (translate u v p) = is_point_on_line s p) as T1.
  { intros. rewrite !on_line_R. simpl. rewrite !TE, TO. reflexivity. }
  assert (forall u v s p, is_point_to_right (seg_translate u v s) (translate u v p) = is_point_to_right s p) as T2.
  { intros. apply eq_true_iff_eq. rewrite !right_iff. simpl. rewrite TO. tauto. }
  intros. split; [apply R1|]. split; [|split; [apply T1|split; [apply T2|]]].
  - intros ON.
    assert (is_point_to_right (seg_reverse s) p = negb (is_point_to_right s p)) as RR.
    { apply eq_true_iff_eq. rewrite negb_true_iff.
      destruct (sides s p) as (_ & on & lft & ON' & _ & _ & _ & _). 
      rewrite on_line_R in ON. injection ON as ON. rb.
      pose proof (right_iff s p) as A. pose proof (right_iff (seg_reverse s) p) as B.
      simpl in B. rewrite orient_swap in B. rewrite B.
      destruct (is_point_to_right s p).
      - split; try discriminate. destruct A as [A _]. specialize (A eq_refl). lra.
      - split; auto. intros _. 
        destruct (Rlt_dec (orient (si s) (sj s) p) 0) as [L|L]; [apply A in L; discriminate|].
        rewrite Rabs_right in H0; lra. }
    unfold is_point_to_left. rewrite R1, ON. simpl. rewrite RR, negb_involutive. auto.
  - unfold is_point_to_left. rewrite T1, T2. reflexivity.
Qed.

(** * C09 *)

(*@ C09_on_line_iff *)
(** C09: the on-line test, and that every exact point of the line passes it. *)
Lemma on_line_iff : forall (s : seg RA) (p : pt RA),
  (is_point_on_line s p = Ok true <->
     pt_eqb p (si s) = true \/ pt_eqb p (sj s) = true \/ Rabs (orient (si s) (sj s) p) < / 10^8) /\
  (on_line (si s) (sj s) p -> is_point_on_line s p = Ok true) /\
  (exists b, is_point_on_line s p = Ok b).
Proof.
  intros. rewrite on_line_R.
  assert ((Ok (pt_eqb p (si s) || pt_eqb p (sj s) || Rltb (Rabs (orient (si s) (sj s) p)) (1/100000000)) = Ok true)
    <-> pt_eqb p (si s) = true \/ pt_eqb p (sj s) = true \/ Rabs (orient (si s) (sj s) p) < / 10^8) as E.
  { replace (/ 10^8) with (1/100000000) by field. rewrite <- Rltb_true.
    destruct (pt_eqb p (si s)), (pt_eqb p (sj s)), (Rltb _ _); simpl; split; auto; intuition congruence. }
  split; [exact E|]. split; [|eauto].
  intros [t ->]. apply E. right; right.
  replace (orient (si s) (sj s) (along (si s) (sj s) t)) with 0 by (unfold orient, along; simpl; ring).
  rewrite Rabs_R0. lra.
Qed.

(*@ C09_on_line_distance *)
(** C09: apart from points [==] to an endpoint, the on-line test bounds the distance to the line:
    distance * length < 1e-8. *)
Lemma on_line_distance : forall (s : seg RA) (p : pt RA) (d : R),
  pt_eqb p (si s) = false -> pt_eqb p (sj s) = false ->
  line_point_distance s p = Ok d ->
  (is_point_on_line s p = Ok true <-> d * norm s < / 10^8).
Proof.
  intros s p d H1 H2 D. rewrite on_line_R, H1, H2. cbn [orb].
  unfold line_point_distance, pdiv in D; ra.
  destruct (Reqb (norm s) 0) eqn:E; [discriminate|]. rb.
  injection D as <-.
  replace (Rabs _ / norm s * norm s) with (Rabs (orient (si s) (sj s) p)).
  2:{ replace ((py (sj s) - py (si s)) * px p - (px (sj s) - px (si s)) * py p
              + px (sj s) * py (si s) - py (sj s) * px (si s)) with (- orient (si s) (sj s) p)
        by (unfold orient; ring). rewrite Rabs_Ropp. field. exact E. }
  replace (/ 10^8) with (1/100000000) by field.
  rewrite <- Rltb_true. destruct (Rltb _ _); split; congruence.
Qed.

Lemma internal_iff_R : forall s p, ls_is_internal_point s p = true <->
  Rmin (px (si s)) (px (sj s)) - 1/100000000 < px p <= Rmax (px (si s)) (px (sj s)) + 1/100000000 /\
  Rmin (py (si s)) (py (sj s)) - 1/100000000 <= py p <= Rmax (py (si s)) (py (sj s)) + 1/100000000.
Proof.
  intros. unfold ls_is_internal_point. rewrite !nmin_R, !nmax_R. ra.
  rewrite !andb_true_iff, Rltb_true, !Rleb_true. tauto.
Qed.

(*@ C09_internal_iff *)
(** C09: the box test; only the left edge is exclusive; every point of the segment is internal. *)
Lemma internal_iff : forall (s : seg RA) (p : pt RA),
  (ls_is_internal_point s p = true <->
   Rmin (px (si s)) (px (sj s)) - / 10^8 < px p /\ px p <= Rmax (px (si s)) (px (sj s)) + / 10^8 /\
   Rmin (py (si s)) (py (sj s)) - / 10^8 <= py p /\ py p <= Rmax (py (si s)) (py (sj s)) + / 10^8) /\
  ls_is_internal_point (seg_reverse s) p = ls_is_internal_point s p /\
  (on_segment (si s) (sj s) p -> ls_is_internal_point s p = true).
Proof.
  intros. split; [|split].
  - rewrite internal_iff_R. replace (/ 10^8) with (1/100000000) by field. tauto.
  - apply eq_true_iff_eq. rewrite !internal_iff_R. unfold seg_reverse; simpl.
    rewrite (Rmin_comm (px (sj s))), (Rmax_comm (px (sj s))), (Rmin_comm (py (sj s))), (Rmax_comm (py (sj s))). tauto.
  - intros [t [Ht ->]]. apply internal_iff_R. unfold along; simpl.
    assert (forall a b, Rmin a b <= a + t * (b - a) <= Rmax a b) as G.
    { intros. unfold Rmin, Rmax. destruct (Rle_dec a b); nra. }
    pose proof (G (px (si s)) (px (sj s))). pose proof (G (py (si s)) (py (sj s))). lra.
Qed.

(*@ C09_internal_mirror_refuted *)
(** C09, finding: the box test is not invariant under mirroring: a point at exactly 1e-8 left of a
    segment is outside, its mirror image 1e-8 right of the mirrored segment is inside. *)
Lemma internal_mirror_refuted : exists (s : seg RA) (p : pt RA),
  let m q := @mkpt RA (- px q) (py q) in
  ls_is_internal_point s p = false /\
  ls_is_internal_point (mkseg (sc s) (m (si s)) (m (sj s))) (m p) = true.
Proof.
  exists (LineSegment (@mkpt RA 0 0) (@mkpt RA 1 0)), (@mkpt RA (- (1/100000000)) 0). simpl.
  split.
  - destruct (ls_is_internal_point _ _) eqn:E; auto. apply internal_iff_R in E; simpl in E.
    unfold Rmin, Rmax in E. repeat destruct (Rle_dec _ _); lra.
  - apply internal_iff_R; simpl. unfold Rmin, Rmax.
    repeat destruct (Rle_dec _ _); lra.
Qed.

(*@ C09_box_not_line_refuted *)
(** C09, finding: [is_internal_point] alone does not mean "on the segment". *)
Lemma box_not_line_refuted : exists (s : seg RA) (p : pt RA),
  ls_is_internal_point s p = true /\ ~ on_line (si s) (sj s) p.
Proof.
  exists (LineSegment (@mkpt RA 0 0) (@mkpt RA 1 1)), (@mkpt RA 1 0). split.
  - apply internal_iff_R; simpl. unfold Rmin, Rmax. repeat destruct (Rle_dec _ _); lra.
  - intros [t H]. unfold along in H; simpl in H. injection H as H1 H2. lra.
Qed.

(** * C10 *)

(** The determinant of the direction vectors. *)
Definition ip_x (s t : seg RA) : R :=
  ((px (si s) * py (sj s) - py (si s) * px (sj s)) * (px (si t) - px (sj t))
   - (px (si s) - px (sj s)) * (px (si t) * py (sj t) - py (si t) * px (sj t))) / crossproduct s t.
Definition ip_y (s t : seg RA) : R :=
  ((px (si s) * py (sj s) - py (si s) * px (sj s)) * (py (si t) - py (sj t))
   - (py (si s) - py (sj s)) * (px (si t) * py (sj t) - py (si t) * px (sj t))) / crossproduct s t.

Lemma intersection_point_R : forall s t, crossproduct s t <> 0 ->
  intersection_point s t = Ok (Some (Point_new (ip_x s t) (ip_y s t))).
Proof.
  intros s t H. unfold intersection_point.
  replace (is_parallel s t) with false by (symmetry; apply is_parallel_false; auto).
  unfold pdiv; ra. unfold ip_x, ip_y.
  assert ((px (si s) - px (sj s)) * (py (si t) - py (sj t)) -
          (py (si s) - py (sj s)) * (px (si t) - px (sj t)) = crossproduct s t) as D
    by (rewrite crossproduct_R; ring).
  rewrite D.
  destruct (Reqb (crossproduct s t) 0) eqn:E; rb; [contradiction|]. reflexivity.
Qed.

Lemma ip_on_first : forall s t, crossproduct s t <> 0 ->
  exists a, @mkpt RA (ip_x s t) (ip_y s t) = along (si s) (sj s) a.
Proof.
  intros s t H.
  exists (((px (si t) - px (si s)) * (py (sj t) - py (si t)) - (py (si t) - py (si s)) * (px (sj t) - px (si t))) / crossproduct s t).
  unfold ip_x, ip_y, along; rewrite crossproduct_R in *. apply pt_ext; simpl; field; exact H.
Qed.

Lemma ip_sym : forall s t, crossproduct s t <> 0 -> ip_x s t = ip_x t s /\ ip_y s t = ip_y t s.
Proof.
  intros s t H. unfold ip_x, ip_y. rewrite crossproduct_R in H.
  rewrite (crossproduct_R s t), (crossproduct_R t s).
  split; field; split; auto; intro; apply H; lra.
Qed.

Lemma ip_on_second : forall s t, crossproduct s t <> 0 ->
  exists a, @mkpt RA (ip_x s t) (ip_y s t) = along (si t) (sj t) a.
Proof.
  intros s t H. destruct (ip_sym s t H) as [-> ->]. apply ip_on_first.
  destruct (products t s 0 0) as [-> _]. lra.
Qed.

(** Two lines with independent directions meet in one point only. *)
Lemma lines_unique : forall s t p q, crossproduct s t <> 0 ->
  on_line (si s) (sj s) p -> on_line (si t) (sj t) p ->
  on_line (si s) (sj s) q -> on_line (si t) (sj t) q -> p = q.
Proof.
  intros s t p q H [a ->] [b Hb] [c ->] [d Hd].
  rewrite crossproduct_R in H.
  unfold along in *. injection Hb as B1 B2. injection Hd as D1 D2.
  set (ux := px (sj s) - px (si s)) in *. set (uy := py (sj s) - py (si s)) in *.
  set (vx := px (sj t) - px (si t)) in *. set (vy := py (sj t) - py (si t)) in *.
  assert ((a - c) * ux = (b - d) * vx) as X by lra.
  assert ((a - c) * uy = (b - d) * vy) as Y by lra.
  assert ((a - c) * (ux * vy - uy * vx) = 0).
  { replace ((a - c) * (ux * vy - uy * vx)) with ((a-c) * ux * vy - (a-c)*uy * vx) by ring.
    rewrite X, Y. ring. }
  apply Rmult_integral in H0 as [H0|H0]; [|contradiction].
  replace a with c by lra. reflexivity.
Qed.

(*@ C10_intersection_point *)
(** C10: None exactly for parallel segments, never an exception; otherwise the unique common point of
    the two lines, rounded to 8 decimals. *)
Lemma intersection_point_spec : forall s t : seg RA,
  (intersection_point s t = Ok None <-> is_parallel s t = true) /\
  (is_parallel s t = false ->
   exists q : pt RA, intersection_point s t = Ok (Some (Point_new (px q) (py q))) /\
     on_line (si s) (sj s) q /\ on_line (si t) (sj t) q /\
     forall q', on_line (si s) (sj s) q' -> on_line (si t) (sj t) q' -> q' = q).
Proof.
  intros. split.
  - split; intros H.
    + destruct (is_parallel s t) eqn:E; auto. apply is_parallel_false in E.
      rewrite intersection_point_R in H by auto. discriminate.
    + unfold intersection_point. rewrite H. reflexivity.
  - intros H. apply is_parallel_false in H.
    exists (@mkpt RA (ip_x s t) (ip_y s t)). split; [apply intersection_point_R; auto|].
    split; [apply ip_on_first; auto|]. split; [apply ip_on_second; auto|].
    intros q' A B. eapply lines_unique; eauto; [apply ip_on_first|apply ip_on_second]; auto.
Qed.

Lemma ip_reverse : forall s t, crossproduct s t <> 0 ->
  ip_x (seg_reverse s) t = ip_x s t /\ ip_y (seg_reverse s) t = ip_y s t.
Proof.
  intros s t H. unfold ip_x, ip_y, seg_reverse; rewrite !crossproduct_R in *; simpl in *.
  split; field; split; auto; intro; apply H; lra.
Qed.

(*@ C10_intersection_symmetric *)
(** C10: the result depends neither on the order of the segments nor on their directions. *)
Lemma intersection_symmetric : forall s t : seg RA,
  intersection_point s t = intersection_point t s /\
  intersection_point (seg_reverse s) t = intersection_point s t /\
  intersection_point s (seg_reverse t) = intersection_point s t.
Proof.
  assert (forall s t, intersection_point s t = intersection_point t s) as S.
  { intros. destruct (is_parallel s t) eqn:E.
    - unfold intersection_point. destruct (parallel_laws s t) as (_ & P & _). rewrite <- P, E. reflexivity.
    - apply is_parallel_false in E.
      assert (crossproduct t s <> 0) by (destruct (products t s 0 0) as [-> _]; lra).
      rewrite !intersection_point_R by auto. destruct (ip_sym s t E) as [-> ->]. reflexivity. }
  assert (forall s t, intersection_point (seg_reverse s) t = intersection_point s t) as V.
  { intros. destruct (parallel_laws s t) as (_ & _ & P & _).
    destruct (is_parallel s t) eqn:E.
    - unfold intersection_point. rewrite P, E. reflexivity.
    - apply is_parallel_false in P. apply is_parallel_false in E.
      rewrite !intersection_point_R by auto. destruct (ip_reverse s t E) as [-> ->]. reflexivity. }
  intros. split; [apply S|]. split; [apply V|]. rewrite S, V. apply S.
Qed.

(*@ C10_intersection_error *)
(** C10: the returned point is within 1e-8 of the exact common point of both lines. *)
Lemma intersection_error : forall (s t : seg RA) (p : pt RA),
  intersection_point s t = Ok (Some p) ->
  exists q, on_line (si s) (sj s) q /\ on_line (si t) (sj t) q /\ dist p q < / 10^8.
Proof.
  intros s t p H. destruct (is_parallel s t) eqn:E.
  - apply (proj2 (proj1 (intersection_point_spec s t))) in E. congruence.
  - destruct (proj2 (intersection_point_spec s t) E) as (q & Q & A & B & _).
    rewrite Q in H. injection H as <-. exists q. split; auto. split; auto.
    unfold dist, Point_new; ra; simpl px; simpl py.
    pose proof (Rround8_err (px q)) as X. pose proof (Rround8_err (py q)) as Y.
    apply Rabs_le_inv in X. apply Rabs_le_inv in Y.
    apply Rlt_le_trans with (sqrt (/ 10^16)).
    + set (x := Rround8 (px q) - px q) in *. set (y := Rround8 (py q) - py q) in *.
      assert (0 <= x ^ 2 <= 25 / 10^18) by (simpl; nra).
      assert (0 <= y ^ 2 <= 25 / 10^18) by (simpl; nra).
      apply sqrt_lt_1_alt. lra.
    + replace (/ 10^16) with (/ 10^8 * / 10^8) by field. rewrite sqrt_square; lra.
Qed.

(*@ex C10_example *)
Lemma intersection_example :
  intersection_point (LineSegment (@mkpt RA 0 0) (@mkpt RA 2 2)) (LineSegment (@mkpt RA 0 2) (@mkpt RA 2 0))
  = Ok (Some (@mkpt RA 1 1)).
Proof.
  rewrite intersection_point_R by (rewrite crossproduct_R; simpl; lra).
  unfold ip_x, ip_y. rewrite crossproduct_R. simpl.
  unfold Point_new; ra. rewrite !Rround8_id.
  - do 2 f_equal. f_equal; field.
  - exists 100000000%Z. field.
  - exists 100000000%Z. field.
Qed.

(** * C11 *)
Lemma norm_pos_iff : forall s : seg RA, norm s = 0 <-> px (si s) = px (sj s) /\ py (si s) = py (sj s).
Proof. intros. rewrite norm_dist. apply pt_distance_zero. Qed.

Lemma norm_nonneg : forall s : seg RA, 0 <= norm s.
Proof. intros. rewrite norm_R. apply sqrt_pos. Qed.

Lemma norm_sq : forall s : seg RA, norm s * norm s =
  (px (sj s) - px (si s)) * (px (sj s) - px (si s)) + (py (sj s) - py (si s)) * (py (sj s) - py (si s)).
Proof. intros. rewrite norm_R. apply sqrt_sqrt, sum_sq_nonneg. Qed.

(*@ C11_line_point_distance *)
(** C11: the distance from the point to the nearest point of the infinite line; ZeroDivisionError
    exactly when the endpoints coincide. *)
Lemma line_point_distance_spec : forall (s : seg RA) (p : pt RA),
  (line_point_distance s p = Err ZeroDivisionError <-> px (si s) = px (sj s) /\ py (si s) = py (sj s)) /\
  (~ (px (si s) = px (sj s) /\ py (si s) = py (sj s)) ->
   exists d, line_point_distance s p = Ok d /\
     (exists q, on_line (si s) (sj s) q /\ dist p q = d) /\
     (forall q, on_line (si s) (sj s) q -> d <= dist p q)).
Proof.
  intros. rewrite <- norm_pos_iff. unfold line_point_distance, pdiv; ra.
  destruct (Reqb (norm s) 0) eqn:E; rb.
  { split; [tauto|]. intros; contradiction. }
  split; [split; [discriminate|contradiction]|]. intros _.
  eexists; split; [reflexivity|].
  pose proof (norm_nonneg s) as NN. pose proof (norm_sq s) as NS.
  assert (0 < norm s) as NP by lra.
  set (o := orient (si s) (sj s) p).
  replace ((py (sj s) - py (si s)) * px p - (px (sj s) - px (si s)) * py p
            + px (sj s) * py (si s) - py (sj s) * px (si s)) with (- o)
        by (unfold o, orient; ring).
  rewrite Rabs_Ropp.
  set (ux := px (sj s) - px (si s)) in *. set (uy := py (sj s) - py (si s)) in *.
  assert (0 < ux * ux + uy * uy) as UP by (rewrite <- NS; nra).
  assert (Rabs o / norm s = sqrt (o * o / (ux * ux + uy * uy))) as SQ.
  { rewrite sqrt_div_alt by auto. rewrite <- NS, (sqrt_square (norm s)) by lra.
    replace (o * o) with (Rsqr o) by reflexivity. rewrite sqrt_Rsqr_abs. reflexivity. }
  rewrite SQ.
  assert (forall t, (px p - px (along (si s) (sj s) t)) ^ 2 + (py p - py (along (si s) (sj s) t)) ^ 2
     = o * o / (ux * ux + uy * uy)
       + (ux * ux + uy * uy) * (t - ((px p - px (si s)) * ux + (py p - py (si s)) * uy) / (ux * ux + uy * uy)) ^ 2) as DEC.
  { intros t. unfold o, orient, along; simpl px; simpl py.
    unfold ux, uy in *. field. lra. }
  split.
  - exists (along (si s) (sj s) (((px p - px (si s)) * ux + (py p - py (si s)) * uy) / (ux * ux + uy * uy))).
    split; [eexists; reflexivity|]. unfold dist. rewrite DEC. f_equal. ring.
  - intros q [t ->]. unfold dist. apply sqrt_le_1_alt. rewrite DEC.
    assert (0 <= (ux * ux + uy * uy) * (t - ((px p - px (si s)) * ux + (py p - py (si s)) * uy) / (ux * ux + uy * uy)) ^ 2).
    { apply Rmult_le_pos; [lra|]. apply pow2_ge_0. }
    lra.
Qed.

(** * C12 *)
Definition coincide_R (p q : pt RA) : Prop := p = q.

Lemma touch_iff : forall s t : seg RA, touch s t = true <->
  (length (set_inter pt_sameb (ij s) (ij t)) = 1%nat \/
   exists a b, In a (ij s) /\ In b (ij t) /\ pt_distance a b < 1/100000000).
Proof.
  intros. unfold touch. rewrite orb_true_iff, Nat.eqb_eq, existsb_exists.
  split; intros [H|H]; auto; right.
  - destruct H as (a & Ha & H). apply existsb_exists in H as (b & Hb & H).
    ra. rb. eauto.
  - destruct H as (a & b & Ha & Hb & H). exists a. split; auto. apply existsb_exists. exists b.
    split; auto. ra. apply Rltb_true. auto.
Qed.

(** [touch] is: some endpoint of one is closer than 1e-8 to some endpoint of the other. *)
Lemma touch_near : forall s t : seg RA, touch s t = true <->
  exists a b, In a (ij s) /\ In b (ij t) /\ pt_distance a b < 1/100000000.
Proof.
  intros. rewrite touch_iff. split; [|auto]. intros [H|H]; auto.
  destruct (set_inter pt_sameb (ij s) (ij t)) as [|x l] eqn:E; [discriminate|].
  assert (In x (set_inter pt_sameb (ij s) (ij t))) as I by (rewrite E; left; auto).
  apply set_inter_In in I; [|apply pt_sameb_iff]. destruct I.
  exists x, x. split; auto. split; auto.
  replace (pt_distance x x) with 0 by (symmetry; apply pt_distance_zero; auto). lra.
Qed.

(*@ C12_touch_iff *)
(** C12: [touch] means that an endpoint of one is closer than 1e-8 to an endpoint of the other; where
    different endpoints are at least 1e-8 apart this is a common endpoint. It is symmetric. *)
Lemma touch_spec : forall s t : seg RA,
  let near p q := dist p q < / 10^8 in
  (touch s t = true <->
     near (si s) (si t) \/ near (si s) (sj t) \/ near (sj s) (si t) \/ near (sj s) (sj t)) /\
  touch s t = touch t s /\
  ((forall p q, In p [si s; sj s] -> In q [si t; sj t] -> p = q \/ / 10^8 <= dist p q) ->
   (touch s t = true <-> si s = si t \/ si s = sj t \/ sj s = si t \/ sj s = sj t)).
Proof.
  intros s t near.
  assert (forall s t, touch s t = true <->
     near (si s) (si t) \/ near (si s) (sj t) \/ near (sj s) (si t) \/ near (sj s) (sj t)) as T.
  { intros s0 t0. rewrite touch_near. unfold near. rewrite !dist_distance.
    replace (/ 10^8) with (1/100000000) by field. unfold ij. split.
    - intros (a & b & [<-|[<-|[]]] & [<-|[<-|[]]] & H); auto.
    - intros [H|[H|[H|H]]]; do 2 eexists; (split; [|split; [|exact H]]); simpl; auto. }
  split; [apply T|]. split.
  { apply eq_true_iff_eq. rewrite !T. unfold near.
    assert (forall p q, dist p q = dist q p) as DS.
    { intros; rewrite !dist_distance; apply pt_distance_sym. }
    rewrite (DS (si t) (si s)), (DS (si t) (sj s)), (DS (sj t) (si s)), (DS (sj t) (sj s)). tauto. }
  intros SEP. rewrite T. unfold near.
  assert (forall p q, In p [si s; sj s] -> In q [si t; sj t] -> (dist p q < / 10^8 <-> p = q)) as E.
  { intros p q Hp Hq. split; intros H.
    - destruct (SEP p q Hp Hq); auto. lra.
    - subst q. rewrite dist_distance. replace (pt_distance p p) with 0 by (symmetry; apply pt_distance_zero; auto). lra. }
  rewrite !E by (simpl; auto). tauto.
Qed.

(*@ C12_continuous *)
(** C12: [continuous] is symmetric, implies [touch], and is exactly: touch and some end-to-start
    match. *)
Lemma continuous_spec : forall s t : seg RA,
  continuous s t = continuous t s /\
  (continuous s t = true -> touch s t = true) /\
  (continuous s t = true <-> touch s t = true /\ (pt_eqb (sj s) (si t) = true \/ pt_eqb (si s) (sj t) = true)).
Proof.
  intros s t. destruct (touch_spec s t) as (_ & TS & _).
  unfold continuous. rewrite <- TS.
  rewrite (pt_eqb_sym (sj t) (si s)), (pt_eqb_sym (si t) (sj s)), (orb_comm (pt_eqb (si s) (sj t))).
  destruct (touch s t), (pt_eqb (sj s) (si t)), (pt_eqb (si s) (sj t)); simpl; intuition congruence.
Qed.

(*@ C12_touch_only_one_refuted *)
(** C12, finding: "only one of their endpoints common" is not what [touch] checks: every segment
    touches itself and its reverse. *)
Lemma touch_only_one_refuted : forall s : seg RA, touch s s = true /\ touch s (seg_reverse s) = true.
Proof.
  intros. split; apply touch_near; exists (si s), (si s);
  rewrite (proj2 (pt_distance_zero (si s) (si s)) (conj eq_refl eq_refl)).
  - split; [left; reflexivity|]. split; [left; reflexivity|lra].
  - split; [left; reflexivity|]. split; [right; left; reflexivity|lra].
Qed.

(*@ C14_intersection_on_segment_sym *)
(** C14: [intersection_on_segment] is symmetric, insensitive to direction, and excludes touching and
    parallel segments. *)
Lemma ios_sym : forall s t : seg RA,
  intersection_on_segment s t = intersection_on_segment t s /\
  intersection_on_segment (seg_reverse s) t = intersection_on_segment s t /\
  (touch s t = true \/ is_parallel s t = true -> intersection_on_segment s t = Ok false) /\
  (exists b, intersection_on_segment s t = Ok b).
Proof.
  intros s t. destruct (touch_spec s t) as (T1 & TS & _).
  assert (touch (seg_reverse s) t = touch s t) as TR.
  { apply eq_true_iff_eq. rewrite !(proj1 (touch_spec _ _)). simpl. tauto. }
  destruct (intersection_symmetric s t) as (I1 & I2 & _).
  unfold intersection_on_segment. rewrite TR, I2, <- TS, <- I1.
  split; [|split; [|split]].
  - destruct (touch s t); auto. destruct (intersection_point s t) as [[p|]|]; simpl; auto.
    rewrite andb_comm. reflexivity.
  - destruct (touch s t); auto. destruct (intersection_point s t) as [[p|]|]; simpl; auto.
    destruct (internal_iff s p) as (_ & -> & _). reflexivity.
  - intros [->|P]; auto. destruct (touch s t); auto.
    apply (proj1 (intersection_point_spec s t)) in P. rewrite P. reflexivity.
  - destruct (touch s t); [eauto|].
    destruct (is_parallel s t) eqn:P.
    + apply (proj1 (intersection_point_spec s t)) in P. rewrite P. simpl. eauto.
    + apply is_parallel_false in P. rewrite intersection_point_R by auto. simpl. eauto.
Qed.

(** * C15 *)
Lemma set_eqb_pt : forall a b : list (pt RA), set_eqb pt_sameb a b = true <-> (forall x, In x a <-> In x b).
Proof. intros; apply set_eqb_iff, pt_sameb_iff. Qed.

(*@ C15_loose_equal_iff *)
(** C15: [loose_equal] is: same class and the same endpoints, in either order. *)
Lemma loose_equal_iff : forall s t : seg RA,
  seg_loose_equal s t = true <->
  sc s = sc t /\ ((si s = si t /\ sj s = sj t) \/ (si s = sj t /\ sj s = si t)).
Proof.
  intros. unfold seg_loose_equal. rewrite !andb_true_iff, scls_eqb_iff, set_eqb_pt. ra. rewrite Reqb_true.
  unfold ij. split.
  - intros [[C H] N]. split; auto.
    assert (In (si s) [si t; sj t]) as A by (apply H; simpl; auto).
    assert (In (sj s) [si t; sj t]) as B by (apply H; simpl; auto).
    assert (In (si t) [si s; sj s]) as D by (apply H; simpl; auto).
    assert (In (sj t) [si s; sj s]) as E by (apply H; simpl; auto).
    simpl in A, B, D, E. intuition congruence.
  - intros [C [[H1 H2]|[H1 H2]]]; (split; [split; auto|]).
    + rewrite H1, H2. tauto.
    + rewrite !norm_R, H1, H2. reflexivity.
    + rewrite H1, H2. simpl. tauto.
    + rewrite !norm_R, H1, H2. f_equal. ring.
Qed.

(*@ C15_loose_equal_equiv *)
(** C15: an equivalence relation, insensitive to reversal. *)
Lemma loose_equal_equiv : forall s t r : seg RA,
  seg_loose_equal s s = true /\ seg_loose_equal s t = seg_loose_equal t s /\
  (seg_loose_equal s t = true -> seg_loose_equal t r = true -> seg_loose_equal s r = true) /\
  seg_loose_equal (seg_reverse s) t = seg_loose_equal s t /\
  seg_loose_equal s (seg_reverse s) = true.
Proof.
  intros. split; [|split; [|split; [|split]]].
  - apply loose_equal_iff. auto.
  - apply eq_true_iff_eq. rewrite !loose_equal_iff. intuition congruence.
  - rewrite !loose_equal_iff. intuition congruence.
  - apply eq_true_iff_eq. rewrite !loose_equal_iff. unfold seg_reverse; simpl. intuition congruence.
  - apply loose_equal_iff. unfold seg_reverse; simpl. auto.
Qed.

(*@ C15_eq_not_loose_refuted *)
(** C15, finding: two segments can be [==] and yet not [loose_equal]. *)
Lemma eq_not_loose_refuted : exists s t : seg RA,
  stored (si s) /\ stored (sj s) /\ stored (si t) /\ stored (sj t) /\
  seg_eqb s t = true /\ seg_loose_equal s t = false.
Proof.
  exists (LineSegment (@mkpt RA 0 0) (@mkpt RA 1 0)), (LineSegment (@mkpt RA 0 0) (@mkpt RA (100000001/10^8) 0)).
  assert (forall k, exists k0 : Z, IZR k = IZR k0 / 10^8) as Z1.
  { intros k. exists (k * 100000000)%Z. rewrite mult_IZR. field. }
  split; [split; apply Z1|]. split; [split; apply Z1|]. split; [split; apply Z1|]. split.
  { split; simpl; [exists 100000001%Z; field | apply Z1]. }
  split.
  - unfold seg_eqb. simpl. rewrite pt_eqb_refl. simpl. apply pt_eqb_iff; simpl.
    split; apply Rabs_def1; lra.
  - destruct (seg_loose_equal _ _) eqn:E; auto. apply loose_equal_iff in E; simpl in E.
    destruct E as [_ [[_ E]|[E _]]]; injection E; intros; lra.
Qed.

(** * C16 *)

(*@ C16_reverse *)
(** C16: reversal is an involution with swapped endpoints that keeps length, class and bounding box;
    the copy of a plain segment is its reverse. *)
Lemma reverse_spec : forall s : seg RA,
  seg_reverse (seg_reverse s) = s /\
  si (seg_reverse s) = sj s /\ sj (seg_reverse s) = si s /\ sc (seg_reverse s) = sc s /\
  norm (seg_reverse s) = norm s /\ seg_bounding_box (seg_reverse s) = seg_bounding_box s /\
  si (line_reversed s) = sj s /\ sj (line_reversed s) = si s /\
  (sc s = CLineSegment -> line_reversed s = seg_reverse s).
Proof.
  intros [c i j]. unfold seg_reverse, line_reversed, seg_bounding_box. simpl. repeat split; auto.
  - rewrite !norm_R; simpl. f_equal. ring.
  - rewrite !nmin_R, !nmax_R. rewrite (Rmin_comm (px j)), (Rmax_comm (px j)), (Rmin_comm (py j)), (Rmax_comm (py j)).
    reflexivity.
  - intros ->. reflexivity.
Qed.

(*@ C16_line_reversed_class_refuted *)
(** C16, finding, any arithmetic: [line_reversed] of a Wall or NonWall is a plain LineSegment and so
    is never equal or loosely equal to any Wall/NonWall - not even to the reverse of itself. *)
Lemma line_reversed_class_refuted : forall (A : Arith) (s t : seg A),
  sc t <> CLineSegment ->
  seg_eqb (line_reversed s) t = false /\ seg_eqb t (line_reversed s) = false /\
  seg_loose_equal (line_reversed s) t = false /\ seg_loose_equal t (line_reversed s) = false.
Proof.
  intros A s t H. unfold seg_eqb, seg_loose_equal. simpl.
  destruct (sc t); simpl; auto. contradiction.
Qed.

(** * C18 *)

(*@ C18_norm_unitvector *)
(** C18: the length; the unit vector has length 1 and, times the length, gives the segment's vector. *)
Lemma norm_unitvector : forall (s : seg RA) (u v : R),
  norm s = dist (si s) (sj s) /\ norm (seg_translate u v s) = norm s /\ 0 <= norm s /\
  (pt_eqb (si s) (sj s) = true -> unitvector s = Ok (0, 0)) /\
  (pt_eqb (si s) (sj s) = false -> exists x y, unitvector s = Ok (x, y) /\ x ^ 2 + y ^ 2 = 1 /\
     norm s * x = px (sj s) - px (si s) /\ norm s * y = py (sj s) - py (si s)).
Proof.
  intros. split; [|split; [|split; [|split]]].
  - rewrite norm_dist, dist_distance. reflexivity.
  - rewrite !norm_R. unfold seg_translate, translate; simpl; ra. f_equal. ring.
  - apply norm_nonneg.
  - intros H. unfold unitvector, isnull. rewrite H. reflexivity.
  - intros H. unfold unitvector, isnull. rewrite H.
    assert (norm s <> 0) as NZ.
    { intros Z. apply norm_pos_iff in Z as [E1 E2]. apply pt_eqb_false_iff in H.
      rewrite E1, E2, !Rminus_diag_eq, Rabs_R0 in H by reflexivity. lra. }
    unfold pdiv; ra. destruct (Reqb (norm s) 0) eqn:E; rb; [contradiction|]. simpl.
    unfold delta_x, delta_y; ra.
    do 2 eexists; split; [reflexivity|]. split; [|split; field; auto].
    pose proof (norm_sq s) as NS.
    transitivity (((px (sj s) - px (si s)) * (px (sj s) - px (si s)) + (py (sj s) - py (si s)) * (py (sj s) - py (si s))) / (norm s * norm s)); [field; auto|].
    rewrite NS. field. rewrite <- NS. nra.
Qed.

(** * C22, C23 *)

(*@ C22_point_on_line_at_ratio *)
(** C22: rejected outside [0,1]; endpoints at 0 and 1; otherwise the point dividing the segment in
    that ratio, rounded; always internal to the segment for stored endpoints. *)
Lemma at_ratio_spec : forall (s : seg RA) (r : R),
  ((r < 0 \/ 1 < r) -> point_on_line_at_ratio s r = Err AssertionError) /\
  (0 <= r <= 1 -> stored (si s) -> stored (sj s) ->
   exists p, point_on_line_at_ratio s r = Ok p /\
     p = Point_new (px (along (si s) (sj s) r)) (py (along (si s) (sj s) r)) /\
     (r = 0 -> p = si s) /\ (r = 1 -> p = sj s) /\
     ls_is_internal_point s p = true).
Proof.
  intros s r. unfold point_on_line_at_ratio, assert_; ra. split.
  - intros H. destruct (Rleb 0 r) eqn:E1; destruct (Rleb r 1) eqn:E2; rb; simpl; auto. lra.
  - intros [H0 H1] [[a Ha] [b Hb]] [[c Hc] [d Hd]].
    replace (Rleb 0 r) with true by (symmetry; apply Rleb_true; auto).
    replace (Rleb r 1) with true by (symmetry; apply Rleb_true; auto). simpl.
    assert (grid_pt (si s)) as GI by (split; [exists a|exists b]; lra).
    assert (grid_pt (sj s)) as GJ by (split; [exists c|exists d]; lra).
    assert (forall a b, on_grid a -> on_grid b -> Rmin a b <= Rround8 (a + r * (b - a)) <= Rmax a b) as G.
    { intros u v Gu Gv. 
      assert (Rmin u v <= u + r * (v - u) <= Rmax u v) as [L U]
        by (unfold Rmin, Rmax; destruct (Rle_dec u v); nra).
      assert (on_grid (Rmin u v)) by (unfold Rmin; destruct (Rle_dec u v); auto).
      assert (on_grid (Rmax u v)) by (unfold Rmax; destruct (Rle_dec u v); auto).
      split; [rewrite <- (Rround8_id (Rmin u v)) by auto|rewrite <- (Rround8_id (Rmax u v)) by auto];
      apply Rround8_mono; auto. }
    set (P := Point_new _ _) at 2.
    assert (P = Point_new ((1 - r) * px (si s) + r * px (sj s)) ((1 - r) * py (si s) + r * py (sj s))) as PE.
    { unfold P, along. simpl. f_equal; ring. }
    assert (r = 0 -> P = si s) as P0.
    { intros ->. unfold P, along; simpl.
      assert (forall a b : R, a + 0 * (b - a) = a) as EE by (intros; ring). rewrite !EE.
      destruct GI. rewrite Point_new_id by auto. destruct (si s); reflexivity. }
    assert (r = 1 -> P = sj s) as P1.
    { intros ->. unfold P, along; simpl.
      assert (forall a b : R, a + 1 * (b - a) = b) as EE by (intros; ring). rewrite !EE.
      destruct GJ. rewrite Point_new_id by auto. destruct (sj s); reflexivity. }
    exists P. split.
    + destruct (Reqb r 0) eqn:E0; rb; [rewrite P0; auto|].
      destruct (Reqb r 1) eqn:E1; rb; [rewrite P1; auto|]. rewrite PE. reflexivity.
    + split; auto. split; auto. split; auto.
      destruct GI as [GIx GIy], GJ as [GJx GJy].
      pose proof (G _ _ GIx GJx). pose proof (G _ _ GIy GJy).
      apply internal_iff_R. unfold P, along, Point_new; ra; simpl. lra.
Qed.

(*@ C23_add_point_on_line *)
(** C23: the two pieces join at p between the old endpoints; False exactly outside the widened box;
    for p on the segment the lengths add up. *)
Lemma add_point_on_line_spec : forall (s : seg RA) (p : pt RA),
  (add_point_on_line s p = None <-> ls_is_internal_point s p = false) /\
  (forall a b, add_point_on_line s p = Some (a, b) ->
     si a = si s /\ sj a = p /\ si b = p /\ sj b = sj s) /\
  (on_segment (si s) (sj s) p -> exists a b, add_point_on_line s p = Some (a, b) /\
     norm a + norm b = norm s).
Proof.
  intros. unfold add_point_on_line. split; [|split].
  - destruct (ls_is_internal_point s p); split; congruence.
  - intros a b. destruct (ls_is_internal_point s p); [|discriminate].
    intros H. injection H as <- <-. simpl. auto.
  - intros H. destruct (internal_iff s p) as (_ & _ & I). rewrite (I H).
    do 2 eexists. split; [reflexivity|].
    destruct H as [t [Ht ->]]. rewrite !norm_R. unfold along; simpl.
    set (u := px (sj s) - px (si s)). set (v := py (sj s) - py (si s)).
    replace (px (si s) + t * u - px (si s)) with (t * u) by ring.
    replace (py (si s) + t * v - py (si s)) with (t * v) by ring.
    replace (px (sj s) - (px (si s) + t * u)) with ((1-t) * u) by (unfold u; ring).
    replace (py (sj s) - (py (si s) + t * v)) with ((1-t) * v) by (unfold v; ring).
    replace (t * u * (t * u) + t * v * (t * v)) with ((t * t) * (u * u + v * v)) by ring.
    replace ((1-t) * u * ((1-t) * u) + (1-t) * v * ((1-t) * v)) with (((1-t) * (1-t)) * (u * u + v * v)) by ring.
    rewrite (sqrt_mult (t*t)), (sqrt_mult ((1-t)*(1-t))) by nra. rewrite !sqrt_square by lra. ring.
Qed.

(** * C21 *)
Lemma pairs_length : forall X (l : list X), length (pairs l) = (length l - 1)%nat.
Proof.
  intros X l. induction l as [|x [|y t] IH]; auto.
  change (length ((x, y) :: pairs (y :: t)) = (length (x :: y :: t) - 1)%nat).
  cbn [length] in *. rewrite IH. lia.
Qed.

Lemma pairs_nth : forall X (l : list X) k a b, nth_error (pairs l) k = Some (a, b) <->
  nth_error l k = Some a /\ nth_error l (S k) = Some b.
Proof.
  intros X l. induction l as [|x l IH]; intros k a b.
  - simpl. destruct k; simpl; split; [discriminate|intros []; discriminate|discriminate|intros []; discriminate].
  - destruct l as [|y t].
    + simpl. destruct k as [|[|k]]; simpl; split; try discriminate; intros []; discriminate.
    + change (pairs (x :: y :: t)) with ((x, y) :: pairs (y :: t)).
      destruct k.
      * simpl. split; [intros H; inversion H; auto|]. intros [H1 H2]; congruence.
      * change (nth_error ((x, y) :: pairs (y :: t)) (S k)) with (nth_error (pairs (y :: t)) k).
        rewrite IH. reflexivity.
Qed.

Lemma mapM_ok : forall X Y (f : X -> res Y) (g : X -> Y) l, (forall x, In x l -> f x = Ok (g x)) -> mapM f l = Ok (map g l).
Proof.
  induction l as [|x xs IH]; simpl; intros H; auto.
  rewrite (H x) by auto. simpl. rewrite IH by auto. reflexivity.
Qed.

(** The k-th of n division points. *)
Definition division_point (s : seg RA) (n k : nat) : pt RA :=
  Point_new (px (along (si s) (sj s) (INR k / INR n))) (py (along (si s) (sj s) (INR k / INR n))).

Lemma divide_line_eq : forall (s : seg RA) (n : nat), (1 <= n)%nat ->
  divide_line s (Z.of_nat n) =
  Ok (map (fun '(p1, p2) => LineSegment p1 p2)
     (pairs (si s :: map (division_point s n) (seq 1 (n - 1)) ++ [sj s]))).
Proof.
  intros s n Hn. unfold divide_line. rewrite Nat2Z.id.
  assert (INR n <> 0) as NZ by (apply not_0_INR; lia).
  rewrite (mapM_ok _ _ _ (division_point s n)).
  2:{ intros k _. unfold divide_line_point, pdiv; ra. rewrite <- !INR_IZR_INZ.
      destruct (Reqb (INR n) 0) eqn:E; rb; [contradiction|]. simpl. unfold division_point, along; simpl.
      do 2 f_equal; field; auto. }
  reflexivity.
Qed.

(*@ C21_divide_line *)
(** C21: exactly n pieces; piece k runs from the k-th to the (k+1)-st division point, the first of
    them being i and the last j; the others i + k/n (j - i) rounded to 8 decimals. *)
Lemma divide_line_spec : forall (s : seg RA) (n : nat), (1 <= n)%nat ->
  exists l, divide_line s (Z.of_nat n) = Ok l /\ length l = n /\
    exists P : nat -> pt RA,
      P 0%nat = si s /\ P n = sj s /\
      (forall k, (0 < k < n)%nat -> P k = Point_new (px (si s) + INR k / INR n * (px (sj s) - px (si s)))
                                                    (py (si s) + INR k / INR n * (py (sj s) - py (si s)))) /\
      (forall k, (k < n)%nat -> nth_error l k = Some (LineSegment (P k) (P (S k)))).
Proof.
  intros s n Hn. rewrite divide_line_eq by auto. eexists; split; [reflexivity|].
  set (pts := si s :: map (division_point s n) (seq 1 (n - 1)) ++ [sj s]).
  assert (length pts = S n) as LP.
  { unfold pts. simpl. rewrite app_length, map_length, seq_length. simpl. lia. }
  split; [rewrite map_length, pairs_length, LP; lia|].
  exists (fun k => nth k pts (si s)).
  split; [reflexivity|]. split.
  { unfold pts. destruct n; [lia|]. change (nth (S n) (si s :: ?l) (si s)) with (nth n l (si s)).
    cbn [nth]. rewrite app_nth2; rewrite map_length, seq_length; [|lia].
    replace (n - (S n - 1))%nat with 0%nat by lia. reflexivity. }
  split.
  { intros k Hk. unfold pts. destruct k; [lia|]. cbn [nth].
    rewrite app_nth1 by (rewrite map_length, seq_length; lia).
    rewrite (nth_indep _ (si s) (division_point s n 0)) by (rewrite map_length, seq_length; lia).
    rewrite map_nth, seq_nth by lia.
    reflexivity. }
  intros k Hk.
  assert (nth_error (pairs pts) k = Some (nth k pts (si s), nth (S k) pts (si s))) as E.
  { apply pairs_nth. split; apply nth_error_nth'; lia. }
  rewrite nth_error_map, E. reflexivity.
Qed.

(*@ C21_divide_line_error *)
(** C21: each piece has the n-th part of the length up to 2e-8. *)
Lemma divide_line_length : forall (s : seg RA) (n : nat) l u, (1 <= n)%nat ->
  stored (si s) -> stored (sj s) ->
  divide_line s (Z.of_nat n) = Ok l -> In u l ->
  Rabs (norm u - norm s / INR n) <= 2 / 10^8.
Proof.
  intros s n l u Hn SI SJ HL HU.
  destruct (divide_line_spec s n Hn) as (l' & HL' & LL & P & P0 & Pn & Pk & NTH).
  rewrite HL in HL'. injection HL' as <-.
  apply In_nth_error in HU as [k HK].
  assert (k < n)%nat as KN by (rewrite <- LL; apply nth_error_Some; congruence).
  rewrite (NTH k KN) in HK. injection HK as <-.
  assert (INR n <> 0) as NZ by (apply not_0_INR; lia).
  assert (0 < INR n) as NP by (apply lt_0_INR; lia).
  (* distance of P k to the exact division point *)
  assert (forall k, (k <= n)%nat -> exists a b, Rabs a <= 5/10^9 /\ Rabs b <= 5/10^9 /\
            P k = @mkpt RA (px (along (si s) (sj s) (INR k / INR n)) + a) (py (along (si s) (sj s) (INR k / INR n)) + b)) as ERR.
  { intros m Hm. destruct (Nat.eq_dec m 0) as [->|M0].
    { exists 0, 0. rewrite Rabs_R0. split; [lra|]. split; [lra|]. rewrite P0. apply pt_ext; simpl; rfield; auto. }
    destruct (Nat.eq_dec m n) as [->|M1].
    { exists 0, 0. rewrite Rabs_R0. split; [lra|]. split; [lra|]. rewrite Pn. apply pt_ext; simpl; rfield; auto. }
    rewrite Pk by lia. unfold Point_new; ra.
    exists (Rround8 (px (along (si s) (sj s) (INR m / INR n))) - px (along (si s) (sj s) (INR m / INR n))),
           (Rround8 (py (along (si s) (sj s) (INR m / INR n))) - py (along (si s) (sj s) (INR m / INR n))).
    split; [eapply Rle_trans; [apply Rround8_err|lra]|].
    split; [eapply Rle_trans; [apply Rround8_err|lra]|].
    apply pt_ext; simpl; rring. }
  destruct (ERR k ltac:(lia)) as (a & b & Ha & Hb & E1).
  destruct (ERR (S k) ltac:(lia)) as (c & d & Hc & Hd & E2).
  rewrite norm_dist. cbn [LineSegment si sj]. rewrite E1, E2.
  rewrite pt_distance_R. unfold along; cbn [px py].
  set (u := px (sj s) - px (si s)). set (v := py (sj s) - py (si s)).
  set (K := INR k / INR n).
  assert (INR (S k) / INR n = K + / INR n) as -> by (unfold K; rewrite S_INR; field; auto).
  set (h := / INR n).
  assert (norm s / INR n = sqrt ((h * u) * (h * u) + (h * v) * (h * v))) as ->.
  { rewrite norm_R. fold u v. replace (h * u * (h * u) + h * v * (h * v)) with ((h * h) * (u * u + v * v)) by ring.
    assert (0 < h) by (apply Rinv_0_lt_compat; auto).
    rewrite (sqrt_mult (h*h)) by nra. rewrite sqrt_square by lra. unfold h. field; auto. }
  apply Rabs_le_inv in Ha, Hb, Hc, Hd.
  set (X := px (si s) + K * u + a - (px (si s) + (K + h) * u + c)).
  set (Y := py (si s) + K * v + b - (py (si s) + (K + h) * v + d)).
  assert (X = -(h * u) + (a - c)) as -> by (unfold X; ring).
  assert (Y = -(h * v) + (b - d)) as -> by (unfold Y; ring).
  pose proof (sqrt_minkowski (-(h*u)) (-(h*v)) (a - c) (b - d)) as M1.
  pose proof (sqrt_minkowski (-(h*u) + (a-c)) (-(h*v) + (b-d)) (-(a - c)) (-(b - d))) as M2.
  replace (-(h*u) * -(h*u) + -(h*v) * -(h*v)) with (h*u*(h*u) + h*v*(h*v)) in M1 by ring.
  replace ((- (h * u) + (a - c) + - (a - c)) * (- (h * u) + (a - c) + - (a - c)) +
    (- (h * v) + (b - d) + - (b - d)) * (- (h * v) + (b - d) + - (b - d))) with (h*u*(h*u) + h*v*(h*v)) in M2 by ring.
  replace (- (a - c) * - (a - c) + - (b - d) * - (b - d)) with ((a-c)*(a-c) + (b-d)*(b-d)) in M2 by ring.
  assert (sqrt ((a-c)*(a-c) + (b-d)*(b-d)) <= 2/10^8).
  { apply Rle_trans with (sqrt ((2/10^8)*(2/10^8))).
    - apply sqrt_le_1_alt. nra.
    - rewrite sqrt_square; lra. }
  apply Rabs_le. lra.
Qed.
