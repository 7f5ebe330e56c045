(** Geometry of triangles with common sides. *)
From Coq Require Import Reals Lra Lia Psatz List.
From Verif Require Import Base Arith ArithR MPoint MDelaunay Spec SpecDelaunay SpecPlanar.
Import ListNotations.
Local Open Scope R_scope.

Lemma or_rot : forall a b c : pt RA, orient b c a = orient a b c.
Proof. intros. unfold orient. ring. Qed.
Lemma or_swap : forall a b c : pt RA, orient b a c = - orient a b c.
Proof. intros. unfold orient. ring. Qed.
Lemma or_mid : forall a b c : pt RA, orient a c b = - orient a b c.
Proof. intros. unfold orient. ring. Qed.
Lemma or_same : forall a b : pt RA, orient a b a = 0 /\ orient a b b = 0 /\ orient a a b = 0.
Proof. intros. unfold orient. repeat split; ring. Qed.
Lemma or_along : forall (a b p v : pt RA) s, orient a b (along p v s) = (1 - s) * orient a b p + s * orient a b v.
Proof. intros. unfold orient, along. cbn [px py]. ring. Qed.
Lemma or_sum : forall a b c p : pt RA, orient a b p + orient b c p + orient c a p = orient a b c.
Proof. intros. unfold orient. ring. Qed.
(** Barycentric coordinates. *)
Lemma or_bary : forall a b c x y p : pt RA,
  orient a b c * orient x y p = orient b c p * orient x y a + orient c a p * orient x y b + orient a b p * orient x y c.
Proof. intros [ax ay] [bx by'] [cx cy] [ux uy] [vx vy] [qx qy]. unfold orient. cbn [px py]. ring. Qed.

Lemma open_swap : forall a b c p, in_open a b c p <-> in_open b a c p.
Proof. intros. unfold in_open. rewrite (or_swap a b p), (or_swap c a p), (or_swap b c p). split; intros [H|H]; [right|left|right|left]; lra. Qed.
Lemma open_rot : forall a b c p, in_open a b c p <-> in_open b c a p.
Proof. intros. unfold in_open. tauto. Qed.
Lemma closed_swap : forall a b c p, in_closed a b c p <-> in_closed b a c p.
Proof. intros. unfold in_closed. rewrite (or_swap a b p), (or_swap c a p), (or_swap b c p). split; intros [H|H]; [right|left|right|left]; lra. Qed.
Lemma closed_rot : forall a b c p, in_closed a b c p <-> in_closed b c a p.
Proof. intros. unfold in_closed. tauto. Qed.

(** For a counterclockwise triangle. *)
Lemma open_pos : forall a b c p, 0 < orient a b c -> (in_open a b c p <-> 0 < orient a b p /\ 0 < orient b c p /\ 0 < orient c a p).
Proof. intros a b c p H. unfold in_open. pose proof (or_sum a b c p). split; [intros [K|K]; lra|tauto]. Qed.
Lemma closed_pos : forall a b c p, 0 < orient a b c -> (in_closed a b c p <-> 0 <= orient a b p /\ 0 <= orient b c p /\ 0 <= orient c a p).
Proof. intros a b c p H. unfold in_closed. pose proof (or_sum a b c p). split; [intros [K|K]; lra|tauto]. Qed.

(** * Small moves *)
Lemma small : forall x y : R, 0 < x -> exists s0, 0 < s0 <= 1 /\ forall s, 0 <= s <= s0 -> 0 < (1 - s) * x + s * y.
Proof.
  intros x y H. destruct (Rle_lt_dec 0 y) as [Y|Y].
  - exists (1 / 2). split; [lra|]. intros s S. assert (0 <= s * y) by (apply Rmult_le_pos; lra). assert (0 < (1 - s) * x) by (apply Rmult_lt_0_compat; lra). lra.
  - exists (x / (2 * (x - y))). assert (P : 0 < 2 * (x - y)) by lra. split.
    + split; [apply Rdiv_lt_0_compat; lra|]. apply Rmult_le_reg_r with (2 * (x - y)); [lra|]. unfold Rdiv. rewrite Rmult_assoc, Rinv_l; lra.
    + intros s [S1 S2]. assert (s * (2 * (x - y)) <= x). { apply Rmult_le_compat_r with (r := 2 * (x - y)) in S2; [|lra]. unfold Rdiv in S2. rewrite Rmult_assoc, Rinv_l, Rmult_1_r in S2; lra. } lra.
Qed.
Lemma min3 : forall (P1 P2 P3 : R -> Prop),
  (exists s0, 0 < s0 <= 1 /\ forall s, 0 <= s <= s0 -> P1 s) -> (exists s0, 0 < s0 <= 1 /\ forall s, 0 <= s <= s0 -> P2 s) ->
  (exists s0, 0 < s0 <= 1 /\ forall s, 0 <= s <= s0 -> P3 s) -> exists s0, 0 < s0 <= 1 /\ forall s, 0 <= s <= s0 -> P1 s /\ P2 s /\ P3 s.
Proof.
  intros P1 P2 P3 (a & A & HA) (b & B & HB) (c & C & HC). exists (Rmin a (Rmin b c)).
  pose proof (Rmin_l a (Rmin b c)). pose proof (Rmin_r a (Rmin b c)). pose proof (Rmin_l b c). pose proof (Rmin_r b c).
  split; [split; [|lra]; repeat apply Rmin_glb_lt; lra|]. intros s S. repeat split; [apply HA|apply HB|apply HC]; lra.
Qed.
Lemma keep_pos : forall a b p v, 0 < orient a b p -> exists s0, 0 < s0 <= 1 /\ forall s, 0 <= s <= s0 -> 0 < orient a b (along p v s).
Proof. intros a b p v H. destruct (small _ (orient a b v) H) as (s0 & S & K). exists s0. split; [exact S|]. intros s T. rewrite or_along. auto. Qed.
Lemma open_keep : forall a b c p v, in_open a b c p -> exists s0, 0 < s0 <= 1 /\ forall s, 0 <= s <= s0 -> in_open a b c (along p v s).
Proof.
  assert (G : forall a b c p v, 0 < orient a b p -> 0 < orient b c p -> 0 < orient c a p -> exists s0, 0 < s0 <= 1 /\ forall s, 0 <= s <= s0 -> in_open a b c (along p v s)).
  { intros a b c p v H1 H2 H3. destruct (min3 _ _ _ (keep_pos a b p v H1) (keep_pos b c p v H2) (keep_pos c a p v H3)) as (s0 & S & K). exists s0. split; [exact S|]. intros s T. left. auto. }
  intros a b c p v H. assert (H' := H). apply open_swap in H'. destruct H as [(H1 & H2 & H3)|(H1 & H2 & H3)]; [auto|].
  destruct (G b a c p v) as (s0 & S & K); [rewrite or_swap; lra..|]. exists s0. split; [exact S|]. intros s T. apply open_swap. auto.
Qed.
Lemma signs : forall x y : R, 0 < x * y -> (0 < x /\ 0 < y) \/ (x < 0 /\ y < 0).
Proof.
  intros x y H. destruct (Rtotal_order x 0) as [X|[X|X]]; [right|rewrite X in H; lra|left]; (split; [exact X|]).
  - apply Ropp_lt_cancel. rewrite Ropp_0. apply Rmult_lt_reg_l with (- x); lra.
  - apply Rmult_lt_reg_l with x; lra.
Qed.
(** From a point between a and b one can move into the triangle a b c, in any direction on its side. *)
Lemma half : forall a b c v t, 0 < t < 1 -> 0 < orient a b c * orient a b v ->
  exists s0, 0 < s0 <= 1 /\ forall s, 0 < s <= s0 -> in_open a b c (along (along a b t) v s).
Proof.
  assert (G : forall a b c v t, 0 < t < 1 -> 0 < orient a b c -> 0 < orient a b v -> exists s0, 0 < s0 <= 1 /\ forall s, 0 < s <= s0 -> in_open a b c (along (along a b t) v s)).
  { intros a b c v t T C V. set (x := along a b t).
    assert (X1 : orient a b x = 0) by (unfold x; rewrite or_along; destruct (or_same a b) as (-> & -> & _); ring).
    assert (X2 : 0 < orient b c x). { unfold x. rewrite or_along. destruct (or_same b c) as (-> & _ & _). rewrite or_rot. rewrite Rmult_0_r, Rplus_0_r. apply Rmult_lt_0_compat; lra. }
    assert (X3 : 0 < orient c a x). { unfold x. rewrite or_along. destruct (or_same c a) as (_ & -> & _). replace (orient c a b) with (orient a b c) by (unfold orient; ring). rewrite Rmult_0_r, Rplus_0_l. apply Rmult_lt_0_compat; lra. }
    destruct (min3 _ _ _ (keep_pos b c x v X2) (keep_pos b c x v X2) (keep_pos c a x v X3)) as (s0 & S & K). exists s0. split; [exact S|].
    intros s Z. destruct (K s ltac:(lra)) as (K1 & _ & K3). left. split; [|auto]. rewrite or_along, X1. assert (0 < s * orient a b v) by (apply Rmult_lt_0_compat; lra). lra. }
  intros a b c v t T H. destruct (signs _ _ H) as [[C V]|[C V]].
  - apply G; auto.
  - destruct (G b a c v (1 - t)) as (s0 & S & K); [lra|rewrite or_swap; lra|rewrite or_swap; lra|]. exists s0. split; [exact S|]. intros s Z. apply open_swap.
    replace (along a b t) with (along b a (1 - t)); [auto|]. unfold along. f_equal; ring.
Qed.

(** Two triangles on the same side of a common edge have a common inner point. *)
Lemma same_side : forall a b c d, 0 < orient a b c * orient a b d -> exists p, in_open a b c p /\ in_open a b d p.
Proof.
  intros a b c d H. assert (C : 0 < orient a b c * orient a b c) by (destruct (signs _ _ H); nra).
  destruct (half a b c c (1 / 2) ltac:(lra) C) as (s1 & S1 & K1). destruct (half a b d c (1 / 2) ltac:(lra) ltac:(lra)) as (s2 & S2 & K2).
  exists (along (along a b (1 / 2)) c (Rmin s1 s2)). pose proof (Rmin_l s1 s2). pose proof (Rmin_r s1 s2).
  assert (0 < Rmin s1 s2) by (apply Rmin_glb_lt; lra). split; [apply K1|apply K2]; lra.
Qed.

(** * The quadrilateral a o2 b o1 with the diagonals a b and o1 o2 *)
Section Quad.
Variables a b o1 o2 : pt RA.
Hypothesis Q1 : 0 < orient a b o1.
Hypothesis Q2 : orient a b o2 < 0.
Hypothesis Q3 : 0 < orient o1 a o2.
Hypothesis Q4 : 0 < orient o1 o2 b.

(** An inner point of a new triangle, off the old diagonal, is one of an old triangle. *)
Lemma quad_open1 : forall p, in_open o1 a o2 p -> orient a b p <> 0 -> in_open a b o1 p \/ in_open a b o2 p.
Proof.
  intros p H N. apply (open_pos _ _ _ _ Q3) in H. destruct H as (H1 & H2 & H3).
  assert (B1 : 0 < orient b o1 p). { pose proof (or_bary o1 a o2 b o1 p) as E. assert (orient b o1 o1 = 0) by (unfold orient; ring). assert (orient b o1 a = orient a b o1) by (unfold orient; ring). assert (orient b o1 o2 = orient o1 o2 b) by (unfold orient; ring). rewrite H, H0, H4 in E. nra. }
  assert (B2 : orient b o2 p < 0). { pose proof (or_bary o1 a o2 b o2 p) as E. assert (orient b o2 o2 = 0) by (unfold orient; ring). assert (orient b o2 a = orient a b o2) by (unfold orient; ring). assert (orient b o2 o1 = - orient o1 o2 b) by (unfold orient; ring). rewrite H, H0, H4 in E. nra. }
  destruct (Rlt_le_dec 0 (orient a b p)) as [P|P].
  - left. left. auto.
  - right. right. rewrite (or_swap a o2 p). repeat split; lra.
Qed.
Lemma quad_open2 : forall p, in_open o1 o2 b p -> orient a b p <> 0 -> in_open a b o1 p \/ in_open a b o2 p.
Proof.
  intros p H N. apply (open_pos _ _ _ _ Q4) in H. destruct H as (H1 & H2 & H3).
  assert (B1 : 0 < orient o1 a p). { pose proof (or_bary o1 o2 b o1 a p) as E. assert (orient o1 a o1 = 0) by (unfold orient; ring). assert (orient o1 a b = orient a b o1) by (unfold orient; ring). rewrite H, H0 in E. nra. }
  assert (B2 : orient o2 a p < 0). { pose proof (or_bary o1 o2 b o2 a p) as E. assert (orient o2 a o2 = 0) by (unfold orient; ring). assert (orient o2 a b = orient a b o2) by (unfold orient; ring). assert (orient o2 a o1 = - orient o1 a o2) by (unfold orient; ring). rewrite H, H0, H4 in E. nra. }
  destruct (Rlt_le_dec 0 (orient a b p)) as [P|P].
  - left. left. rewrite (or_swap o1 b p) in *. repeat split; lra.
  - right. right. rewrite (or_swap o2 b p) in *. repeat split; lra.
Qed.
(** A point of an old triangle is one of a new triangle, and conversely. *)
Lemma quad_closed : forall p, in_closed a b o1 p \/ in_closed a b o2 p <-> in_closed o1 a o2 p \/ in_closed o1 o2 b p.
Proof.
  intros p. rewrite (closed_pos a b o1 p Q1), (closed_pos _ _ _ p Q3), (closed_pos _ _ _ p Q4), (closed_swap a b o2 p), (closed_pos b a o2 p) by (rewrite or_swap; lra).
  assert (E1 : orient b o1 o2 = orient o1 o2 b) by (unfold orient; ring). assert (E2 : orient b o1 a = orient a b o1) by (unfold orient; ring).
  assert (E3 : orient o1 a b = orient a b o1) by (unfold orient; ring). assert (E4 : orient a o2 b = - orient a b o2) by (unfold orient; ring).
  assert (E5 : orient o2 b a = - orient a b o2) by (unfold orient; ring). assert (E6 : orient a o2 o1 = orient o1 a o2) by (unfold orient; ring).
  assert (E7 : orient o2 b o1 = orient o1 o2 b) by (unfold orient; ring).
  assert (Z : forall x y : pt RA, orient x y x = 0 /\ orient x y y = 0) by (intros; unfold orient; split; ring).
  rewrite (or_swap a b p), (or_swap o1 o2 p).
  pose proof (or_bary a b o1 a o2 p) as F1. pose proof (or_bary a b o1 o2 b p) as F2.
  pose proof (or_bary b a o2 o1 a p) as F3. pose proof (or_bary b a o2 b o1 p) as F4.
  pose proof (or_bary o1 a o2 b o1 p) as F5. pose proof (or_bary o1 a o2 o2 b p) as F6.
  pose proof (or_bary o1 o2 b o1 a p) as F7. pose proof (or_bary o1 o2 b a o2 p) as F8.
  rewrite (proj1 (Z a o2)) in *. rewrite (proj1 (Z o2 b)), (proj2 (Z o2 b)), (proj2 (Z a o2)), (proj1 (Z o1 a)), (proj2 (Z o1 a)), (proj1 (Z b o1)), (proj2 (Z b o1)) in *.
  rewrite ?E1, ?E2, ?E3, ?E4, ?E5, ?E6, ?E7, ?(or_swap a b o2), ?(or_swap a b p), ?(or_swap o1 o2 p) in *. clear E1 E2 E3 E4 E5 E6 E7 Z.
  split.
  - intros [(H1 & H2 & H3)|(H1 & H2 & H3)].
    + assert (0 <= orient a o2 p) by nra. assert (0 <= orient o2 b p) by nra. destruct (Rle_lt_dec 0 (orient o1 o2 p)); [right|left]; repeat split; lra.
    + assert (0 <= orient o1 a p) by nra. assert (0 <= orient b o1 p) by nra. destruct (Rle_lt_dec 0 (orient o1 o2 p)); [right|left]; repeat split; lra.
  - intros [(H1 & H2 & H3)|(H1 & H2 & H3)].
    + assert (0 <= orient b o1 p) by nra. assert (0 <= orient o2 b p) by nra. destruct (Rle_lt_dec 0 (orient a b p)); [left|right]; repeat split; lra.
    + assert (0 <= orient o1 a p) by nra. assert (0 <= orient a o2 p) by nra. destruct (Rle_lt_dec 0 (orient a b p)); [left|right]; repeat split; lra.
Qed.
(** Every triangle with the side o1 o2 has an inner point in common with one of the old ones. *)
Lemma quad_diag : forall c, orient o1 o2 c <> 0 -> exists p, in_open o1 o2 c p /\ (in_open a b o1 p \/ in_open a b o2 p).
Proof.
  intros c N.
  (* the crossing point *)
  set (al := orient a b o1). set (be := - orient a b o2). set (ga := orient o1 a o2). set (de := orient o1 o2 b).
  assert (SUM : al + be = ga + de) by (unfold al, be, ga, de, orient; ring).
  set (t := al / (al + be)). set (u := ga / (ga + de)).
  assert (P : 0 < al + be) by (unfold al, be; lra).
  assert (T : 0 < t < 1). { unfold t. split; [apply Rdiv_lt_0_compat; unfold al in *; lra|]. apply Rmult_lt_reg_r with (al + be); auto. unfold Rdiv. rewrite Rmult_assoc, Rinv_l; unfold al, be in *; lra. }
  assert (U : 0 < u < 1). { unfold u. split; [apply Rdiv_lt_0_compat; unfold ga in *; lra|]. apply Rmult_lt_reg_r with (ga + de); [lra|]. unfold Rdiv. rewrite Rmult_assoc, Rinv_l; unfold ga, de in *; lra. }
  assert (X : along o1 o2 t = along a b u).
  { assert (EQ : forall z w v : R, 0 < z -> v * z = w * z -> v = w) by (intros z w v Z E; apply Rmult_eq_reg_r in E; lra).
    unfold along. unfold u. rewrite <- SUM. unfold t. f_equal; apply (EQ (al + be)); auto; unfold Rdiv; rewrite !Rmult_plus_distr_r;
    match goal with |- _ + ?x * / ?z * ?y * ?z = _ => replace (x * / z * y * z) with (x * y) by (field; lra) end;
    match goal with |- _ = _ + ?x * / ?z * ?y * ?z => replace (x * / z * y * z) with (x * y) by (field; lra) end; unfold al, be, ga, de, orient; ring. }
  assert (M : exists v, 0 < orient o1 o2 c * orient o1 o2 v /\ orient a b v <> 0).
  { destruct (Req_dec (orient a b c) 0) as [E|E].
    - exists (along c o1 (1 / 2)). rewrite !or_along. destruct (or_same o1 o2) as (-> & _). split; [nra|]. rewrite E. fold al. unfold al. lra.
    - exists c. split; [nra|exact E]. }
  destruct M as (v & V1 & V2). destruct (half o1 o2 c v t T V1) as (s1 & S1 & K1).
  assert (Hs : exists s2, 0 < s2 <= 1 /\ forall s, 0 < s <= s2 -> in_open a b o1 (along (along a b u) v s) \/ in_open a b o2 (along (along a b u) v s)).
  { destruct (Rlt_le_dec 0 (orient a b v)) as [W|W].
    - destruct (half a b o1 v u U) as (s2 & S2 & K2); [apply Rmult_lt_0_compat; lra|]. exists s2. auto.
    - destruct (half a b o2 v u U) as (s2 & S2 & K2); [nra|]. exists s2. auto. }
  destruct Hs as (s2 & S2 & K2). rewrite X in K1. exists (along (along a b u) v (Rmin s1 s2)). pose proof (Rmin_l s1 s2). pose proof (Rmin_r s1 s2).
  assert (0 < Rmin s1 s2) by (apply Rmin_glb_lt; lra). split; [apply K1|apply K2]; lra.
Qed.
End Quad.
