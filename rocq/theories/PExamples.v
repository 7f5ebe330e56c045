(** Concrete cases meeting the hypotheses of the theorems, for the properties whose lemma file has no
    example of its own. *)
From Coq Require Import Reals ZArith Lra Lia Bool List Psatz Permutation.
From Coq.Floats Require Import SpecFloat.
From Verif Require Import Base Arith ArithR ArithF MPoint MLine MPoly MHeap MCycles Spec SpecHeap SpecPurge.
From Verif Require Import PPoint PLine PTrig PPoly PShape PConvex PCommon PMore PHeap PTri PMake PPurge.
Import ListNotations.
Local Open Scope R_scope.
#[local] Existing Instance RA.

(** The point with these integer coordinates. *)
Definition zp (x y : Z) : pt RA := @mkpt RA (IZR x) (IZR y).

Lemma zp_inj : forall a b c d, zp a b = zp c d -> a = c /\ b = d.
Proof. intros a b c d H. unfold zp in H. split; apply eq_IZR; congruence. Qed.
Lemma zp_neq : forall a b c d, (a =? c)%Z && (b =? d)%Z = false -> zp a b <> zp c d.
Proof. intros a b c d H E. apply zp_inj in E as [-> ->]. rewrite !Z.eqb_refl in H. discriminate. Qed.
Lemma zp_close : forall a c : Z, Rabs (IZR a - IZR c) < 1 / 100000 -> a = c.
Proof.
  intros a c H. rewrite <- minus_IZR, <- abs_IZR in H.
  assert (Z.abs (a - c) < 1)%Z by (apply lt_IZR; simpl in *; lra). lia.
Qed.
Lemma zp_sep : forall l : list (Z * Z), separated (map (fun c => zp (fst c) (snd c)) l).
Proof.
  intros l p q Ip Iq X Y. apply in_map_iff in Ip as ([a b] & <- & _). apply in_map_iff in Iq as ([c d] & <- & _).
  cbn [zp px py fst snd] in X, Y. replace (1 / 10^5) with (1 / 100000) in X, Y by (simpl; lra). apply zp_close in X. apply zp_close in Y. subst. reflexivity.
Qed.
Lemma zp_stored : forall a b, stored (zp a b).
Proof.
  assert (forall k, IZR k = IZR (k * 10^8) / 10^8) as D by (intros k; rewrite mult_IZR; replace (IZR (10 ^ 8)) with (10 ^ 8) by (simpl; lra); field; simpl; lra).
  intros a b. split; [exists (a * 10^8)%Z | exists (b * 10^8)%Z]; apply D.
Qed.
Lemma zp_eqb : forall a b c d, (a =? c)%Z && (b =? d)%Z = pt_eqb (zp a b) (zp c d).
Proof.
  intros. symmetry. destruct (pt_eqb (zp a b) (zp c d)) eqn:E.
  - apply pt_eqb_iff in E as [X Y]. cbn [zp px py] in X, Y.
    apply zp_close in X. apply zp_close in Y. subst. rewrite !Z.eqb_refl. reflexivity.
  - symmetry. apply not_true_iff_false. intros H. apply andb_true_iff in H as [X Y]. apply Z.eqb_eq in X, Y. subst.
    rewrite pt_eqb_refl in E. discriminate.
Qed.
Lemma dec8_Z : forall k : Z, decimal8 (IZR k).
Proof. intros k. exists (k * 10^8)%Z. rewrite mult_IZR. replace (IZR (10 ^ 8)) with (10 ^ 8) by (simpl; lra). field; simpl; lra. Qed.

Lemma mkpt_eq : forall a b c d : R, a = c -> b = d -> @mkpt RA a b = @mkpt RA c d.
Proof. congruence. Qed.
Lemma mkseg_eq : forall k (p q r s : pt RA), p = r -> q = s -> @mkseg RA k p q = @mkseg RA k r s.
Proof. congruence. Qed.
Lemma cons_eq : forall (s t : seg RA) l m, s = t -> l = m -> s :: l = t :: m.
Proof. congruence. Qed.
Ltac pts := repeat apply mkseg_eq; apply mkpt_eq; lra.

(** A triangle whose corners are stored in two Point objects each, and one more object 9 that no segment uses. *)
Definition tri_heap (k : nat) : pt RA :=
  match k with 0%nat | 5%nat => zp 0 0 | 1%nat | 2%nat => zp 4 0 | 3%nat | 4%nat => zp 4 3 | _ => zp 7 7 end.
Definition tri_poly : hpoly := mkhp [mkh CLineSegment 0 1; mkh CWall 2 3; mkh CLineSegment 4 5] false.

Lemma tri_sound : sound tri_heap tri_poly.
Proof.
  split; [|split].
  - apply (zp_sep [(0, 0); (4, 0); (4, 0); (4, 3); (4, 3); (0, 0)]%Z).
  - intros s I. simpl in I. destruct I as [<-|[<-|[<-|[]]]]; apply zp_neq; reflexivity.
  - discriminate.
Qed.
Lemma tri_stored : all_stored tri_heap (hsegs tri_poly).
Proof. intros o I. simpl in I. decompose [or] I; subst; try contradiction; apply zp_stored. Qed.

(*@ex C02_example *)
(** C02: three points that are pairwise separated or identical. *)
Example eq_separated_example : let l := [zp 0 0; zp 1 0; zp 0 1; zp 0 0] in
  forall p q, In p l -> In q l -> p = q \/ 2 / 10^5 <= Rabs (px p - px q) \/ 2 / 10^5 <= Rabs (py p - py q).
Proof.
  simpl. intros p q Ip Iq. 
  destruct Ip as [<-|[<-|[<-|[<-|[]]]]]; destruct Iq as [<-|[<-|[<-|[<-|[]]]]]; auto; right;
  (left; unfold zp, Rabs; cbn [px py]; destruct (Rcase_abs _); lra) || (right; unfold zp, Rabs; cbn [px py]; destruct (Rcase_abs _); lra).
Qed.

(*@ex C04_example *)
(** C04: a Point made from two numbers, queried, revoked and set again, still counts as valid. *)
Example frozen_example : exists (o o' : ptobj RA),
  obj_new (ASeq true [VNum 1; VNum 2]) = Ok o /\ fst (obj_isvalid o) = Ok true /\ run_ops [OpEmpty; OpQuery; OpSet (ASeq false [VNum 3; VNum 4]); OpEmpty] (snd (obj_isvalid o)) = Ok o' /\ fst (obj_isvalid o') = Ok true /\ obj_isempty o' = true.
Proof. eexists. eexists. repeat split. Qed.

(*@ex C07_example *)
(** C07: three parallel segments, none of them degenerate. *)
Example parallel_example :
  let s := LineSegment (zp 0 0) (zp 2 1) in let t := LineSegment (zp 5 0) (zp 1 (-2)) in let r := LineSegment (zp 0 7) (zp 6 10) in
  px (si t) <> px (sj t) /\ is_parallel s t = true /\ is_parallel t r = true /\ is_parallel s r = true.
Proof.
  intros s t r. assert (forall a b : seg RA, (px (sj a) - px (si a)) * (py (sj b) - py (si b)) = (py (sj a) - py (si a)) * (px (sj b) - px (si b)) -> is_parallel a b = true) as P
    by (intros a b H; apply parallel_laws; exact H).
  repeat split; [cbn; lra|apply P; cbn; ring..].
Qed.

(*@ex C09_example *)
(** C09: a point off both ends, on the line of a long segment. *)
Example on_line_example : let s := LineSegment (zp 0 0) (zp 40 30) in let p := zp 8 6 in
  pt_eqb p (si s) = false /\ pt_eqb p (sj s) = false /\ line_point_distance s p = Ok 0 /\ on_segment (si s) (sj s) p /\
  is_point_on_line s p = Ok true.
Proof.
  intros s p. assert (on_segment (si s) (sj s) p) as O.
  { exists (1/5). split; [lra|]. unfold along, p, s, zp. cbn. f_equal; lra. }
  split; [symmetry; apply (zp_eqb 8 6 0 0)|]. split; [symmetry; apply (zp_eqb 8 6 40 30)|]. split; [|split; [exact O|]].
  - destruct (proj2 (line_point_distance_spec s p)) as (d & E & (q & Q & D) & M); [cbn; intros [H _]; lra|].
    rewrite E. f_equal. assert (d <= dist p p) as L.
    { apply M. destruct O as (t & _ & ->). exists t. reflexivity. }
    assert (dist p p = 0) as Z. { unfold dist. replace ((px p - px p) ^ 2 + (py p - py p) ^ 2) with 0 by ring. apply sqrt_0. }
    assert (0 <= d) by (rewrite <- D; unfold dist; apply sqrt_pos). lra.
  - apply on_line_iff. destruct O as (t & _ & ->). exists t. reflexivity.
Qed.

(*@ex C12_example *)
(** C12: two segments with integer end points sharing one of them. *)
Example touch_example : let s := LineSegment (zp 0 0) (zp 4 3) in let t := LineSegment (zp 9 1) (zp 4 3) in
  (forall p q, In p [si s; sj s] -> In q [si t; sj t] -> p = q \/ / 10^8 <= dist p q) /\ touch s t = true.
Proof.
  intros s t. assert (forall p q, In p [si s; sj s] -> In q [si t; sj t] -> p = q \/ / 10^8 <= dist p q) as H.
  { intros p q Ip Iq. simpl in Ip, Iq. destruct Ip as [<-|[<-|[]]]; destruct Iq as [<-|[<-|[]]]; auto; right;
    unfold dist, zp; cbn [px py]; apply (Rle_trans _ (sqrt 1)); [rewrite sqrt_1; simpl; lra|apply sqrt_le_1_alt; simpl; lra| rewrite sqrt_1; simpl; lra|apply sqrt_le_1_alt; simpl; lra| rewrite sqrt_1; simpl; lra|apply sqrt_le_1_alt; simpl; lra]. }
  split; [exact H|]. apply (proj2 (proj2 (touch_spec s t)) H). auto.
Qed.

(*@ex C14_example *)
(** C14: two segments with integer end points crossing between them. *)
Example crossing_example : let s := LineSegment (zp 0 0) (zp 4 4) in let t := LineSegment (zp 0 4) (zp 4 0) in
  lattice 2000 (si s) /\ lattice 2000 (sj s) /\ lattice 2000 (si t) /\ lattice 2000 (sj t) /\ intersection_on_segment s t = Ok true.
Proof.
  intros s t. assert (forall a b, (Z.abs a <= 2000)%Z -> (Z.abs b <= 2000)%Z -> lattice 2000 (zp a b)) as L by (intros a b X Y; exists a, b; auto).
  assert (lattice 2000 (si s) /\ lattice 2000 (sj s) /\ lattice 2000 (si t) /\ lattice 2000 (sj t)) as (A & B & C & D) by (repeat split; apply L; lia).
  repeat (split; [assumption|]). destruct (proper_crossing s t A B C D) as (b & E & I). rewrite E. f_equal. apply I.
  split; [unfold crossproduct; ra; cbn; lra|]. split; [exists (zp 2 2); split; exists (1/2); (split; [lra|]); unfold along, zp; cbn; pts|].
  repeat split; apply zp_neq; reflexivity.
Qed.

(*@ex C17_example *)
(** C17: the wall of the triangle moved by (1/2, -3). *)
Example segment_move_example : let s := mkh CWall 2 3 in
  stored (tri_heap (hi s)) /\ stored (tri_heap (hj s)) /\ decimal8 (1/2) /\ decimal8 (-3) /\ hi s <> hj s /\
  seg_view (seg_move tri_heap s (1/2) (-3)) s = @mkseg RA CWall (@mkpt RA (9/2) (-3)) (@mkpt RA (9/2) 0) /\
  seg_view (seg_mirror tri_heap s (1/2)) s = @mkseg RA CWall (@mkpt RA (-3) 0) (@mkpt RA (-3) 3).
Proof.
  intros s. assert (stored (tri_heap (hi s)) /\ stored (tri_heap (hj s))) as [A B] by (split; apply zp_stored).
  assert (decimal8 (1/2)) as C by (exists 50000000%Z; lra). assert (decimal8 (-3)) as D by (apply (dec8_Z (-3))).
  assert (hi s <> hj s) as N by discriminate. repeat (split; [assumption|]). split.
  - rewrite (proj1 (segment_move tri_heap s (1/2) (-3) A B C D) N). unfold seg_translate, translate, seg_view, s, tri_heap, zp. cbn. pts.
  - rewrite (proj1 (proj1 (segment_mirror tri_heap s (1/2) A B C) N)). unfold seg_image, mirror, seg_view, s, tri_heap, zp. cbn. pts.
Qed.

(*@ex C20_example *)
(** C19, C20: perpendicular, parallel and opposite segments, none of them degenerate. *)
Example angle_example : let s := LineSegment (zp 0 0) (zp 4 3) in let t := LineSegment (zp 1 1) (zp (-2) 5) in let r := LineSegment (zp 8 6) (zp 0 0) in
  si s <> sj s /\ si t <> sj t /\ si r <> sj r /\
  angle_between_lines s t = Ok 90 /\ angle_between_lines s r = Ok 180 /\ opposite_direction s r = true.
Proof.
  intros s t r. assert (si s <> sj s) as S1 by (apply zp_neq; reflexivity). assert (si t <> sj t) as T1 by (apply zp_neq; reflexivity).
  assert (si r <> sj r) as R1 by (apply zp_neq; reflexivity). repeat (split; [assumption|]).
  assert (opposite_direction s r = true) as O by (apply (opposite_direction_spec s r S1 R1); exists (-2); cbn; lra).
  split; [|split; [|exact O]].
  - apply (angle_extremes s t S1 T1). unfold dotproduct. ra. cbn. lra.
  - apply (angle_extremes s r S1 R1). exact O.
Qed.

(*@ex C21_example *)
(** C21, C22: a segment with stored end points cut into three, and the point at a third of it. *)
Example divide_example : let s := LineSegment (zp 0 0) (zp 6 3) in
  (1 <= 3)%nat /\ stored (si s) /\ stored (sj s) /\
  exists l, divide_line s 3 = Ok l /\ length l = 3%nat.
Proof.
  intros s. split; [lia|]. split; [apply zp_stored|]. split; [apply zp_stored|].
  destruct (divide_line_spec s 3) as (l & E & N & _); [lia|]. exists l. split; assumption.
Qed.

(*@ex C24_example *)
(** C24: the bounding box of the triangle (0,0), (4,0), (4,3). *)
Example box_example : let l := view tri_heap (hsegs tri_poly) in
  l <> [] /\ (forall p, In p (flat_map ij l) -> Rabs (px p) <= 10^11 /\ Rabs (py p) <= 10^11) /\
  bounding_box l = ((0, 4), (0, 3)).
Proof.
  intros l. assert (l <> []) as N by discriminate.
  assert (forall p, In p (flat_map ij l) -> Rabs (px p) <= 10^11 /\ Rabs (py p) <= 10^11) as B.
  { intros p I. cbn in I. decompose [or] I; subst; try contradiction; unfold zp; cbn [px py]; split; unfold Rabs; destruct (Rcase_abs _); simpl; lra. }
  split; [exact N|]. split; [exact B|].
  destruct (bounding_box l) as [[x1 x2] [y1 y2]] eqn:E.
  destruct (bounding_box_exact l x1 x2 y1 y2 N B E) as (IN & (a & A1 & A2) & (b & B1 & B2) & (c & C1 & C2) & (d & D1 & D2)).
  assert (forall q : pt RA, In q (flat_map ij l) -> (q = zp 0 0 \/ q = zp 4 0 \/ q = zp 4 3)) as V by (intros q I; cbn in I; decompose [or] I; subst; auto; contradiction).
  pose proof (IN (zp 0 0) ltac:(cbn; auto)) as K1. pose proof (IN (zp 4 0) ltac:(cbn; auto)) as K2. pose proof (IN (zp 4 3) ltac:(cbn; auto 6)) as K3.
  unfold zp in K1, K2, K3. cbn [px py] in K1, K2, K3.
  apply V in A1, B1, C1, D1.
  assert (0 <= x1) by (destruct A1 as [->|[->| ->]]; cbn in A2; lra).
  assert (x2 <= 4) by (destruct B1 as [->|[->| ->]]; cbn in B2; lra).
  assert (0 <= y1) by (destruct C1 as [->|[->| ->]]; cbn in C2; lra).
  assert (y2 <= 3) by (destruct D1 as [->|[->| ->]]; cbn in D2; lra).
  f_equal; f_equal; apply Rle_antisym; lra.
Qed.

(*@ex C27_example *)
(** C27: the triangle with doubled corners is purged to three shared Point objects. *)
Example purge_example : sound tri_heap tri_poly /\ clustered tri_heap (hsegs tri_poly) /\ some_coincide tri_heap (hsegs tri_poly) /\
  (exists a b c, objects (hsegs (purge tri_heap tri_poly)) = [a; b; b; c; c; a]) /\
  ~ some_coincide tri_heap [mkh CLineSegment 0 1].
Proof.
  split; [exact tri_sound|]. split; [|split; [|split]].
  - destruct tri_sound as (SEP & PR & _). split.
    + intros a b c A B C AB BC. assert (tri_heap a = tri_heap b) as -> by (apply (SEP _ _ (in_map _ _ _ A) (in_map _ _ _ B)); apply AB). exact BC.
    + intros s I K. assert (In (hi s) (objects (hsegs tri_poly)) /\ In (hj s) (objects (hsegs tri_poly))) as [U V].
      { split; apply in_flat_map; exists s; simpl; auto. }
      apply (PR s I). apply (SEP _ _ (in_map _ _ _ U) (in_map _ _ _ V)); apply K.
  - exists 0%nat, 5%nat, 0%nat, 5%nat. repeat split. discriminate.
  - pose proof (purge_sound tri_heap tri_poly tri_sound) as (ONE & IN & VIEW & _). cbv zeta in *.
    set (Q := hsegs (purge tri_heap tri_poly)) in *.
    assert (length Q = 3%nat) as LQ. { assert (length (view tri_heap Q) = length (view tri_heap (hsegs tri_poly))) as K by congruence. unfold view in K. rewrite !map_length in K. exact K. }
    destruct Q as [|s1 [|s2 [|s3 [|]]]]; try discriminate. unfold view, seg_view in VIEW. simpl in VIEW. injection VIEW as _ V1 V2 _ V3 V4 _ V5 V6.
    unfold one_object_per_place in ONE. simpl in ONE.
    exists (hi s1), (hj s1), (hj s2). simpl.
    assert (hi s2 = hj s1) as -> by (apply ONE; auto 8; congruence).
    assert (hi s3 = hj s2) as -> by (apply ONE; auto 8; congruence).
    assert (hj s3 = hi s1) as -> by (apply ONE; auto 8; congruence). reflexivity.
  - intros (i & j & a & b & N & A & B & E). simpl in A, B.
    assert (forall k x, nth_error [0; 1]%nat k = Some x -> (k = 0 /\ x = 0)%nat \/ (k = 1 /\ x = 1)%nat) as D.
    { intros [|[|k]] x K; simpl in K; [left|right|]; try (injection K as <-; auto). destruct k; discriminate. }
    destruct (D _ _ A) as [[-> ->]|[-> ->]], (D _ _ B) as [[-> ->]|[-> ->]]; try congruence; simpl in E; revert E; apply zp_neq; reflexivity.
Qed.

(*@ex C28_example *)
(** C28, C30: the triangle moved, mirrored and moved back; the Point object 9 keeps its coordinates. *)
Example history_example : sound tri_heap tri_poly /\ all_stored tri_heap (hsegs tri_poly) /\
  Forall step_decimal8 [Shift (1/4) 2; Flip 3; Shift (-1) 0] /\
  let '(h, P) := run_steps [Shift (1/4) 2; Flip 3; Shift (-1) 0] tri_heap tri_poly in
  let a := @mkpt RA (19/4) 2 in let b := @mkpt RA (3/4) 2 in let c := @mkpt RA (3/4) 5 in
  view h (hsegs P) = [LineSegment a b; @mkseg RA CWall b c; LineSegment c a] /\ h 9%nat = zp 7 7.
Proof.
  split; [exact tri_sound|]. split; [exact tri_stored|].
  assert (Forall step_decimal8 [Shift (1/4) 2; Flip 3; Shift (-1) 0]) as D.
  { repeat constructor; cbn; [exists 25000000%Z; lra|apply (dec8_Z 2)|apply (dec8_Z 3)|apply (dec8_Z (-1))|apply (dec8_Z 0)]. }
  split; [exact D|]. pose proof (history _ _ _ tri_sound tri_stored D) as H. destruct (run_steps _ _ _) as [h P].
  destruct H as (V & F & _). split.
  - rewrite V. unfold view, seg_view, seg_image, tri_poly, tri_heap, zp, LineSegment. cbn.
    repeat (apply cons_eq; [apply mkseg_eq; apply mkpt_eq; cbn; lra|]). reflexivity.
  - apply F. simpl. lia.
Qed.

(*@ex C28_appended_example *)
(** C28: a purged path through the objects 0, 1, 3 is closed with the object 5, which lies where 0 lies. *)
Example appended_example : let P := mkhp [mkh CLineSegment 0 1; mkh CLineSegment 1 3] true in
  exists P1, hpurged P = true /\ In 0%nat (objects (hsegs P)) /\ tri_heap 5%nat = tri_heap 0%nat /\ stored (tri_heap 0%nat) /\ decimal8 2 /\
  happend_end P 5 = Ok P1 /\ (forall a, In a (objects (hsegs P1)) -> tri_heap a = tri_heap 0%nat -> a = 5%nat \/ a = 0%nat).
Proof.
  eexists. split; [reflexivity|]. split; [simpl; auto|]. split; [reflexivity|]. split; [apply zp_stored|]. split; [apply (dec8_Z 2)|].
  split; [reflexivity|]. intros a I E. simpl in I. decompose [or] I; subst; auto; try contradiction; exfalso; simpl in E; revert E; apply zp_neq; reflexivity.
Qed.

(*@ex C29_example *)
(** C29: the triangle turned by 90 degrees. *)
Example rotate_example : let '(h, P) := rotate_about_origin (A := RA) 90%R tri_heap tri_poly in
  view h (hsegs P) = [LineSegment (zp 0 0) (zp 0 4); @mkseg RA CWall (zp 0 4) (zp (-3) 4); LineSegment (zp (-3) 4) (zp 0 0)].
Proof.
  pose proof (rotate_quarter tri_heap tri_poly 1 tri_sound tri_stored) as H.
  replace (90 * 1) with 90 in H by ring. destruct (rotate_about_origin (A := RA) 90%R tri_heap tri_poly) as [h P]. rewrite H.
  assert (90 * PI / 180 = PI / 2) as E by field.
  unfold view, seg_view, seg_image, rotate, tri_poly, tri_heap, zp, LineSegment. cbn. rewrite E, cos_PI2, sin_PI2.
  repeat (apply cons_eq; [apply mkseg_eq; apply mkpt_eq; lra|]). reflexivity.
Qed.

(*@ex C25_example *)
(** C25: an open path that is continuous is closed by one more segment. *)
Example close_example : let p := [LineSegment (zp 0 0) (zp 4 0); LineSegment (zp 4 0) (zp 4 3)] in
  iscontinuous p = true /\ isclosed p = Ok false /\ MPoly.close p = Ok (p ++ [LineSegment (zp 4 3) (zp 0 0)]).
Proof.
  intros p. assert (iscontinuous p = true) as C.
  { unfold iscontinuous. simpl. rewrite andb_true_r. apply continuous_spec. split; [|left; apply pt_eqb_refl].
    apply (proj1 (touch_spec _ _)). right. right. left. cbn. unfold dist. match goal with |- sqrt ?a < _ => replace a with 0 by ring end. rewrite sqrt_0. simpl. lra. }
  destruct (close_spec (LineSegment (zp 0 0) (zp 4 0)) [LineSegment (zp 4 0) (zp 4 3)]) as (A & _ & _ & D & _). fold p in A, D.
  assert (isclosed p = Ok false) as F. { rewrite A, C. cbn [andb]. simpl. f_equal. symmetry. apply (zp_eqb 0 0 4 3). }
  split; [exact C|]. split; [exact F|]. rewrite (D F). reflexivity.
Qed.

(*@ex C38_example *)
(** C38: the area of the triangle (0,0), (4,0), (4,3), one side given backwards. *)
Example heron_example : let l := [LineSegment (zp 4 0) (zp 0 0); LineSegment (zp 4 0) (zp 4 3); LineSegment (zp 4 3) (zp 0 0)] in
  Forall2 joins (cycle_edges [zp 0 0; zp 4 0; zp 4 3]) l /\ triangle_area l = Ok 6.
Proof.
  intros l. assert (Forall2 joins (cycle_edges [zp 0 0; zp 4 0; zp 4 3]) l) as F.
  { simpl. apply Forall2_cons; [right; split; reflexivity|]. apply Forall2_cons; [left; split; reflexivity|].
    apply Forall2_cons; [left; split; reflexivity|]. constructor. }
  split; [exact F|]. rewrite (heron_area _ _ _ _ F). f_equal. unfold orient, zp. cbn. unfold Rabs. destruct (Rcase_abs _); lra.
Qed.

(*@ex C41_example *)
(** C41: a square of side 3 at (10, 0.5). *)
Example square_example : decimal8 (3 / 2) /\ 1/10^5 <= 3 / 2 /\ decimal8 10 /\ decimal8 (1/2) /\ Rabs 10 + 3 <= 10^11 /\ Rabs (1/2) + 3 <= 10^11.
Proof.
  split; [exists 150000000%Z; lra|]. split; [lra|]. split; [apply (dec8_Z 10)|]. split; [exists 50000000%Z; lra|].
  split; unfold Rabs; destruct (Rcase_abs _); lra.
Qed.

(*@ex C42_example *)
(** C42: a half circle of radius 2 in two steps meets the hypotheses; so does a full circle. *)
Example arc_example : (0 < 2)%nat /\ 0 <= 90 < 360 /\ 0 < 270 <= 360 /\ 90 < 270 /\ decimal8 5 /\
  1/10^5 <= 2 * sin ((270 - 90) / INR 2 * PI / 360) /\ 1/10^5 <= 2 * sin ((270 - 90) * PI / 360) /\
  1/10^5 <= 2 * sin ((360 - 0) / INR 4 * PI / 360).
Proof.
  split; [lia|]. repeat (split; [lra|]). split; [apply (dec8_Z 5)|].
  replace ((270 - 90) / INR 2 * PI / 360) with (PI / 4) by (simpl; field).
  replace ((270 - 90) * PI / 360) with (PI / 2) by field.
  replace ((360 - 0) / INR 4 * PI / 360) with (PI / 4) by (simpl; field).
  rewrite sin_PI2, sin_PI4. assert (0 < sqrt 2 <= 2) as [A B].
  { split; [apply sqrt_lt_R0; lra|]. rewrite <- (sqrt_square 2) at 2 by lra. apply sqrt_le_1_alt. lra. }
  assert (1 / 2 <= 1 / sqrt 2). { apply Rmult_le_reg_r with (sqrt 2); [lra|]. replace (1 / sqrt 2 * sqrt 2) with 1 by (field; lra). lra. }
  split; [lra|split; lra].
Qed.

(*@ex C43_example *)
(** C43: a triangle with a dangling segment; the triangle is kept, the dangling segment is dropped. *)
Example outlier_example :
  let t := [LineSegment (zp 0 0) (zp 4 0); LineSegment (zp 4 0) (zp 4 3); LineSegment (zp 4 3) (zp 0 0)] in
  let d := LineSegment (zp 4 3) (zp 9 9) in
  Permutation (d :: t) (t ++ [d]) /\ Forall2 joins (cycle_edges [zp 0 0; zp 4 0; zp 4 3]) t /\ separated (flat_map ij (d :: t)) /\
  (forall s, In s t -> In s (remove_outlier_segments (d :: t))) /\ ~ In d (remove_outlier_segments (d :: t)).
Proof.
  intros t d. assert (Permutation (d :: t) (t ++ [d])) as P by apply Permutation_cons_append.
  assert (Forall2 joins (cycle_edges [zp 0 0; zp 4 0; zp 4 3]) t) as F
    by (simpl; repeat (apply Forall2_cons; [left; split; reflexivity|]); constructor).
  assert (separated (flat_map ij (d :: t))) as SEP by apply (zp_sep [(4, 3); (9, 9); (0, 0); (4, 0); (4, 0); (4, 3); (4, 3); (0, 0)]%Z).
  repeat (split; [assumption|]). split.
  - intros s I. exact (cycles_kept (d :: t) t [d] _ P F SEP s I).
  - intros I. apply (proj2 (remove_outliers_spec (d :: t)) SEP) in I as [_ H].
    destruct (H (zp 9 9)) as (k & k' & N & A & B); [simpl; auto|].
    assert (forall k, nth_error (flat_map ij (d :: t)) k = Some (zp 9 9) -> k = 1%nat) as U.
    { intros m E. do 8 (destruct m as [|m]; [try reflexivity; exfalso; simpl in E; assert (forall u v : pt RA, Some u = Some v -> u = v) as IJ by congruence; apply IJ in E; revert E; apply zp_neq; reflexivity|]). destruct m; discriminate. }
    apply N. rewrite (U k A), (U k' B). reflexivity.
Qed.

(*@ex C61_example *)
(** C61: a convex pentagon with a straight corner. *)
Example convex_valid_example : let vs := [zp 0 0; zp 2 0; zp 4 0; zp 4 3; zp 0 3] in
  vs <> [] /\ separated vs /\ (forall a b c, In (a, b) (cycle_edges vs) -> In c vs -> 0 <= orient a b c).
Proof.
  intros vs. split; [discriminate|]. split; [apply (zp_sep [(0, 0); (2, 0); (4, 0); (4, 3); (0, 3)]%Z)|].
  intros a b c E C. simpl in E, C.
  destruct E as [E|[E|[E|[E|[E|[]]]]]]; injection E as <- <-; destruct C as [<-|[<-|[<-|[<-|[<-|[]]]]]]; unfold orient, zp; cbn; lra.
Qed.

(*@ex C63_example *)
(** C63: the neighbours of a corner of a triangle. *)
Example neighbour_example :
  let t := [LineSegment (zp 0 0) (zp 4 0); LineSegment (zp 4 0) (zp 4 3); LineSegment (zp 4 3) (zp 0 0)] in
  separated (zp 4 0 :: flat_map ij t) /\ (forall s, In s t -> si s <> sj s) /\
  In (zp 0 0) (neighbour t (zp 4 0)) /\ In (zp 4 3) (neighbour t (zp 4 0)) /\ ~ In (zp 4 0) (neighbour t (zp 4 0)).
Proof.
  intros t. assert (separated (zp 4 0 :: flat_map ij t)) as SEP by apply (zp_sep [(4, 0); (0, 0); (4, 0); (4, 0); (4, 3); (4, 3); (0, 0)]%Z).
  assert (forall s, In s t -> si s <> sj s) as PR by (intros s I; simpl in I; destruct I as [<-|[<-|[<-|[]]]]; apply zp_neq; reflexivity).
  destruct (neighbour_spec t (zp 4 0) SEP PR) as [N _].
  repeat (split; [assumption|]). split; [|split].
  - apply N. exists (LineSegment (zp 0 0) (zp 4 0)). split; [simpl; auto|]. right. split; reflexivity.
  - apply N. exists (LineSegment (zp 4 0) (zp 4 3)). split; [simpl; auto|]. left. split; reflexivity.
  - intros I. apply N in I as (s & I & [[A B]|[A B]]); apply (PR s I); simpl in A, B; congruence.
Qed.

(*@ex C65_example *)
(** C65: the midpoint of a triangle's corners, each of which ends two segments. *)
Example midpoint_example :
  let t := [LineSegment (zp 0 0) (zp 6 0); LineSegment (zp 6 0) (zp 6 3); LineSegment (zp 6 3) (zp 0 0)] in
  let vs := [zp 0 0; zp 6 0; zp 6 3] in
  NoDup vs /\ (forall p, In p vs <-> exists s, In s t /\ (p = si s \/ p = sj s)) /\ poly_midpoint t = Ok (Point_new 4 1).
Proof.
  intros t vs. assert (NoDup vs) as N.
  { repeat constructor; simpl; intros H; decompose [or] H; try contradiction; match goal with K : _ = _ |- _ => revert K; apply zp_neq; reflexivity end. }
  assert (forall p, In p vs <-> exists s, In s t /\ (p = si s \/ p = sj s)) as M.
  { intros p. split.
    - intros [<-|[<-|[<-|[]]]]; [exists (LineSegment (zp 0 0) (zp 6 0))|exists (LineSegment (zp 0 0) (zp 6 0))|exists (LineSegment (zp 6 0) (zp 6 3))]; simpl; auto.
    - intros (s & I & E). simpl in I. destruct I as [<-|[<-|[<-|[]]]]; simpl in E; destruct E as [-> | ->]; simpl; auto. }
  split; [exact N|]. split; [exact M|]. rewrite (proj2 (midpoint_spec t vs N M)) by discriminate. f_equal. unfold vs, zp. cbn [map fold_right px py length].
  f_equal; simpl; lra.
Qed.

(*@ex C66_example *)
(** C66: in a closed triangle every side has a next one. *)
Example next_example :
  let a := LineSegment (zp 0 0) (zp 4 0) in let b := LineSegment (zp 4 0) (zp 4 3) in let c := LineSegment (zp 4 3) (zp 0 0) in
  isclosed [a; b; c] = Ok true /\ next_segment [a; b; c] a = Ok b /\ next_segment [a; b; c] c = Ok a.
Proof.
  intros a b c.
  assert (forall p q r, continuous (LineSegment p q) (LineSegment (A := RA) q r) = true) as C.
  { intros p q r. apply continuous_spec. split; [|left; apply pt_eqb_refl].
    apply (proj1 (touch_spec _ _)). right. right. left. cbn. unfold dist. match goal with |- sqrt ?a < _ => replace a with 0 by ring end. rewrite sqrt_0. simpl. lra. }
  assert (isclosed [a; b; c] = Ok true) as CL.
  { destruct (close_spec a [b; c]) as (A & _). rewrite A. unfold iscontinuous. simpl. unfold a, b, c. rewrite !C. simpl. f_equal. apply pt_eqb_refl. }
  split; [exact CL|]. split; apply (proj2 (next_segment_spec RA [a; b; c] _) CL).
  - exists [a], [c]. split; [reflexivity|]. split; [apply pt_eqb_refl|]. intros u [<-|[]]. symmetry. apply (zp_eqb 0 0 4 0).
  - exists [], [b; c]. split; [reflexivity|]. split; [apply pt_eqb_refl|]. intros u [].
Qed.
