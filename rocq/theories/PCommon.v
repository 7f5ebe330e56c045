(** common_part on the integer grid: the set-theoretic intersection of two segments. *)
From Coq Require Import Reals ZArith Lra Lia Bool List Psatz Permutation.
From Verif Require Import Base Arith ArithR MPoint MLine Spec PPoint PLine PTrig.
Import ListNotations.
Local Open Scope R_scope.
#[local] Existing Instance RA.

(** ** Integer grid facts *)
Lemma IZR_lt1 : forall k, Rabs (IZR k) < 1 -> k = 0%Z.
Proof.
  intros k H. apply Rabs_def2 in H as [H1 H2].
  assert (IZR k < IZR 1) as X by lra. apply lt_IZR in X.
  assert (IZR (-1) < IZR k) as Y by lra. apply lt_IZR in Y. lia.
Qed.

Lemma IZR_close : forall a b, Rabs (IZR a - IZR b) < 1 -> IZR a = IZR b.
Proof. intros a b H. rewrite <- minus_IZR in H. apply IZR_lt1 in H. f_equal. lia. Qed.

Lemma lattice_close : forall B p q, lattice B p -> lattice B q ->
  Rabs (px p - px q) < 1 -> Rabs (py p - py q) < 1 -> p = q.
Proof.
  intros B p q (a & b & X & Y & _) (a' & b' & X' & Y' & _) H1 H2.
  rewrite X, X' in H1. rewrite Y, Y' in H2. apply IZR_close in H1, H2. apply pt_ext; congruence.
Qed.

Lemma lattice_eqb : forall B p q, lattice B p -> lattice B q -> (pt_eqb p q = true <-> p = q).
Proof.
  intros B p q Hp Hq. split; [|intros ->; apply pt_eqb_refl].
  intros H. apply pt_eqb_iff in H as [H1 H2]. eapply lattice_close; eauto; lra.
Qed.

Lemma lattice_near : forall B p q, lattice B p -> lattice B q -> pt_distance p q < 1/100000000 -> p = q.
Proof.
  intros B p q Hp Hq H. rewrite pt_distance_R in H.
  assert (forall a b, Rabs a <= sqrt (a * a + b * b)) as S.
  { intros a b. rewrite <- sqrt_Rsqr_abs. apply sqrt_le_1_alt. unfold Rsqr. nra. }
  eapply lattice_close; eauto.
  - eapply Rle_lt_trans; [|apply Rlt_trans with (1/100000000); [exact H|lra]]. apply S.
  - eapply Rle_lt_trans; [|apply Rlt_trans with (1/100000000); [exact H|lra]]. rewrite Rplus_comm. apply S.
Qed.

Lemma lattice_orient : forall B a b c, lattice B a -> lattice B b -> lattice B c ->
  exists k, orient a b c = IZR k.
Proof.
  intros B a b c (a1 & a2 & X & Y & _) (b1 & b2 & X' & Y' & _) (c1 & c2 & X'' & Y'' & _).
  unfold orient. rewrite X, Y, X', Y', X'', Y''. rewrite <- !minus_IZR, <- !mult_IZR, <- !minus_IZR. eauto.
Qed.

Lemma touch_lattice : forall B (s t : seg RA), lattice B (si s) -> lattice B (sj s) -> lattice B (si t) -> lattice B (sj t) ->
  (touch s t = true <-> exists a, In a (ij s) /\ In a (ij t)).
Proof.
  intros B s t H1 H2 H3 H4. rewrite touch_near. split.
  - intros (a & b & Ia & Ib & D). assert (a = b) as ->; [|eauto].
    eapply lattice_near; [| |exact D]; simpl in *; destruct Ia as [<-|[<-|[]]]; destruct Ib as [<-|[<-|[]]]; eauto.
  - intros (a & Ia & Ib). exists a, a. split; auto. split; auto.
    rewrite (proj2 (pt_distance_zero a a) (conj eq_refl eq_refl)). lra.
Qed.

Lemma along_orient : forall a b u, orient a b (along a b u) = 0.
Proof. intros. unfold orient, along; simpl. rring. Qed.

Lemma orient_along : forall a b p, a <> b -> orient a b p = 0 -> exists u, p = along a b u.
Proof.
  intros a b p N H. unfold orient in H.
  destruct (Req_dec (px b - px a) 0) as [Z|Z].
  - assert (py b - py a <> 0) as Z' by (intros Z'; apply N; apply pt_ext; lra).
    exists ((py p - py a) / (py b - py a)). unfold along. apply pt_ext; simpl.
    + rewrite Z in *. assert (px p - px a = 0) by (apply (Rmult_eq_reg_l (py b - py a)); lra). lra.
    + rfield. auto.
  - exists ((px p - px a) / (px b - px a)). unfold along. apply pt_ext; simpl.
    + rfield. auto.
    + apply (Rmult_eq_reg_l (px b - px a)); auto. 
      replace ((px b - px a) * (py a + (px p - px a) / (px b - px a) * (py b - py a)))
        with ((px b - px a) * py a + (px p - px a) * (py b - py a)) by (field; auto). lra.
Qed.

Lemma along_inj : forall a b u v, a <> b -> along a b u = along a b v -> u = v.
Proof.
  intros a b u v N H. unfold along in H. injection H as H1 H2.
  destruct (Req_dec (px b - px a) 0) as [Z|Z].
  - assert (py b - py a <> 0) as Z' by (intros Z'; apply N; apply pt_ext; lra).
    apply (Rmult_eq_reg_r (py b - py a)); auto. lra.
  - apply (Rmult_eq_reg_r (px b - px a)); auto. lra.
Qed.

Lemma along_0 : forall a b, along a b 0 = a.
Proof. intros. unfold along. apply pt_ext; simpl; ring. Qed.
Lemma along_1 : forall a b, along a b 1 = b.
Proof. intros. unfold along. apply pt_ext; simpl; ring. Qed.

(** Segments inside a parametrised line. *)
Lemma on_segment_along : forall a b c d u, a <> b ->
  (on_segment (along a b c) (along a b d) (along a b u) <-> (c <= u <= d \/ d <= u <= c)).
Proof.
  intros a b c d u N. split.
  - intros (t & T & H).
    assert (along a b u = along a b (c + t * (d - c))) as E.
    { rewrite H. unfold along. apply pt_ext; simpl; ring. }
    apply along_inj in E; auto. destruct (Rle_dec c d); [left|right]; nra.
  - intros H. destruct (Req_dec c d) as [->|Ne].
    + assert (u = d) as -> by lra. exists 0. split; [lra|]. unfold along. apply pt_ext; simpl; ring.
    + exists ((u - c) / (d - c)). split.
      * assert (forall x, x <> 0 -> 0 <= x * x * / (x*x)) as Q.
        { intros. rewrite Rinv_r; [lra|nra]. }
        destruct H as [[H1 H2]|[H1 H2]].
        -- assert (0 < / (d - c)) by (apply Rinv_0_lt_compat; lra).
           assert ((d - c) * / (d - c) = 1) by (apply Rinv_r; lra). unfold Rdiv. nra.
        -- assert (/ (d - c) < 0) by (apply Rinv_lt_0_compat; lra).
           assert ((d - c) * / (d - c) = 1) by (apply Rinv_r; lra). unfold Rdiv. nra.
      * unfold along. apply pt_ext; simpl; rfield; lra.
Qed.

Lemma on_segment_line : forall a b c d q, a <> b -> on_segment (along a b c) (along a b d) q -> exists u, q = along a b u.
Proof.
  intros a b c d q N (t & T & ->). exists (c + t * (d - c)). unfold along. apply pt_ext; simpl; ring.
Qed.

Lemma on_segment_sym : forall a b q, on_segment a b q <-> on_segment b a q.
Proof.
  assert (forall a b q, on_segment a b q -> on_segment b a q).
  { intros a b q (t & T & ->). exists (1 - t). split; [lra|]. unfold along. apply pt_ext; simpl; ring. }
  split; auto.
Qed.

Lemma on_segment_ends : forall a b, on_segment a b a /\ on_segment a b b.
Proof.
  intros. split; [exists 0|exists 1]; (split; [lra|]); [rewrite along_0|rewrite along_1]; auto.
Qed.

(** The box of a segment on its own line is the segment. *)
Lemma box_line : forall a b q, a <> b -> (exists u, q = along a b u) ->
  Rmin (px a) (px b) <= px q <= Rmax (px a) (px b) ->
  Rmin (py a) (py b) <= py q <= Rmax (py a) (py b) -> on_segment a b q.
Proof.
  intros a b q N [u ->] X Y. exists u. split; auto. simpl in X, Y.
  unfold Rmin, Rmax in *.
  destruct (Req_dec (px a) (px b)) as [Z|Z].
  - assert (py a <> py b) as Z' by (intros Z'; apply N; apply pt_ext; auto).
    destruct (Rle_dec (py a) (py b)); nra.
  - destruct (Rle_dec (px a) (px b)); nra.
Qed.

Lemma segment_box : forall a b q, on_segment a b q ->
  Rmin (px a) (px b) <= px q <= Rmax (px a) (px b) /\
  Rmin (py a) (py b) <= py q <= Rmax (py a) (py b).
Proof.
  intros a b q (u & U & ->). simpl. unfold Rmin, Rmax.
  destruct (Rle_dec (px a) (px b)); destruct (Rle_dec (py a) (py b)); nra.
Qed.

Lemma Rmin_IZR : forall a b, exists k, Rmin (IZR a) (IZR b) = IZR k /\ (k = a \/ k = b).
Proof. intros. unfold Rmin. destruct (Rle_dec _ _); eauto. Qed.
Lemma Rmax_IZR : forall a b, exists k, Rmax (IZR a) (IZR b) = IZR k /\ (k = a \/ k = b).
Proof. intros. unfold Rmax. destruct (Rle_dec _ _); eauto. Qed.

(** A fraction with a small denominator is not slightly below an integer. *)
Lemma frac_gap : forall n d m : Z, (0 < Z.abs d <= 32000000)%Z -> IZR m - 2/100000000 < IZR n / IZR d -> IZR m <= IZR n / IZR d.
Proof.
  intros n d m D H. apply Rnot_lt_le. intros L.
  assert (exists n' d', (0 < d' <= 32000000)%Z /\ IZR n / IZR d = IZR n' / IZR d') as (n' & d' & D' & E).
  { destruct (Z_lt_dec 0 d).
    - exists n, d. split; auto. lia.
    - exists (-n)%Z, (-d)%Z. split; [lia|]. rewrite !opp_IZR. field. apply not_0_IZR. lia. }
  rewrite E in *. assert (0 < IZR d') as P by (apply IZR_lt; lia).
  assert (IZR d' <= 32000000) as Q by (apply IZR_le; lia).
  assert (IZR n' = IZR n' / IZR d' * IZR d') as R by (field; lra).
  set (q := IZR n' / IZR d') in *.
  assert (IZR n' < IZR (m * d')) as L1 by (rewrite mult_IZR; nra).
  apply lt_IZR in L1.
  assert (IZR n' <= IZR (m * d' - 1)) as L2 by (apply IZR_le; lia).
  rewrite minus_IZR, mult_IZR in L2. nra.
Qed.

Lemma frac_gap_up : forall n d m : Z, (0 < Z.abs d <= 32000000)%Z -> IZR n / IZR d < IZR m + 2/100000000 -> IZR n / IZR d <= IZR m.
Proof.
  intros n d m D H.
  assert (IZR (-n) / IZR d = - (IZR n / IZR d)) as E.
  { rewrite opp_IZR. field. apply not_0_IZR. lia. }
  pose proof (frac_gap (-n) d (-m) D) as G. rewrite E, opp_IZR in G. lra.
Qed.

Lemma internal_frac : forall s (q : pt RA) nx ny d, lattice 2000 (si s) -> lattice 2000 (sj s) -> si s <> sj s ->
  (0 < Z.abs d <= 32000000)%Z -> px q = IZR nx / IZR d -> py q = IZR ny / IZR d ->
  (exists u, q = along (si s) (sj s) u) ->
  (ls_is_internal_point s (Point_new (px q) (py q)) = true <-> on_segment (si s) (sj s) q).
Proof.
  intros s q nx ny d Li Lj N D X Y L.
  rewrite internal_iff_R. 
  assert (px (Point_new (px q) (py q)) = Rround8 (px q)) as -> by reflexivity.
  assert (py (Point_new (px q) (py q)) = Rround8 (py q)) as -> by reflexivity.
  pose proof (Rround8_err (px q)) as EX. pose proof (Rround8_err (py q)) as EY.
  apply Rabs_le_inv in EX, EY.
  split.
  - intros [H1 H2]. apply box_line; auto.
    + destruct Li as (a1 & a2 & E1 & E2 & _). destruct Lj as (b1 & b2 & E3 & E4 & _).
      rewrite E1, E3 in *. destruct (Rmin_IZR a1 b1) as (k & K & _). destruct (Rmax_IZR a1 b1) as (m & M & _).
      rewrite K, M in *. rewrite X in *. split; [apply frac_gap; auto; lra|apply frac_gap_up; auto; lra].
    + destruct Li as (a1 & a2 & E1 & E2 & _). destruct Lj as (b1 & b2 & E3 & E4 & _).
      rewrite E2, E4 in *. destruct (Rmin_IZR a2 b2) as (k & K & _). destruct (Rmax_IZR a2 b2) as (m & M & _).
      rewrite K, M in *. rewrite Y in *. split; [apply frac_gap; auto; lra|apply frac_gap_up; auto; lra].
  - intros H. apply segment_box in H. lra.
Qed.

Lemma lattice_grid : forall B p, lattice B p -> Point_new (px p) (py p) = p.
Proof.
  intros B p (a & b & X & Y & _). rewrite Point_new_id; [apply pt_ext; reflexivity| |];
    [exists (a * 100000000)%Z; rewrite X|exists (b * 100000000)%Z; rewrite Y]; rewrite mult_IZR; field.
Qed.

Lemma internal_lattice : forall s (q : pt RA), lattice 2000 (si s) -> lattice 2000 (sj s) -> si s <> sj s ->
  lattice 2000 q -> (exists u, q = along (si s) (sj s) u) ->
  (ls_is_internal_point s q = true <-> on_segment (si s) (sj s) q).
Proof.
  intros s q Li Lj N Lq L. rewrite <- (lattice_grid 2000 q Lq) at 1.
  destruct Lq as (a & b & X & Y & _).
  apply (internal_frac s q a b 1); auto; try lia; [rewrite X|rewrite Y]; rfield.
Qed.

(** ** The non-parallel case *)
Lemma cross_bound : forall s t : seg RA, lattice 2000 (si s) -> lattice 2000 (sj s) -> lattice 2000 (si t) -> lattice 2000 (sj t) ->
  exists d, crossproduct s t = IZR d /\ (Z.abs d <= 32000000)%Z.
Proof.
  intros s t (a1 & a2 & A1 & A2 & A3 & A4) (b1 & b2 & B1 & B2 & B3 & B4) (c1 & c2 & C1 & C2 & C3 & C4) (d1 & d2 & D1 & D2 & D3 & D4).
  exists ((b1 - a1) * (d2 - c2) - (b2 - a2) * (d1 - c1))%Z. split.
  - rewrite crossproduct_R, A1, A2, B1, B2, C1, C2, D1, D2.
    rewrite minus_IZR, !mult_IZR, !minus_IZR. reflexivity.
  - assert (Z.abs ((b1 - a1) * (d2 - c2)) <= 4000 * 4000)%Z
      by (rewrite Z.abs_mul; apply Z.mul_le_mono_nonneg; lia).
    assert (Z.abs ((b2 - a2) * (d1 - c1)) <= 4000 * 4000)%Z
      by (rewrite Z.abs_mul; apply Z.mul_le_mono_nonneg; lia). lia.
Qed.

Lemma ip_frac : forall s t : seg RA, lattice 2000 (si s) -> lattice 2000 (sj s) -> lattice 2000 (si t) -> lattice 2000 (sj t) ->
  crossproduct s t <> 0 ->
  exists nx ny d, (0 < Z.abs d <= 32000000)%Z /\ ip_x s t = IZR nx / IZR d /\ ip_y s t = IZR ny / IZR d.
Proof.
  intros s t Ha Hb Hc Hd N. destruct (cross_bound s t Ha Hb Hc Hd) as (d & E & B).
  assert (d <> 0%Z) as D by (intros ->; apply N; auto).
  destruct Ha as (a1 & a2 & A1 & A2 & _). destruct Hb as (b1 & b2 & B1 & B2 & _).
  destruct Hc as (c1 & c2 & C1 & C2 & _). destruct Hd as (d1 & d2 & D1 & D2 & _).
  unfold ip_x, ip_y. rewrite E, A1, A2, B1, B2, C1, C2, D1, D2.
  rewrite <- ?minus_IZR, <- ?mult_IZR, <- ?minus_IZR, <- ?mult_IZR, <- ?minus_IZR.
  eexists _, _, d. split; [lia|]. split; reflexivity.
Qed.

Lemma common_nonparallel : forall s t : seg RA, lattice 2000 (si s) -> lattice 2000 (sj s) -> lattice 2000 (si t) -> lattice 2000 (sj t) ->
  crossproduct s t <> 0 ->
  exists q b, intersection_on_segment s t = Ok b /\
    (b = true <-> touch s t = false /\ shared s t q) /\
    (touch s t = true -> shared s t q) /\
    (forall q', shared s t q' -> q' = q) /\
    common_part s t = Ok (if b || touch s t then Some (CPoint (Point_new (px q) (py q))) else None).
Proof.
  intros s t Ha Hb Hc Hd N.
  destruct (ip_frac s t Ha Hb Hc Hd N) as (nx & ny & d & D & X & Y).
  destruct (ip_on_first s t N) as [u U]. destruct (ip_on_second s t N) as [v V].
  set (q := @mkpt RA (ip_x s t) (ip_y s t)) in *.
  assert (si s <> sj s) as Ns.
  { intros E. apply N. rewrite crossproduct_R, E. rring. }
  assert (si t <> sj t) as Nt.
  { intros E. apply N. rewrite crossproduct_R, E. rring. }
  pose proof (internal_frac s q nx ny d Ha Hb Ns D X Y (ex_intro _ u U)) as I1.
  pose proof (internal_frac t q nx ny d Hc Hd Nt D X Y (ex_intro _ v V)) as I2.
  assert (forall q', shared s t q' -> q' = q) as UNQ.
  { intros q' [(a & _ & Qa) (b & _ & Qb)]. eapply (lines_unique s t); eauto; [exists a|exists b|exists u|exists v]; auto. }
  assert (touch s t = true -> shared s t q) as TS.
  { intros T. apply (touch_lattice 2000) in T; auto. destruct T as (a & I & J).
    assert (shared s t a) as S.
    { split; [simpl in I|simpl in J].
      - destruct I as [<-|[<-|[]]]; apply on_segment_ends.
      - destruct J as [<-|[<-|[]]]; apply on_segment_ends. }
    rewrite <- (UNQ a S). exact S. }
  pose proof (intersection_point_R s t N) as IP.
  exists q, (if touch s t then false else ls_is_internal_point s (Point_new (px q) (py q)) && ls_is_internal_point t (Point_new (px q) (py q))).
  unfold common_part, intersection_on_segment.
  replace (is_parallel s t) with false by (symmetry; apply is_parallel_false; auto).
  rewrite IP. cbn [bind].
  change (@Point_new RA (ip_x s t) (ip_y s t)) with (@Point_new RA (px q) (py q)).
  set (b := ls_is_internal_point s _ && _). 
  assert (b = true <-> shared s t q) as BS.
  { unfold b, shared. rewrite andb_true_iff, I1, I2. tauto. }
  destruct (touch s t) eqn:T.
  - repeat split; auto; try discriminate; try (apply TS; auto). intros [? ?]; discriminate.
  - replace (if b then true else false) with b by (destruct b; auto).
    split; auto. split; [tauto|]. split; [discriminate|]. split; auto.
Qed.

(** ** The collinear case *)
Lemma is_collinear_R : forall s t : seg RA, lattice 2000 (si s) -> lattice 2000 (sj s) -> lattice 2000 (si t) -> lattice 2000 (sj t) ->
  exists b, is_collinear s t = Ok b /\
   (b = true <-> orient (si s) (sj s) (si t) = 0 /\ orient (si s) (sj s) (sj t) = 0).
Proof.
  intros s t Ha Hb Hc Hd. unfold is_collinear, ij. simpl. rewrite !on_line_R. simpl.
  eexists. split; [reflexivity|]. rewrite andb_true_r, andb_true_iff, !orb_true_iff, !Rltb_true.
  assert (forall p, lattice 2000 p ->
    ((pt_eqb p (si s) = true \/ pt_eqb p (sj s) = true) \/ Rabs (orient (si s) (sj s) p) < 1 / 100000000
      <-> orient (si s) (sj s) p = 0)) as H.
  { intros p Lp. rewrite !(lattice_eqb 2000) by auto. split.
    - intros [[->| ->]|H]; [unfold orient; ring|unfold orient; ring|].
      destruct (lattice_orient 2000 (si s) (sj s) p) as [k K]; auto. rewrite K in *.
      assert (k = 0%Z) as ->; auto. apply IZR_lt1. lra.
    - intros ->. right. rewrite Rabs_R0. lra. }
  rewrite !H by auto. tauto.
Qed.

Lemma sumsq_pos : forall a b : pt RA, a <> b -> 0 < (px b - px a) * (px b - px a) + (py b - py a) * (py b - py a).
Proof.
  intros a b N. pose proof (norm_ne (LineSegment a b) N) as P. pose proof (norm_sq (LineSegment a b)) as Q.
  simpl in Q. rewrite <- Q. apply Rmult_lt_0_compat; auto.
Qed.

(** Two segments on one line with a common endpoint. *)
Lemma fan : forall a o0 o1 : pt RA, a <> o0 -> a <> o1 -> orient a o0 o1 = 0 ->
  let l1 := LineSegment a o0 in let l2 := LineSegment a o1 in
  (Reqb (direction l1) (direction l2) = true ->
     forall q, shared l1 l2 q <->
       (let u := if Rltb (norm l2) (norm l1) then l2 else l1 in on_segment (si u) (sj u) q)) /\
  (Reqb (direction l1) (direction l2) = false -> forall q, shared l1 l2 q <-> q = a).
Proof.
  intros a o0 o1 N0 N1 O l1 l2.
  destruct (orient_along a o0 o1 N0 O) as [k K].
  assert (k <> 0) as KN by (intros ->; apply N1; rewrite K, along_0; auto).
  assert (direction l1 = direction l2 <-> 0 < k) as DK.
  { rewrite direction_eq_iff by auto. rewrite crossproduct_R, dotproduct_R. simpl.
    rewrite K; simpl.
    assert (0 < (px o0 - px a) * (px o0 - px a) + (py o0 - py a) * (py o0 - py a)) as P.
    { apply sumsq_pos. auto. }
    set (P2 := (px o0 - px a) * (px o0 - px a) + (py o0 - py a) * (py o0 - py a)) in *.
    assert ((px o0 - px a) * (px a + k * (px o0 - px a) - px a) +
            (py o0 - py a) * (py a + k * (py o0 - py a) - py a) = k * P2) as Q by (unfold P2; ring).
    rewrite Q. split; [intros [_ H]; nra|intros H; split; [rring|nra]]. }
  assert (forall q, shared l1 l2 q <-> exists u, q = along a o0 u /\ 0 <= u <= 1 /\ (0 <= u <= k \/ k <= u <= 0)) as S.
  { intros q. unfold shared. simpl. split.
    - intros [H1 H2]. destruct H1 as (u & U & ->). exists u. split; auto. split; auto.
      rewrite K in H2. rewrite <- (along_0 a o0) in H2 at 1. apply on_segment_along in H2; auto.
    - intros (u & -> & U1 & U2). split; [exists u; auto|].
      rewrite K. rewrite <- (along_0 a o0) at 1. apply on_segment_along; auto. }
  split.
  - intros E. apply Reqb_true in E. apply DK in E. intros q. rewrite S. cbv zeta.
    assert (norm l2 = k * norm l1) as NK.
    { rewrite !norm_R. simpl. rewrite K; simpl.
      replace ((px a + k * (px o0 - px a) - px a) * (px a + k * (px o0 - px a) - px a) +
        (py a + k * (py o0 - py a) - py a) * (py a + k * (py o0 - py a) - py a)) with
        (k * k * ((px o0 - px a) * (px o0 - px a) + (py o0 - py a) * (py o0 - py a))) by ring.
      rewrite (sqrt_mult (k * k)); [|nra|apply sum_sq_nonneg]. rewrite sqrt_square by lra. reflexivity. }
    pose proof (norm_ne l1 N0) as P.
    destruct (Rltb (norm l2) (norm l1)) eqn:L; rb; simpl.
    + assert (k < 1) by nra. split.
      * intros (u & -> & U1 & U2). rewrite K. rewrite <- (along_0 a o0) at 1. apply on_segment_along; auto.
      * rewrite K. intros H'. pose proof H' as H2. rewrite <- (along_0 a o0) in H' at 1.
        apply on_segment_line in H' as [u ->]; auto. exists u. split; auto.
        rewrite <- (along_0 a o0) in H2 at 1. apply on_segment_along in H2; auto. lra.
    + assert (1 <= k) by nra. split.
      * intros (u & -> & U1 & U2). exists u. auto.
      * intros (u & U & ->). exists u. split; auto. lra.
  - intros E. apply Reqb_false in E. rewrite DK in E. intros q. rewrite S. split.
    + intros (u & -> & U1 & U2). replace u with 0 by lra. apply along_0.
    + intros ->. exists 0. rewrite along_0. split; auto. lra.
Qed.

Lemma set_inter_one : forall s t : seg RA, sc s = sc t -> si s <> sj s -> si t <> sj t -> seg_loose_equal s t = false ->
  (exists a, In a (ij s) /\ In a (ij t)) ->
  exists cp, set_inter pt_sameb (ij s) (ij t) = [cp] /\ In cp (ij s) /\ In cp (ij t).
Proof.
  intros s t C Ns Nt L (a & Ia & Ib).
  assert (forall x, In x (set_inter pt_sameb (ij s) (ij t)) <-> In x (ij s) /\ In x (ij t)) as SI
    by (intros; apply set_inter_In, pt_sameb_iff).
  assert (NoDup (set_inter pt_sameb (ij s) (ij t))) as ND by (apply set_inter_NoDup, pt_sameb_iff).
  destruct (set_inter pt_sameb (ij s) (ij t)) as [|x [|y l]].
  - destruct (proj2 (SI a)); auto.
  - exists x. split; auto. apply SI. left; auto.
  - exfalso. destruct (proj1 (SI x)) as [X1 X2]; [left; auto|].
    destruct (proj1 (SI y)) as [Y1 Y2]; [right; left; auto|].
    assert (x <> y) as N by (inversion ND as [|? ? H]; intros ->; apply H; left; auto).
    assert (seg_loose_equal s t = true) as E; [|congruence].
    apply loose_equal_iff. split; auto. simpl in *.
    destruct X1 as [<-|[<-|[]]]; destruct X2 as [E2|[E2|[]]]; destruct Y1 as [<-|[<-|[]]]; destruct Y2 as [E4|[E4|[]]];
      try congruence; auto.
Qed.

Lemma existsb2 : forall X (f : X -> bool) a b, existsb f [a; b] = f a || f b.
Proof. intros. simpl. rewrite orb_false_r. auto. Qed.
Lemma forallb2 : forall X (f : X -> bool) a b, forallb f [a; b] = f a && f b.
Proof. intros. simpl. rewrite andb_true_r. auto. Qed.

Lemma by_origin2 : forall a b : pt RA, by_origin [a; b] = [a; b] \/ by_origin [a; b] = [b; a].
Proof. intros. unfold by_origin. simpl. destruct (Rltb _ _); auto. Qed.

Lemma common_collinear : forall s t : seg RA, lattice 2000 (si s) -> lattice 2000 (sj s) -> lattice 2000 (si t) -> lattice 2000 (sj t) ->
  si s <> sj s -> si t <> sj t -> sc s = sc t ->
  crossproduct s t = 0 -> orient (si s) (sj s) (si t) = 0 -> orient (si s) (sj s) (sj t) = 0 ->
  exists r, common_part s t = Ok r /\ is_common_part s t r.
Proof.
  intros s t Ha Hb Hc Hd Ns Nt C X Oi Oj. unfold common_part.
  replace (is_parallel s t) with true by (symmetry; apply is_parallel_iff; auto).
  destruct (is_collinear_R s t Ha Hb Hc Hd) as (col & E & Q). rewrite E. cbn [bind].
  replace col with true in * by (symmetry; apply Q; auto). clear Q.
  destruct (seg_loose_equal s t) eqn:LE.
  { eexists. split; [reflexivity|]. simpl. split; auto. intros q. unfold shared.
    apply loose_equal_iff in LE as [_ [[-> ->]|[-> ->]]]; [tauto|].
    rewrite (on_segment_sym (sj t)). tauto. }
  unfold overlap.
  replace (is_parallel s t) with true by (symmetry; apply is_parallel_iff; auto).
  rewrite E. cbn [bind negb].
  destruct (orient_along _ _ _ Ns Oi) as [c Ec]. destruct (orient_along _ _ _ Ns Oj) as [d Ed].
  assert (c <> d) as Ncd by (intros ->; congruence).
  assert (si s = along (si s) (sj s) 0) as E0 by (rewrite along_0; auto).
  assert (sj s = along (si s) (sj s) 1) as E1 by (rewrite along_1; auto).
  assert (forall u, shared s t (along (si s) (sj s) u) <-> 0 <= u <= 1 /\ (c <= u <= d \/ d <= u <= c)) as SH.
  { intros u. unfold shared. rewrite Ec, Ed, on_segment_along by auto.
    rewrite E0 at 1. rewrite E1 at 2. rewrite on_segment_along by auto. lra. }
  assert (forall q, shared s t q -> exists u, q = along (si s) (sj s) u) as SL.
  { intros q [(u & _ & ->) _]. eauto. }
  assert (forall u, exists v, along (si s) (sj s) u = along (si t) (sj t) v) as LT.
  { intros u. exists ((u - c) / (d - c)). rewrite Ec, Ed. unfold along. apply pt_ext; simpl; rfield; lra. }
  assert (ls_is_internal_point s (si t) = true <-> 0 <= c <= 1) as I1.
  { rewrite internal_lattice by eauto. rewrite Ec. rewrite E0 at 1. rewrite E1 at 2. rewrite on_segment_along by auto. lra. }
  assert (ls_is_internal_point s (sj t) = true <-> 0 <= d <= 1) as I2.
  { rewrite internal_lattice by eauto. rewrite Ed. rewrite E0 at 1. rewrite E1 at 2. rewrite on_segment_along by auto. lra. }
  assert (ls_is_internal_point t (si s) = true <-> c <= 0 <= d \/ d <= 0 <= c) as I3.
  { rewrite internal_lattice; auto; [|rewrite E0; auto]. rewrite Ec, Ed. rewrite E0 at 3. rewrite on_segment_along by auto. lra. }
  assert (ls_is_internal_point t (sj s) = true <-> c <= 1 <= d \/ d <= 1 <= c) as I4.
  { rewrite internal_lattice; auto; [|rewrite E1; auto]. rewrite Ec, Ed. rewrite E1 at 3. rewrite on_segment_along by auto. lra. }
  assert (touch s t = true <-> c = 0 \/ c = 1 \/ d = 0 \/ d = 1) as T.
  { rewrite (touch_lattice 2000) by auto. simpl. split.
    - assert (forall u, along (si s) (sj s) u = si s -> u = 0) as Z0.
      { intros u H. apply (along_inj (si s) (sj s)); auto. rewrite H. auto. }
      assert (forall u, along (si s) (sj s) u = sj s -> u = 1) as Z1.
      { intros u H. apply (along_inj (si s) (sj s)); auto. rewrite H. auto. }
      intros (x & [<-|[<-|[]]] & [H|[H|[]]]); rewrite ?Ec, ?Ed in H; auto.
    - intros [H|[H|[H|H]]]; subst.
      + exists (si s). rewrite Ec, along_0. auto.
      + exists (sj s). rewrite Ec, along_1. auto.
      + exists (si s). rewrite Ed, along_0. auto.
      + exists (sj s). rewrite Ed, along_1. auto. }
  unfold ij. rewrite !existsb2, !forallb2.
  destruct (touch s t) eqn:TT.
  - (* touching *)
    rewrite andb_false_r. rewrite LE.
    assert (exists a, In a (ij s) /\ In a (ij t)) as EX by (apply (touch_lattice 2000 s t); auto).
    destruct (set_inter_one s t C Ns Nt LE EX) as (cp & SI & Cs & Ct).
    unfold ij in SI. rewrite SI.
    assert (exists o0 o1, filter (fun x => pt_neb x cp) ([si s; sj s] ++ [si t; sj t]) = [o0; o1] /\
       cp <> o0 /\ cp <> o1 /\ orient cp o0 o1 = 0 /\
       forall q, shared s t q <-> shared (LineSegment cp o0) (LineSegment cp o1) q) as (o0 & o1 & F & N0 & N1 & OO & SQ).
    { assert (forall x, In x [si s; sj s; si t; sj t] -> pt_neb x cp = true <-> x <> cp) as NE.
      { intros x I. unfold pt_neb. rewrite negb_true_iff.
        assert (pt_eqb x cp = true <-> x = cp) as PE.
        { apply (lattice_eqb 2000); simpl in *.
          - destruct I as [<-|[<-|[<-|[<-|[]]]]]; auto.
          - destruct Cs as [<-|[<-|[]]]; auto. }
        rewrite <- PE. destruct (pt_eqb x cp); split; congruence. }
      assert (forall x, In x [si s; sj s; si t; sj t] -> x = cp -> pt_neb x cp = false) as NF.
      { intros x I H. destruct (pt_neb x cp) eqn:K; auto. apply NE in K; auto. congruence. }
      cbn [app filter]. simpl in Cs, Ct.
      destruct Cs as [Cs|[Cs|[]]]; destruct Ct as [Ct|[Ct|[]]].
      - exists (sj s), (sj t). rewrite (NF (si s)), (NF (si t)) by (simpl; auto).
        rewrite (proj2 (NE (sj s) ltac:(simpl; auto))), (proj2 (NE (sj t) ltac:(simpl; auto))) by congruence.
        split; auto. split; [congruence|]. split; [congruence|]. split.
        + rewrite <- Cs. exact Oj.
        + intros q. unfold shared; simpl. rewrite Cs, Ct. tauto.
      - exists (sj s), (si t). rewrite (NF (si s)), (NF (sj t)) by (simpl; auto).
        rewrite (proj2 (NE (sj s) ltac:(simpl; auto))), (proj2 (NE (si t) ltac:(simpl; auto))) by congruence.
        split; auto. split; [congruence|]. split; [congruence|]. split.
        + rewrite <- Cs. exact Oi.
        + intros q. unfold shared; simpl. rewrite Cs, Ct.
          rewrite (on_segment_sym (si t)). tauto.
      - exists (si s), (sj t). rewrite (NF (sj s)), (NF (si t)) by (simpl; auto).
        rewrite (proj2 (NE (si s) ltac:(simpl; auto))), (proj2 (NE (sj t) ltac:(simpl; auto))) by congruence.
        split; auto. split; [congruence|]. split; [congruence|]. split.
        + rewrite <- Cs. rewrite orient_swap, Oj. ring.
        + intros q. unfold shared; simpl. rewrite Cs, Ct.
          rewrite (on_segment_sym (si s)). tauto.
      - exists (si s), (si t). rewrite (NF (sj s)), (NF (sj t)) by (simpl; auto).
        rewrite (proj2 (NE (si s) ltac:(simpl; auto))), (proj2 (NE (si t) ltac:(simpl; auto))) by congruence.
        split; auto. split; [congruence|]. split; [congruence|]. split.
        + rewrite <- Cs. rewrite orient_swap, Oi. ring.
        + intros q. unfold shared; simpl. rewrite Cs, Ct.
          rewrite (on_segment_sym (si s)), (on_segment_sym (si t)). tauto. }
    rewrite F. unfold get. simpl nth_error. cbn [bind].
    destruct (fan cp o0 o1 N0 N1 OO) as [F1 F2].
    change (@neqb RA) with Reqb. change (@nltb RA) with Rltb.
    destruct (Reqb (direction (LineSegment cp o0)) (direction (LineSegment cp o1))) eqn:DD; cbn [bind snd].
    + eexists. split; [reflexivity|]. simpl. split.
      * destruct (Rltb _ _); simpl; auto.
      * intros q. rewrite SQ. apply F1; auto.
    + eexists. split; [reflexivity|]. simpl. exists cp. split.
      * assert (lattice 2000 cp) as Lc by (simpl in Cs; destruct Cs as [<-|[<-|[]]]; auto).
        symmetry. exact (lattice_grid 2000 cp Lc).
      * intros q. rewrite SQ. apply F2; auto.
  - (* not touching *)
    assert (forall e f x y, e = along (si s) (sj s) x -> f = along (si s) (sj s) y ->
      (forall u, 0 <= u <= 1 /\ (c <= u <= d \/ d <= u <= c) <-> (x <= u <= y \/ y <= u <= x)) ->
      forall q, shared s t q <-> on_segment e f q) as SEG.
    { intros e f x y -> -> H q. split.
      - intros S. destruct (SL q S) as [u ->]. apply on_segment_along; auto. apply H, SH, S.
      - intros S. destruct (on_segment_line _ _ _ _ _ Ns S) as [u ->]. apply SH, H.
        apply on_segment_along in S; auto. }
    assert (forall e f x y, e = along (si s) (sj s) x -> f = along (si s) (sj s) y -> x <> y ->
      (forall u, 0 <= u <= 1 /\ (c <= u <= d \/ d <= u <= c) <-> (x <= u <= y \/ y <= u <= x)) ->
      exists r, (ol <- match by_origin [e; f] with
        | [a; b] => Ok (true, Some (CSeg (LineSegment a b)))
        | l => Ok (true, Some (COdd l)) end ;; Ok (snd ol)) = Ok r /\ is_common_part s t r) as TWO.
    { intros e f x y He Hf Nxy H. pose proof (SEG e f x y He Hf H) as S.
      assert (e <> f) as Nef by (intros K; apply Nxy; apply (along_inj (si s) (sj s)); congruence).
      destruct (by_origin2 e f) as [-> | ->]; cbn [bind snd]; eexists; (split; [reflexivity|]); cbn [is_common_part si sj LineSegment];
        split; auto. intros q. rewrite on_segment_sym. apply S. }
    assert (~ (c = 0 \/ c = 1 \/ d = 0 \/ d = 1)) as T' by (rewrite <- T; discriminate).
    rewrite andb_true_r, LE.
    destruct (ls_is_internal_point s (si t)) eqn:B1; destruct (ls_is_internal_point s (sj t)) eqn:B2;
    destruct (ls_is_internal_point t (si s)) eqn:B3; destruct (ls_is_internal_point t (sj s)) eqn:B4;
    cbn [orb andb negb filter app bind snd];
    rewrite ?B1, ?B2, ?B3, ?B4; cbn [filter app];
    repeat match goal with
    | H : true = true <-> _ |- _ => destruct H as [H _]; specialize (H eq_refl)
    | H : false = true <-> ?P |- _ => assert (~ P) by (rewrite <- H; discriminate); clear H
    end; try (exfalso; lra).
    + eexists. split; [reflexivity|]. split; auto. apply (SEG _ _ c d Ec Ed). intros; lra.
    + apply (TWO _ _ c 0 Ec E0); [intros K; apply T'; auto|intros; lra].
    + apply (TWO _ _ c 1 Ec E1); [intros K; apply T'; auto|intros; lra].
    + apply (TWO _ _ d 0 Ed E0); [intros K; apply T'; auto|intros; lra].
    + apply (TWO _ _ d 1 Ed E1); [intros K; apply T'; auto|intros; lra].
    + eexists. split; [reflexivity|]. split; auto. apply (SEG _ _ 0 1 E0 E1). intros; lra.
    + eexists. split; [reflexivity|]. intros q S. destruct (SL q S) as [u ->]. apply SH in S. lra.
Qed.

(*@ C13_common_part *)
(** C13: on the integer grid [common_part] never fails and returns the set-theoretic common part, for
    all non-null segments of one class. *)
Lemma common_part_spec : forall s t : seg RA,
  lattice 2000 (si s) -> lattice 2000 (sj s) -> lattice 2000 (si t) -> lattice 2000 (sj t) ->
  si s <> sj s -> si t <> sj t -> sc s = sc t ->
  exists r, common_part s t = Ok r /\ is_common_part s t r.
Proof.
  intros s t Ha Hb Hc Hd Ns Nt C.
  destruct (Req_dec (crossproduct s t) 0) as [X|X].
  - destruct (is_collinear_R s t Ha Hb Hc Hd) as (col & E & Q). destruct col.
    + apply common_collinear; auto; apply Q; auto.
    + exists None. unfold common_part.
      replace (is_parallel s t) with true by (symmetry; apply is_parallel_iff; auto).
      rewrite E. split; [reflexivity|]. intros q [(u & _ & U) (v & _ & V)].
      assert (false = true) as F; [|discriminate]. apply Q.
      rewrite crossproduct_R in X. rewrite U in V. unfold along in V. injection V as V1 V2.
      set (a := px (sj s) - px (si s)) in *. set (b := py (sj s) - py (si s)) in *.
      set (e := px (sj t) - px (si t)) in *. set (f := py (sj t) - py (si t)) in *.
      assert (orient (si s) (sj s) (si t) = 0) as O1.
      { unfold orient. fold a b.
        replace (py (si t) - py (si s)) with (u * b - v * f) by lra.
        replace (px (si t) - px (si s)) with (u * a - v * e) by lra.
        replace (a * (u * b - v * f) - b * (u * a - v * e)) with (- v * (a * f - b * e)) by ring. rewrite X. ring. }
      split; auto. replace (orient (si s) (sj s) (sj t)) with (orient (si s) (sj s) (si t) + (a * f - b * e)).
      * rewrite O1, X. ring.
      * unfold orient. fold a b. unfold e, f. ring.
  - destruct (common_nonparallel s t Ha Hb Hc Hd X) as (q & b & _ & B & T & U & E).
    rewrite E. eexists. split; [reflexivity|].
    destruct (b || touch s t) eqn:O; cbn [is_common_part].
    + exists q. split; [reflexivity|]. assert (shared s t q) as S.
      { apply orb_true_iff in O as [O|O]; [apply B|apply T]; auto. }
      intros q'. split; [apply U|intros ->; auto].
    + apply orb_false_iff in O as [O1 O2]. intros q' S. rewrite (U _ S) in S.
      rewrite O1 in B. assert (false = true) by (apply B; auto). discriminate.
Qed.

(*@ C13_common_part_sym *)
(** C13: whether there is a common part, and whether it is a point or a segment, does not depend on
    the order of the two segments. *)
Lemma common_part_sym : forall s t : seg RA,
  lattice 2000 (si s) -> lattice 2000 (sj s) -> lattice 2000 (si t) -> lattice 2000 (sj t) ->
  si s <> sj s -> si t <> sj t -> sc s = sc t ->
  exists r r', common_part s t = Ok r /\ common_part t s = Ok r' /\
    match r, r' with
    | None, None => True
    | Some (CPoint p), Some (CPoint p') => p = p'
    | Some (CSeg u), Some (CSeg u') => forall q, on_segment (si u) (sj u) q <-> on_segment (si u') (sj u') q
    | _, _ => False
    end.
Proof.
  intros s t Ha Hb Hc Hd Ns Nt C.
  destruct (common_part_spec s t Ha Hb Hc Hd Ns Nt C) as (r & E & P).
  destruct (common_part_spec t s Hc Hd Ha Hb Nt Ns (eq_sym C)) as (r' & E' & P').
  exists r, r'. split; auto. split; auto.
  assert (forall q, shared s t q <-> shared t s q) as S by (unfold shared; intros; tauto).
  assert (forall u : seg RA, si u <> sj u -> (forall q, on_segment (si u) (sj u) q -> False) -> False) as E1.
  { intros u _ H. apply (H (si u)), on_segment_ends. }
  assert (forall (u : seg RA) q0, si u <> sj u -> (forall q, on_segment (si u) (sj u) q -> q = q0) -> False) as E2.
  { intros u q0 N H. apply N. rewrite (H (si u)), (H (sj u)) by apply on_segment_ends. auto. }
  destruct r as [[p|u|l]|], r' as [[p'|u'|l']|]; simpl in *; auto.
  - destruct P as (q & -> & P). destruct P' as (q' & -> & P'). rewrite (proj1 (P q')); auto. apply S, P'; auto.
  - destruct P as (q & -> & P). destruct P' as (N & P'). apply (E2 u' q N). intros x H. apply P, S, P', H.
  - destruct P as (q & -> & P). apply (P' q). apply S, P; auto.
  - destruct P as (N & P). destruct P' as (q & -> & P'). apply (E2 u q N). intros x H. apply P', S, P, H.
  - destruct P as (N & P). destruct P' as (N' & P'). intros q. rewrite <- P, <- P'. apply S.
  - destruct P as (N & P). apply (E1 u N). intros q H. apply (P' q), S, P, H.
  - destruct P' as (q & -> & P'). apply (P q). apply S, P'; auto.
  - destruct P' as (N & P'). apply (E1 u' N). intros q H. apply (P q), S, P', H.
Qed.

(*@ C14_proper_crossing *)
(** C14: on the integer grid [intersection_on_segment] holds exactly for non-parallel segments that
    share a point but no endpoint. *)
Lemma proper_crossing : forall s t : seg RA,
  lattice 2000 (si s) -> lattice 2000 (sj s) -> lattice 2000 (si t) -> lattice 2000 (sj t) ->
  exists b, intersection_on_segment s t = Ok b /\
   (b = true <-> crossproduct s t <> 0 /\ (exists q, shared s t q) /\
                 si s <> si t /\ si s <> sj t /\ sj s <> si t /\ sj s <> sj t).
Proof.
  intros s t Ha Hb Hc Hd.
  assert (touch s t = false <-> si s <> si t /\ si s <> sj t /\ sj s <> si t /\ sj s <> sj t) as TT.
  { pose proof (touch_lattice 2000 s t Ha Hb Hc Hd) as T. simpl in T. destruct (touch s t).
    - split; [discriminate|]. intros (N1 & N2 & N3 & N4). destruct T as [T _].
      destruct (T eq_refl) as (a & [H|[H|[]]] & [K|[K|[]]]); congruence.
    - split; auto. intros _. destruct T as [_ T].
      assert (forall a, In a (ij s) -> In a (ij t) -> False) as K.
      { intros a I J. assert (false = true) by (apply T; exists a; auto). discriminate. }
      repeat split; intros E; [apply (K (si s))|apply (K (si s))|apply (K (sj s))|apply (K (sj s))]; simpl; auto. }
  destruct (Req_dec (crossproduct s t) 0) as [X|X].
  - exists false. split; [apply ios_sym; right; apply is_parallel_iff; auto|]. split; [discriminate|tauto].
  - destruct (common_nonparallel s t Ha Hb Hc Hd X) as (q & b & I & B & T & U & _).
    exists b. split; auto. rewrite B, TT. split.
    + intros [H S]. repeat split; try apply H; eauto.
    + intros (_ & (q' & S) & H). split; auto. rewrite <- (U _ S). auto.
Qed.

Lemma lattice_IZR : forall B a b, (Z.abs a <= B)%Z -> (Z.abs b <= B)%Z -> lattice B (@mkpt RA (IZR a) (IZR b)).
Proof. intros. exists a, b. auto. Qed.

(*@ex C13_example_overlap *)
(** A grid case meeting the hypotheses: two overlapping, oppositely directed collinear segments. *)
Lemma common_part_example :
  let s := LineSegment (@mkpt RA 0 0) (@mkpt RA 6 3) in
  let t := LineSegment (@mkpt RA 8 4) (@mkpt RA 2 1) in
  (lattice 2000 (si s) /\ lattice 2000 (sj s) /\ lattice 2000 (si t) /\ lattice 2000 (sj t)) /\
  (si s <> sj s /\ si t <> sj t /\ sc s = sc t) /\
  shared s t (@mkpt RA 4 2) /\ shared s t (@mkpt RA 2 1).
Proof.
  cbv zeta. split; [|split; [|split]].
  - repeat split; simpl; apply lattice_IZR; lia.
  - repeat split; simpl; intros E; injection E; lra.
  - split; simpl.
    + exists (2/3). split; [lra|]. unfold along. apply pt_ext; simpl; lra.
    + exists (2/3). split; [lra|]. unfold along. apply pt_ext; simpl; lra.
  - split; simpl.
    + exists (1/3). split; [lra|]. unfold along. apply pt_ext; simpl; lra.
    + exists 1. split; [lra|]. unfold along. apply pt_ext; simpl; lra.
Qed.

(*@ C13_class_refuted *)
(** C13, finding: two non-null segments of different classes with the same end points have no common
    part: the call raises. *)
Lemma common_class_refuted : forall (a b : pt RA) (c c' : scls), a <> b -> c <> c' ->
  common_part (mkseg c a b) (mkseg c' a b) = Err OtherException.
Proof.
  intros a b c c' N C. unfold common_part, overlap.
  set (s := mkseg c a b). set (t := mkseg c' a b).
  assert (is_parallel s t = true) as P by (apply is_parallel_iff; rewrite crossproduct_R; simpl; rring).
  assert (is_collinear s t = Ok true) as L.
  { unfold is_collinear, ij. simpl. rewrite !on_line_R. simpl. rewrite !pt_eqb_refl, !orb_true_r. reflexivity. }
  assert (seg_loose_equal s t = false) as E.
  { destruct (seg_loose_equal s t) eqn:E; auto. apply loose_equal_iff in E as [E _]. elim C. exact E. }
  assert (touch s t = true) as T.
  { apply touch_near. exists a, a. rewrite (proj2 (pt_distance_zero a a) (conj eq_refl eq_refl)). simpl.
    repeat split; auto. lra. }
  rewrite P, L. cbn [bind negb]. rewrite E. cbn [bind negb]. rewrite T. rewrite andb_false_r.
  destruct (set_inter pt_sameb (ij s) (ij t)) as [|x [|y l]] eqn:SI; auto.
  exfalso. assert (forall x, In x (set_inter pt_sameb (ij s) (ij t)) <-> In x (ij s) /\ In x (ij t)) as I
    by (intros; apply set_inter_In, pt_sameb_iff).
  rewrite SI in I. assert (In a [x]) as I1 by (apply I; simpl; auto). assert (In b [x]) as I2 by (apply I; simpl; auto).
  simpl in *. destruct I1 as [I1|[]]; destruct I2 as [I2|[]]. congruence.
Qed.

(*@ C13_tolerance_refuted *)
(** C13, finding: off the integer grid the box tolerance reports a common point of disjoint
    segments. *)
Lemma common_tolerance_refuted : exists (s t : seg RA) (p : pt RA),
  stored (si s) /\ stored (sj s) /\ stored (si t) /\ stored (sj t) /\
  common_part s t = Ok (Some (CPoint p)) /\ forall q, ~ shared s t q.
Proof.
  set (e := 100000001 / 10^8).
  exists (LineSegment (@mkpt RA 0 0) (@mkpt RA 1 0)), (LineSegment (@mkpt RA e (-1)) (@mkpt RA e 1)), (@mkpt RA e 0).
  assert (stored (@mkpt RA 0 0)) as S0 by (split; [exists 0%Z|exists 0%Z]; simpl; lra).
  assert (stored (@mkpt RA 1 0)) as S1 by (split; [exists (10^8)%Z|exists 0%Z]; simpl; lra).
  assert (stored (@mkpt RA e (-1))) as S2 by (split; [exists 100000001%Z|exists (-10^8)%Z]; unfold e; simpl; lra).
  assert (stored (@mkpt RA e 1)) as S3 by (split; [exists 100000001%Z|exists (10^8)%Z]; unfold e; simpl; lra).
  split; auto. split; auto. split; auto. split; auto.
  set (s := LineSegment _ _). set (t := LineSegment _ _).
  assert (crossproduct s t = 2) as X by (rewrite crossproduct_R; simpl; unfold e; lra).
  assert (is_parallel s t = false) as P by (apply is_parallel_false; lra).
  assert (Point_new (ip_x s t) (ip_y s t) = @mkpt RA e 0) as IP.
  { unfold ip_x, ip_y. rewrite X. simpl.
    match goal with |- Point_new ?a ?b = _ => replace a with e by lra; replace b with 0 by lra end.
    rewrite Point_new_id; [reflexivity| |].
    - exists 100000001%Z. unfold e. lra.
    - exists 0%Z. lra. }
  assert (intersection_point s t = Ok (Some (@mkpt RA e 0))) as I by (rewrite intersection_point_R by lra; rewrite IP; auto).
  assert (touch s t = false) as T.
  { destruct (touch s t) eqn:T; auto. apply touch_near in T as (a & b & Ia & Ib & D).
    exfalso. rewrite pt_distance_R in D. simpl in Ia, Ib.
    assert (forall u v, v * v = 1 -> 1/100000000 <= sqrt (u * u + v * v)) as Q.
    { intros u v V. apply Rle_trans with (sqrt 1); [rewrite sqrt_1; lra|]. apply sqrt_le_1_alt. nra. }
    destruct Ia as [<-|[<-|[]]]; destruct Ib as [<-|[<-|[]]]; simpl in D;
    (match type of D with sqrt (?u * ?u + ?v * ?v) < _ => pose proof (Q u v ltac:(lra)) end; lra). }
  split.
  - unfold common_part, intersection_on_segment. rewrite P, I, T. cbn [bind].
    replace (ls_is_internal_point s (@mkpt RA e 0)) with true; 
      [replace (ls_is_internal_point t (@mkpt RA e 0)) with true; [reflexivity|]|];
      symmetry; apply internal_iff_R; simpl; unfold e, Rmin, Rmax; repeat destruct (Rle_dec _ _); lra.
  - intros q [(u & U & ->) (v & V & H)]. unfold along in H. injection H as H1 H2. simpl in *. unfold e in *. lra.
Qed.

(*@ C13_null_segment_refuted *)
(** C13, finding: a null segment counts as collinear with everything, and the answer depends on the
    argument order. *)
Lemma common_null_refuted : exists (s t : seg RA) (u : seg RA),
  lattice 10 (si s) /\ lattice 10 (sj s) /\ lattice 10 (si t) /\ lattice 10 (sj t) /\
  common_part s t = Ok (Some (CSeg u)) /\ common_part t s = Ok None /\ forall q, ~ shared s t q.
Proof.
  set (n := @mkpt RA 5 1).
  exists (LineSegment n n), (LineSegment (@mkpt RA 0 0) (@mkpt RA 10 3)), (LineSegment n n).
  split; [apply lattice_IZR; lia|]. split; [apply lattice_IZR; lia|].
  split; [apply lattice_IZR; lia|]. split; [apply lattice_IZR; lia|].
  set (s := LineSegment n n). set (t := LineSegment _ _).
  assert (lattice 2000 (si s)) as L1 by (apply lattice_IZR; lia).
  assert (lattice 2000 (sj s)) as L2 by (apply lattice_IZR; lia).
  assert (lattice 2000 (si t)) as L3 by (apply lattice_IZR; lia).
  assert (lattice 2000 (sj t)) as L4 by (apply lattice_IZR; lia).
  assert (is_parallel s t = true) as P by (apply is_parallel_iff; rewrite crossproduct_R; simpl; lra).
  assert (is_parallel t s = true) as P' by (apply is_parallel_iff; rewrite crossproduct_R; simpl; lra).
  assert (seg_loose_equal s t = false) as E.
  { destruct (seg_loose_equal s t) eqn:E; auto. apply loose_equal_iff in E as [_ [[E _]|[E _]]]; injection E; lra. }
  assert (touch s t = false) as T.
  { destruct (touch s t) eqn:T; auto. apply (touch_lattice 2000) in T; auto. destruct T as (a & I & J).
    simpl in I, J. destruct I as [<-|[<-|[]]]; destruct J as [J|[J|[]]]; injection J; lra. }
  assert (is_collinear s t = Ok true) as C.
  { destruct (is_collinear_R s t) as (b & B & Q); auto. rewrite B. f_equal. apply Q. unfold orient; simpl. lra. }
  assert (is_collinear t s = Ok false) as C'.
  { destruct (is_collinear_R t s) as (b & B & Q); auto. rewrite B. f_equal.
    destruct b; auto. destruct Q as [Q _]. destruct (Q eq_refl) as [K _]. unfold orient in K; simpl in K. lra. }
  assert (ls_is_internal_point t n = true) as I.
  { apply internal_iff_R; simpl; unfold Rmin, Rmax; repeat destruct (Rle_dec _ _); lra. }
  assert (ls_is_internal_point s (si t) = false) as I'.
  { destruct (ls_is_internal_point s (si t)) eqn:K; auto. apply internal_iff_R in K. simpl in K.
    unfold Rmin, Rmax in K; repeat destruct (Rle_dec _ _) in K; lra. }
  split; [|split].
  - unfold common_part, overlap. rewrite P, C. cbn [bind negb]. rewrite E. cbn [bind negb]. rewrite T.
    unfold ij. rewrite !existsb2, !forallb2. rewrite I'. simpl si. simpl sj. rewrite I. cbn [andb orb negb bind snd].
    destruct (ls_is_internal_point s (@mkpt RA 10 3)); reflexivity.
  - unfold common_part. rewrite P', C'. reflexivity.
  - intros q [(u & U & ->) (v & V & H)]. unfold along in H. injection H as H1 H2. simpl in *. lra.
Qed.
