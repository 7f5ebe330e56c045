(** Direction and angle of segments over the exact reals. *)
From Coq Require Import Reals ZArith Lra Lia Bool List Psatz.
From Verif Require Import Base Arith ArithR MPoint MLine Spec PPoint PLine.
Import ListNotations.
Local Open Scope R_scope.
#[local] Existing Instance RA.

Lemma sqrt_factor : forall x y, x <> 0 -> sqrt (x * x + y * y) = Rabs x * sqrt (1 + (y / x)²).
Proof.
  intros x y H. rewrite <- sqrt_Rsqr_abs. rewrite <- sqrt_mult; [|apply Rle_0_sqr|pose proof (Rle_0_sqr (y/x)); lra].
  f_equal. unfold Rsqr. field. exact H.
Qed.

Lemma atan2_spec : forall x y,
  sqrt (x * x + y * y) * cos (Ratan2 y x) = x /\ sqrt (x * x + y * y) * sin (Ratan2 y x) = y /\
  - PI < Ratan2 y x <= PI.
Proof.
  intros x y. unfold Ratan2.
  pose proof PI_RGT_0 as PP.
  destruct (Rlt_dec 0 x) as [X|X]; [|destruct (Rlt_dec x 0) as [X'|X']].
  - rewrite sqrt_factor by lra. rewrite cos_atan, sin_atan. rewrite Rabs_right by lra.
    assert (0 < sqrt (1 + (y / x)²)) by (apply sqrt_lt_R0; pose proof (Rle_0_sqr (y/x)); lra).
    pose proof (atan_bound (y/x)).
    split; [field; lra|]. split; [field; lra|]. lra.
  - rewrite sqrt_factor by lra. rewrite Rabs_left by lra.
    assert (0 < sqrt (1 + (y / x)²)) by (apply sqrt_lt_R0; pose proof (Rle_0_sqr (y/x)); lra).
    pose proof (atan_bound (y/x)) as AB.
    assert (y / x <= 0 <-> 0 <= y) as SG.
    { split; intros.
      - apply Rnot_lt_le. intros L. assert (0 < y / x); [|lra].
        unfold Rdiv. assert (/ x < 0) by (apply Rinv_lt_0_compat; auto). nra.
      - unfold Rdiv. assert (/ x < 0) by (apply Rinv_lt_0_compat; auto). nra. }
    destruct (Rle_dec 0 y) as [Y|Y].
    + rewrite neg_cos, neg_sin, cos_atan, sin_atan.
      split; [field; lra|]. split; [field; lra|].
      assert (atan (y/x) <= 0).
      { destruct (proj2 SG Y) as [L|E]; [rewrite <- atan_0; left; apply atan_increasing; auto|].
        rewrite E, atan_0. lra. }
      lra.
    + assert (0 < y / x) by (apply Rnot_le_lt; intros C; apply SG in C; lra).
      assert (0 < atan (y/x)) by (rewrite <- atan_0; apply atan_increasing; auto).
      replace (atan (y/x) - PI) with (- (PI - atan (y/x))) by ring.
      rewrite cos_neg, sin_neg, Rtrigo_facts.cos_pi_minus, Rtrigo_facts.sin_pi_minus, cos_atan, sin_atan.
      split; [field; lra|]. split; [field; lra|]. lra.
  - assert (x = 0) as -> by lra.
    replace (0 * 0 + y * y) with (y²) by (unfold Rsqr; ring).
    rewrite sqrt_Rsqr_abs.
    destruct (Rlt_dec 0 y) as [Y|Y]; [|destruct (Rlt_dec y 0) as [Y'|Y']].
    + rewrite cos_PI2, sin_PI2, Rabs_right by lra. lra.
    + rewrite cos_neg, sin_neg, cos_PI2, sin_PI2, Rabs_left by lra. lra.
    + replace y with 0 by lra. rewrite Rabs_R0. lra.
Qed.

Lemma cos_one_small : forall z, - (2 * PI) < z < 2 * PI -> cos z = 1 -> z = 0.
Proof.
  intros z B H. replace z with (2 * (z / 2)) in H by field.
  rewrite cos_2a_sin in H.
  assert (sin (z/2) = 0) as S by nra.
  destruct (Rtotal_order z 0) as [L|[E|G]]; auto.
  - assert (0 < sin (- (z/2))) by (apply sin_gt_0; lra). rewrite sin_neg in H0. lra.
  - assert (0 < sin (z/2)) by (apply sin_gt_0; lra). lra.
Qed.

Lemma angle_unique : forall a b, - (2 * PI) < a - b < 2 * PI -> cos a = cos b -> sin a = sin b -> a = b.
Proof.
  intros a b B C S. assert (a - b = 0); [|lra].
  apply cos_one_small; auto. rewrite cos_minus, C, S.
  pose proof (sin2_cos2 b) as T. unfold Rsqr in T. lra.
Qed.

(** Degrees to radians. *)
Definition rad (d : R) : R := d * PI / 180.

Lemma direction_R : forall s : seg RA,
  direction s = (let r := Ratan2 (py (sj s) - py (si s)) (px (sj s) - px (si s)) * (180 / PI) in
                 if Rltb r 0 then 360 + r else r).
Proof. intros. unfold direction, delta_x, delta_y; ra. reflexivity. Qed.

Lemma direction_char : forall s : seg RA,
  0 <= direction s < 360 /\
  norm s * cos (rad (direction s)) = px (sj s) - px (si s) /\
  norm s * sin (rad (direction s)) = py (sj s) - py (si s).
Proof.
  intros s. rewrite direction_R, norm_R. cbv zeta.
  set (x := px (sj s) - px (si s)). set (y := py (sj s) - py (si s)).
  destruct (atan2_spec x y) as (C & S & B). set (t := Ratan2 y x) in *.
  pose proof PI_RGT_0 as PP.
  assert (/ PI > 0) as IP by (apply Rinv_0_lt_compat; auto).
  destruct (Rltb (t * (180 / PI)) 0) eqn:E; rb.
  - assert (t < 0).
    { apply Rnot_le_lt. intros L. unfold Rdiv in E. nra. }
    assert (rad (360 + t * (180 / PI)) = t + 2 * PI) as -> by (unfold rad; field; lra).
    rewrite cos_plus, sin_plus, cos_2PI, sin_2PI.
    split; [|split; lra]. split.
    + replace (360 + t * (180/PI)) with (180 * (2 * PI + t) * / PI) by (field; lra). 
      apply Rmult_le_pos; [nra|lra].
    + lra.
  - assert (0 <= t).
    { apply Rnot_lt_le. intros L. unfold Rdiv in E. nra. }
    assert (rad (t * (180 / PI)) = t) as -> by (unfold rad; field; lra).
    split; [|split; lra]. split; auto.
    apply Rle_lt_trans with 180; [|lra].
    replace (t * (180 / PI)) with (180 - 180 * (PI - t) * / PI) by (field; lra).
    assert (0 <= 180 * (PI - t) * / PI) by (apply Rmult_le_pos; nra). lra.
Qed.

Lemma direction_unique : forall (s : seg RA) d, norm s <> 0 -> 0 <= d < 360 ->
  norm s * cos (rad d) = px (sj s) - px (si s) -> norm s * sin (rad d) = py (sj s) - py (si s) ->
  d = direction s.
Proof.
  intros s d N B C S. destruct (direction_char s) as (B' & C' & S').
  pose proof PI_RGT_0 as PP.
  assert (rad d = rad (direction s)) as E.
  { apply angle_unique.
    - unfold rad. nra.
    - apply (Rmult_eq_reg_l (norm s)); auto. lra.
    - apply (Rmult_eq_reg_l (norm s)); auto. lra. }
  unfold rad in E. apply (Rmult_eq_reg_r (PI / 180)); lra.
Qed.

(*@ C19_direction *)
(** C19: the direction is an angle in [0, 360) whose cosine and sine, times the length, give the
    segment's vector - for every segment; for non-null segments it is the only such angle. *)
Lemma direction_spec : forall s : seg RA,
  0 <= direction s < 360 /\
  norm s * cos (direction s * PI / 180) = px (sj s) - px (si s) /\
  norm s * sin (direction s * PI / 180) = py (sj s) - py (si s) /\
  (si s <> sj s -> forall d, 0 <= d < 360 ->
     norm s * cos (d * PI / 180) = px (sj s) - px (si s) ->
     norm s * sin (d * PI / 180) = py (sj s) - py (si s) -> d = direction s).
Proof.
  intros s. destruct (direction_char s) as (B & C & S). split; auto. split; auto. split; auto.
  intros N d Bd Cd Sd. apply direction_unique; auto.
  intros Z. apply norm_pos_iff in Z as []. apply N. apply pt_ext; auto.
Qed.

Lemma norm_ne : forall s : seg RA, si s <> sj s -> 0 < norm s.
Proof.
  intros s N. destruct (norm_nonneg s) as [L|E]; auto. symmetry in E.
  apply norm_pos_iff in E as []. elim N. apply pt_ext; auto.
Qed.

Lemma dot_cross_dir : forall s t : seg RA,
  dotproduct s t = norm s * norm t * cos (rad (direction t) - rad (direction s)) /\
  crossproduct s t = norm s * norm t * sin (rad (direction t) - rad (direction s)).
Proof.
  intros s t. rewrite dotproduct_R, crossproduct_R.
  destruct (direction_char s) as (_ & C & S). destruct (direction_char t) as (_ & C' & S').
  rewrite <- C, <- S, <- C', <- S'. rewrite cos_minus, sin_minus. split; rring.
Qed.

Lemma direction_eq_iff : forall s t : seg RA, si s <> sj s -> si t <> sj t ->
  (direction s = direction t <-> crossproduct s t = 0 /\ 0 < dotproduct s t).
Proof.
  intros s t Hs Ht. pose proof (norm_ne s Hs) as Ns. pose proof (norm_ne t Ht) as Nt.
  destruct (dot_cross_dir s t) as [D C]. rewrite D, C.
  destruct (direction_char s) as (Bs & _ & _). destruct (direction_char t) as (Bt & _ & _).
  set (a := norm s * norm t). assert (0 < a) as A by (apply Rmult_lt_0_compat; auto).
  split.
  - intros ->. rewrite Rminus_diag_eq by reflexivity. rewrite sin_0, cos_0. split; nra.
  - intros [S P].
    assert (sin (rad (direction t) - rad (direction s)) = 0) as S0.
    { apply Rmult_integral in S as [S|S]; lra. }
    assert (0 < cos (rad (direction t) - rad (direction s))) as P0 by nra.
    pose proof (sin2_cos2 (rad (direction t) - rad (direction s))) as T. unfold Rsqr in T.
    assert (cos (rad (direction t) - rad (direction s)) = 1) as C1 by nra.
    pose proof PI_RGT_0 as PP.
    apply cos_one_small in C1; [|unfold rad; nra].
    unfold rad in C1. apply (Rmult_eq_reg_r (PI / 180)); lra.
Qed.

(*@ C19_direction_equal *)
(** C19: two non-null segments have the same direction exactly when the vector of one is a positive
    multiple of the vector of the other. *)
Lemma direction_equal : forall s t : seg RA, si s <> sj s -> si t <> sj t ->
  (direction s = direction t <->
   exists k, 0 < k /\ px (sj t) - px (si t) = k * (px (sj s) - px (si s)) /\
             py (sj t) - py (si t) = k * (py (sj s) - py (si s))).
Proof.
  intros s t Hs Ht. rewrite direction_eq_iff by auto. rewrite crossproduct_R, dotproduct_R.
  pose proof (norm_ne s Hs) as Ns. pose proof (norm_sq s) as NS.
  set (a := px (sj s) - px (si s)) in *. set (b := py (sj s) - py (si s)) in *.
  set (c := px (sj t) - px (si t)). set (d := py (sj t) - py (si t)).
  assert (0 < a * a + b * b) as P by nra.
  split.
  - intros [C D]. exists ((a * c + b * d) / (a * a + b * b)).
    split; [apply Rdiv_lt_0_compat; auto|].
    assert (b * c = a * d) as H by lra.
    split; apply (Rmult_eq_reg_r (a * a + b * b)); try lra.
    + replace (c * (a * a + b * b)) with (a * a * c + b * (b * c)) by ring. rewrite H. field. lra.
    + replace (d * (a * a + b * b)) with (a * (a * d) + b * b * d) by ring. rewrite <- H. field. lra.
  - intros (k & K & X & Y). rewrite X, Y. split; [rring|].
    replace (a * (k * a) + b * (k * b)) with (k * (a * a + b * b)) by ring. nra.
Qed.

Lemma Rmodulo_range : forall x y, 0 <= x < 2 * y -> 0 < y ->
  Rmodulo x y = if Rlt_dec x y then x else x - y.
Proof.
  intros x y B P. unfold Rmodulo.
  assert (0 < / y) as IP by (apply Rinv_0_lt_compat; auto).
  destruct (Rlt_dec x y).
  - rewrite (Int_part_unique (x / y) 0); [ring|]. unfold Rdiv. split; [nra|].
    replace (0 + 1) with (y * / y) by (field; lra). nra.
  - rewrite (Int_part_unique (x / y) 1); [ring|]. unfold Rdiv.
    replace 1 with (y * / y) at 1 by (field; lra).
    split; [nra|]. replace (1 + 1) with (2 * y * / y) by (field; lra). nra.
Qed.

Lemma opposite_iff : forall s t : seg RA, si s <> sj s -> si t <> sj t ->
  (opposite_direction s t = true <-> crossproduct s t = 0 /\ dotproduct s t < 0).
Proof.
  intros s t Hs Ht.
  pose proof (norm_ne s Hs) as Ns. pose proof (norm_ne t Ht) as Nt.
  assert (si (seg_reverse s) <> sj (seg_reverse s)) as Hr by (simpl; auto).
  assert (direction (seg_reverse s) = Rmodulo (direction s + 180) 360) as DR.
  { destruct (direction_char s) as (B & C & S).
    symmetry. apply direction_unique.
    - pose proof (norm_ne _ Hr). lra.
    - rewrite Rmodulo_range by lra. destruct (Rlt_dec _ _); lra.
    - destruct (reverse_spec s) as (_ & _ & _ & _ & -> & _). simpl.
      rewrite Rmodulo_range by lra. destruct (Rlt_dec _ _).
      + replace (rad (direction s + 180)) with (rad (direction s) + PI) by (unfold rad; field).
        rewrite neg_cos. lra.
      + replace (rad (direction s + 180 - 360)) with (rad (direction s) - PI) by (unfold rad; field).
        rewrite cos_minus, cos_PI, sin_PI. lra.
    - destruct (reverse_spec s) as (_ & _ & _ & _ & -> & _). simpl.
      rewrite Rmodulo_range by lra. destruct (Rlt_dec _ _).
      + replace (rad (direction s + 180)) with (rad (direction s) + PI) by (unfold rad; field).
        rewrite neg_sin. lra.
      + replace (rad (direction s + 180 - 360)) with (rad (direction s) - PI) by (unfold rad; field).
        rewrite sin_minus, cos_PI, sin_PI. lra. }
  unfold opposite_direction; ra. rewrite <- DR.
  destruct (products s t 0 0) as (_ & _ & P1 & P2 & _).
  pose proof (direction_eq_iff _ t Hr Ht) as E. rewrite P1, P2 in E.
  destruct (Reqb (direction (seg_reverse s)) (direction t)) eqn:Q; rb.
  - split; auto. intros _. apply E in Q. lra.
  - split; [discriminate|]. intros H. elim Q. apply E. lra.
Qed.

(*@ C19_opposite_direction *)
(** C19: [opposite_direction] of non-null segments holds exactly when the vector of one is a negative
    multiple of the other's; in particular for a segment and its reverse; it is symmetric. *)
Lemma opposite_direction_spec : forall s t : seg RA, si s <> sj s -> si t <> sj t ->
  (opposite_direction s t = true <->
   exists k, k < 0 /\ px (sj t) - px (si t) = k * (px (sj s) - px (si s)) /\
             py (sj t) - py (si t) = k * (py (sj s) - py (si s))) /\
  opposite_direction s t = opposite_direction t s /\
  opposite_direction s (seg_reverse s) = true.
Proof.
  intros s t Hs Ht. split; [|split].
  - assert (si (seg_reverse s) <> sj (seg_reverse s)) as Hr by (simpl; auto).
    pose proof (direction_equal _ t Hr Ht) as E.
    rewrite opposite_iff by auto. rewrite direction_eq_iff in E by auto.
    destruct (products s t 0 0) as (_ & _ & P1 & P2 & _). rewrite P1, P2 in E. simpl in E.
    split.
    + intros [C D]. destruct (proj1 E) as (k & K & X & Y); [lra|]. exists (- k). lra.
    + intros (k & K & X & Y). assert (exists k, 0 < k /\
         px (sj t) - px (si t) = k * (px (si s) - px (sj s)) /\
         py (sj t) - py (si t) = k * (py (si s) - py (sj s))) as Q by (exists (- k); lra).
      apply E in Q. lra.
  - apply eq_true_iff_eq. rewrite !opposite_iff by auto.
    destruct (products s t 0 0) as (-> & -> & _). lra.
  - apply opposite_iff; auto; simpl; auto. 
    destruct (products s s 0 0) as (_ & _ & P1 & P2 & _ & _ & P3 & P4).
    destruct (products s (seg_reverse s) 0 0) as (Q1 & Q2 & _).
    rewrite Q1, Q2, P1, P2, P3, P4. pose proof (norm_ne s Hs). nra.
Qed.

(** * C20 *)
Lemma cauchy : forall s t : seg RA, Rabs (dotproduct s t) <= norm s * norm t.
Proof.
  intros s t. destruct (dot_cross_dir s t) as [-> _].
  pose proof (norm_nonneg s). pose proof (norm_nonneg t).
  rewrite !Rabs_mult, (Rabs_right (norm s)), (Rabs_right (norm t)) by lra.
  pose proof (COS_bound (rad (direction t) - rad (direction s))) as B.
  assert (Rabs (cos (rad (direction t) - rad (direction s))) <= 1) by (apply Rabs_le; lra).
  assert (0 <= norm s * norm t) by (apply Rmult_le_pos; auto). nra.
Qed.

Lemma angle_ok : forall s t : seg RA, si s <> sj s -> si t <> sj t ->
  angle_between_lines s t = Ok (acos (dotproduct s t / (norm s * norm t)) * (180 / PI)) /\
  -1 <= dotproduct s t / (norm s * norm t) <= 1.
Proof.
  intros s t Hs Ht. pose proof (norm_ne s Hs) as Ns. pose proof (norm_ne t Ht) as Nt.
  assert (0 < norm s * norm t) as P by (apply Rmult_lt_0_compat; auto).
  pose proof (cauchy s t) as C. apply Rabs_le_inv in C.
  assert (-1 <= dotproduct s t / (norm s * norm t) <= 1) as B.
  { assert (0 < / (norm s * norm t)) by (apply Rinv_0_lt_compat; auto).
    assert (norm s * norm t * / (norm s * norm t) = 1) by (field; lra).
    unfold Rdiv. nra. }
  split; auto. unfold angle_between_lines, pdiv, pacos, ndegrees; ra.
  destruct (Reqb (norm s * norm t) 0) eqn:E; rb; [lra|]. simpl.
  destruct (Rltb _ (-1)) eqn:E1; rb; [exfalso; lra|].
  destruct (Rltb 1 _) eqn:E2; rb; [exfalso; lra|]. simpl. reflexivity.
Qed.

(*@ C20_angle_between_lines *)
(** C20: exact arithmetic: for non-null segments the angle exists, is symmetric, lies in [0, 180] and
    satisfies the cosine law; a null segment is a ZeroDivisionError. *)
Lemma angle_spec : forall s t : seg RA,
  (si s = sj s \/ si t = sj t -> angle_between_lines s t = Err ZeroDivisionError) /\
  (si s <> sj s -> si t <> sj t ->
   exists a, angle_between_lines s t = Ok a /\ angle_between_lines t s = Ok a /\ 0 <= a <= 180 /\
     dotproduct s t = dist (si s) (sj s) * dist (si t) (sj t) * cos (a * PI / 180)).
Proof.
  intros s t. split.
  - intros H. unfold angle_between_lines, pdiv; ra.
    replace (norm s * norm t) with 0; [rewrite Reqb_refl; reflexivity|].
    destruct H as [H|H]; [replace (norm s) with 0|replace (norm t) with 0]; try ring;
      symmetry; apply norm_pos_iff; rewrite H; auto.
  - intros Hs Ht. destruct (angle_ok s t Hs Ht) as [E B]. destruct (angle_ok t s Ht Hs) as [E' _].
    destruct (products s t 0 0) as (_ & D & _).
    rewrite <- D, (Rmult_comm (norm t)) in E'.
    exists (acos (dotproduct s t / (norm s * norm t)) * (180 / PI)).
    split; auto. split; auto.
    pose proof (acos_bound (dotproduct s t / (norm s * norm t))) as AB.
    pose proof PI_RGT_0 as PP. assert (0 < / PI) as IP by (apply Rinv_0_lt_compat; auto).
    set (x := acos _) in *.
    split.
    + split; [apply Rmult_le_pos; [lra|]; unfold Rdiv; nra|].
      replace (x * (180 / PI)) with (180 - 180 * (PI - x) * / PI) by (field; lra).
      assert (0 <= 180 * (PI - x) * / PI) by (apply Rmult_le_pos; nra). lra.
    + replace (x * (180 / PI) * PI / 180) with x by (field; lra).
      unfold x. rewrite cos_acos by auto.
      rewrite <- (proj1 (norm_unitvector s 0 0)), <- (proj1 (norm_unitvector t 0 0)).
      pose proof (norm_ne s Hs). pose proof (norm_ne t Ht). rfield; lra.
Qed.

(*@ C20_angle_extremes *)
(** C20: 0 exactly for equal directions, 180 exactly for opposite directions, 90 exactly for
    perpendicular segments. *)
Lemma angle_extremes : forall s t : seg RA, si s <> sj s -> si t <> sj t ->
  (angle_between_lines s t = Ok 0 <-> direction s = direction t) /\
  (angle_between_lines s t = Ok 180 <-> opposite_direction s t = true) /\
  (angle_between_lines s t = Ok 90 <-> dotproduct s t = 0).
Proof.
  intros s t Hs Ht.
  destruct (proj2 (angle_spec s t) Hs Ht) as (a & E & _ & B & C). rewrite E.
  rewrite <- (proj1 (norm_unitvector s 0 0)), <- (proj1 (norm_unitvector t 0 0)) in C.
  pose proof (norm_ne s Hs) as Ns. pose proof (norm_ne t Ht) as Nt.
  assert (0 < norm s * norm t) as P by (apply Rmult_lt_0_compat; auto).
  set (N := norm s * norm t) in *.
  pose proof PI_RGT_0 as PP.
  rewrite direction_eq_iff, opposite_iff by auto.
  assert (crossproduct s t * crossproduct s t + dotproduct s t * dotproduct s t = N * N) as LAG.
  { unfold N. replace (norm s * norm t * (norm s * norm t)) with ((norm s * norm s) * (norm t * norm t)) by ring.
    rewrite !norm_sq, crossproduct_R, dotproduct_R. ring. }
  assert (forall x, 0 <= x <= 180 -> cos (a * PI / 180) = cos (x * PI / 180) -> a = x) as INJ.
  { intros x Bx H. apply cos_inj in H; [|nra|nra]. apply (Rmult_eq_reg_r (PI / 180)); lra. }
  split; [|split].
  - split.
    + intros H. injection H as ->. replace (0 * PI / 180) with 0 in C by field. rewrite cos_0 in C.
      split; nra.
    + intros [X Y]. f_equal. apply INJ; [lra|]. replace (0 * PI / 180) with 0 by field. rewrite cos_0.
      assert (dotproduct s t = N) by nra. nra.
  - split.
    + intros H. injection H as ->. replace (180 * PI / 180) with PI in C by field. rewrite cos_PI in C.
      split; nra.
    + intros [X Y]. f_equal. apply INJ; [lra|]. replace (180 * PI / 180) with PI by field. rewrite cos_PI.
      assert (dotproduct s t = - N) by nra. nra.
  - split.
    + intros H. injection H as ->. replace (90 * PI / 180) with (PI/2) in C by field. rewrite cos_PI2 in C. lra.
    + intros D. f_equal. apply INJ; [lra|]. replace (90 * PI / 180) with (PI/2) by field. rewrite cos_PI2.
      rewrite D in C. apply (Rmult_eq_reg_l N); lra.
Qed.

(*@ C20_angle_from_start_point *)
(** C20: the angle at the start point is the angle between the segment and the segment to p, and is
    refused for p equal to the start point. *)
Lemma angle_from_start_spec : forall (s : seg RA) (p : pt RA),
  (pt_eqb p (si s) = true -> angle_from_start_point s p = Err AssertionError) /\
  (pt_eqb p (si s) = false -> angle_from_start_point s p = angle_between_lines s (LineSegment (si s) p)).
Proof.
  intros. unfold angle_from_start_point, pt_neb, assert_. destruct (pt_eqb p (si s)); simpl; split; auto; discriminate.
Qed.
