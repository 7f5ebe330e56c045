(** Triangles: Heron's formula, angles, quality; the rotation matrix. *)
From Coq Require Import Reals ZArith Lra Lia Bool List Psatz Permutation.
From Verif Require Import Base Arith ArithR ArithF MPoint MLine MPoly Spec PPoint PLine PTrig PShape PConvex.
Import ListNotations.
Local Open Scope R_scope.
#[local] Existing Instance RA.

Lemma joins_norm : forall (e : pt RA * pt RA) s, joins e s ->
  0 <= norm s /\ norm s * norm s =
    (px (snd e) - px (fst e)) * (px (snd e) - px (fst e)) + (py (snd e) - py (fst e)) * (py (snd e) - py (fst e)).
Proof.
  intros [a b] s [[E1 E2]|[E1 E2]]; simpl in *; (split; [apply norm_nonneg|]); rewrite norm_sq, E1, E2; ring.
Qed.

Lemma heron : forall x y z o : R, 
  16 * (((x + y + z) / 2) * ((x + y + z) / 2 - x) * ((x + y + z) / 2 - y) * ((x + y + z) / 2 - z)) = 
  2 * ((x*x)*(y*y) + (y*y)*(z*z) + (z*z)*(x*x)) - ((x*x)*(x*x) + (y*y)*(y*y) + (z*z)*(z*z)).
Proof. intros. field. Qed.

(*@ C38_heron *)
(** C38: for three segments joining a, b, c pairwise, in any directions, the area is half the
    absolute value of the cross product (no exception). *)
Lemma heron_area : forall (a b c : pt RA) (l : list (seg RA)), Forall2 joins (cycle_edges [a; b; c]) l ->
  triangle_area l = Ok (Rabs (orient a b c) / 2).
Proof.
  intros a b c l F. simpl in F.
  inversion F as [|? s0 ? l0 J0 F0]; subst. inversion F0 as [|? s1 ? l1 J1 F1]; subst.
  inversion F1 as [|? s2 ? l2 J2 F2]; subst. inversion F2; subst.
  apply joins_norm in J0 as [N0 Q0], J1 as [N1 Q1], J2 as [N2 Q2]. simpl in Q0, Q1, Q2. ra_simpl.
  unfold triangle_area. rewrite nsum_R. unfold pdiv.
  assert ((@neqb RA (@n2 RA) (@n0 RA)) = false) as E by (apply Reqb_false; unfold n2, n0; simpl; lra).
  rewrite E. cbn [bind get nth_error map fold_right]. ra_simpl.
  set (x := norm s0) in *. set (y := norm s1) in *. set (z := norm s2) in *.
  change (@num RA) with R in x, y, z.
  change (@n2 RA) with 2. change (@n0 RA) with 0. ra_simpl.
  replace (x + (y + (z + 0))) with (x + y + z) by ring.
  set (d := (x + y + z) / 2 * ((x + y + z) / 2 - x) * ((x + y + z) / 2 - y) * ((x + y + z) / 2 - z)).
  assert (d = (orient a b c / 2) * (orient a b c / 2)) as D.
  { pose proof (heron x y z 0) as H. fold d in H.
    assert (16 * d = 4 * (orient a b c * orient a b c)); [|lra].
    rewrite H, Q0, Q1, Q2. unfold orient. simpl. ring. }
  assert (0 <= d) as DN by (rewrite D; nra).
  assert (Rltb d 0 = false) as -> by (apply Rltb_false; auto).
  f_equal. rewrite D. change (sqrt ((orient a b c / 2) * (orient a b c / 2)) = Rabs (orient a b c) / 2).
  fold (Rsqr (orient a b c / 2)). rewrite sqrt_Rsqr_abs. unfold Rdiv. rewrite Rabs_mult.
  rewrite (Rabs_right (/ 2)) by lra. reflexivity.
Qed.

(*@ C38_area_laws *)
(** C38: positive exactly for non-collinear vertices, and invariant under translation, mirroring,
    vertex order and segment direction. *)
Lemma area_laws : forall (a b c : pt RA) (l : list (seg RA)) (u v : R) (A : R),
  Forall2 joins (cycle_edges [a; b; c]) l -> triangle_area l = Ok A ->
  0 <= A /\ (A = 0 <-> orient a b c = 0) /\
  (forall l', Forall2 joins (cycle_edges [translate u v a; translate u v b; translate u v c]) l' -> triangle_area l' = Ok A) /\
  (forall l', Forall2 joins (cycle_edges [b; a; c]) l' -> triangle_area l' = Ok A) /\
  (forall l', Forall2 joins (cycle_edges [b; c; a]) l' -> triangle_area l' = Ok A) /\
  (forall l', Forall2 joins (cycle_edges (map (fun p => @mkpt RA (2 * u - px p) (py p)) [a; b; c])) l' -> triangle_area l' = Ok A).
Proof.
  intros a b c l u v A J H. rewrite (heron_area a b c l J) in H. injection H as <-.
  split; [pose proof (Rabs_pos (orient a b c)); lra|]. split.
  - split; intros H; [|rewrite H, Rabs_R0; lra].
    destruct (Req_dec (orient a b c) 0) as [Z|Z]; auto. apply Rabs_no_R0 in Z. simpl in H. lra.
  - repeat split; intros l' J'; rewrite (heron_area _ _ _ _ J'); do 2 f_equal.
    + f_equal. unfold orient, translate. simpl. ring.
    + rewrite <- Rabs_Ropp. f_equal. unfold orient. simpl. ring.
    + f_equal. unfold orient. simpl. ring.
    + rewrite <- Rabs_Ropp. f_equal. unfold orient. simpl. ring.
Qed.

(** * Angles *)
Lemma angle_norm_joins : forall (p q r : pt RA) s t, pt_eqb p q = false -> pt_eqb q r = false -> pt_eqb p r = false ->
  joins (p, q) s -> joins (q, r) t ->
  exists s' t', angle_norm s t = (s', t') /\ si s' = q /\ sj s' = p /\ si t' = q /\ sj t' = r.
Proof.
  intros p q r s t PQ QR PR Js Jt. unfold angle_norm.
  assert (pt_eqb q p = false) as QP by (rewrite pt_eqb_sym; auto).
  assert (pt_eqb r q = false) as RQ by (rewrite pt_eqb_sym; auto).
  assert (pt_eqb r p = false) as RP by (rewrite pt_eqb_sym; auto).
  destruct Js as [[E1 E2]|[E1 E2]], Jt as [[E3 E4]|[E3 E4]]; simpl in *; rewrite E1, E2, E3, E4;
    rewrite ?PR, ?PQ, ?QR, ?QP, ?RQ, ?RP, ?pt_eqb_refl; do 2 eexists; (split; [reflexivity|]); simpl; auto.
Qed.

(** The interior angle at q of the triangle p q r in radians. *)
Definition inner_angle (p q r : pt RA) : R :=
  acos (((px p - px q) * (px r - px q) + (py p - py q) * (py r - py q)) / (dist q p * dist q r)).

Lemma dist_pos : forall p q : pt RA, p <> q -> 0 < dist p q.
Proof.
  intros p q N. rewrite dist_distance. destruct (pt_distance_nonneg p q) as [L|E]; auto.
  symmetry in E. apply pt_distance_zero in E as []. elim N. apply pt_ext; auto.
Qed.
Lemma dist_sq : forall p q : pt RA, dist p q * dist p q = (px p - px q) * (px p - px q) + (py p - py q) * (py p - py q).
Proof.
  intros. unfold dist. rewrite sqrt_sqrt; [simpl; ring|]. simpl.
  pose proof (sum_sq_nonneg (px p - px q) (py p - py q)). simpl in *. lra.
Qed.
Lemma dist_sym : forall p q : pt RA, dist p q = dist q p.
Proof. intros. rewrite !dist_distance. apply pt_distance_sym. Qed.

Lemma inner_angle_spec : forall p q r : pt RA, p <> q -> r <> q ->
  0 <= inner_angle p q r <= PI /\
  dist q p * dist q r * cos (inner_angle p q r) = (px p - px q) * (px r - px q) + (py p - py q) * (py r - py q) /\
  dist q p * dist q r * sin (inner_angle p q r) = Rabs (orient p q r).
Proof.
  intros p q r N1 N2. unfold inner_angle.
  assert (0 < dist q p) as P1 by (apply dist_pos; congruence).
  assert (0 < dist q r) as P2 by (apply dist_pos; congruence).
  pose proof (dist_sq q p) as S1. pose proof (dist_sq q r) as S2.
  set (d := (px p - px q) * (px r - px q) + (py p - py q) * (py r - py q)).
  set (a := dist q p) in *. set (b := dist q r) in *.
  assert (d * d + orient p q r * orient p q r = (a * b) * (a * b)) as PY.
  { replace (a * b * (a * b)) with ((a * a) * (b * b)) by ring. rewrite S1, S2. unfold d, orient. simpl. ring. }
  assert (0 < a * b) as AB by nra.
  assert (-1 <= d / (a * b) <= 1) as B.
  { assert (Rabs d <= a * b) as B.
    { set (w := a * b) in *. assert (d * d <= w * w) by nra.
      apply Rnot_lt_le. intros LT. assert (w * w < Rabs d * Rabs d) by nra.
      rewrite <- Rabs_mult, (Rabs_right (d * d)) in H0 by nra. lra. }
    apply Rabs_le_inv in B. split.
    - apply (Rmult_le_reg_r (a * b)); auto. unfold Rdiv. rewrite Rmult_assoc, Rinv_l by lra. lra.
    - apply (Rmult_le_reg_r (a * b)); auto. unfold Rdiv. rewrite Rmult_assoc, Rinv_l by lra. lra. }
  split; [apply acos_bound|]. split.
  - rewrite cos_acos by auto. field. lra.
  - rewrite sin_acos by auto.
    set (w := a * b) in *. set (k := d / w) in *.
    assert (0 <= 1 - k²) as K by (unfold Rsqr; nra).
    apply Rsqr_inj; [apply Rmult_le_pos; [lra|apply sqrt_pos]|apply Rabs_pos|].
    rewrite <- Rsqr_abs, Rsqr_mult, Rsqr_sqrt by auto. unfold Rsqr.
    assert (k * w = d) as KW by (unfold k; field; lra).
    replace (orient p q r * orient p q r) with (w * w - d * d) by lra. rewrite <- KW. ring.
Qed.

Lemma angles_sum : forall p q r : pt RA, p <> q -> q <> r -> p <> r ->
  inner_angle p q r + inner_angle q p r + inner_angle p r q = PI.
Proof.
  intros p q r N1 N2 N3.
  destruct (inner_angle_spec p q r N1 (not_eq_sym N2)) as (B1 & C1 & S1).
  destruct (inner_angle_spec q p r (not_eq_sym N1) (not_eq_sym N3)) as (B2 & C2 & S2).
  destruct (inner_angle_spec p r q N3 N2) as (B3 & C3 & S3).
  assert (orient q p r = - orient p q r) as O2 by (unfold orient; simpl; ring).
  assert (orient p r q = - orient p q r) as O3 by (unfold orient; simpl; ring).
  rewrite O2, Rabs_Ropp in S2. rewrite O3, Rabs_Ropp in S3.
  set (A := inner_angle p q r) in *. set (B := inner_angle q p r) in *. set (C := inner_angle p r q) in *.
  pose proof (dist_sq q p) as Q1. pose proof (dist_sq q r) as Q2. pose proof (dist_sq p r) as Q3.
  rewrite (dist_sym p q) in C2, S2. rewrite (dist_sym r p), (dist_sym r q) in C3, S3.
  assert (0 < dist q p) as P1 by (apply dist_pos; congruence).
  assert (0 < dist q r) as P2 by (apply dist_pos; congruence).
  assert (0 < dist p r) as P3 by (apply dist_pos; congruence).
  set (x := dist q p) in *. set (y := dist q r) in *. set (z := dist p r) in *.
  set (o := Rabs (orient p q r)) in *.
  assert (o * o = orient p q r * orient p q r) as OO.
  { unfold o. rewrite <- Rabs_mult. apply Rabs_right. nra. }
  pose proof PI_RGT_0 as PP.
  assert (A < PI \/ B < PI) as LT.
  { destruct (Rlt_dec A PI); auto. destruct (Rlt_dec B PI); auto. exfalso.
    replace A with PI in C1 by lra. replace B with PI in C2 by lra. rewrite cos_PI in *.
    assert (x * x = x * y * -1 + x * z * -1) as K by (rewrite C1, C2, Q1; simpl; ring). nra. }
  assert (A + B = PI - C); [|lra].
  apply angle_unique; [lra| |].
  - rewrite Rtrigo_facts.cos_pi_minus, cos_plus.
    apply (Rmult_eq_reg_l (x * x * (y * z))); [|apply Rgt_not_eq; repeat apply Rmult_lt_0_compat; auto].
    replace (x * x * (y * z) * (cos A * cos B - sin A * sin B)) with
      ((x * y * cos A) * (x * z * cos B) - (x * y * sin A) * (x * z * sin B)) by ring.
    replace (x * x * (y * z) * - cos C) with (- (x * x) * (z * y * cos C)) by ring.
    rewrite C1, C2, C3, S1, S2, OO, Q1. unfold orient. simpl. ring.
  - rewrite Rtrigo_facts.sin_pi_minus, sin_plus.
    apply (Rmult_eq_reg_l (x * x * (y * z))); [|apply Rgt_not_eq; repeat apply Rmult_lt_0_compat; auto].
    replace (x * x * (y * z) * (sin A * cos B + cos A * sin B)) with
      ((x * y * sin A) * (x * z * cos B) + (x * y * cos A) * (x * z * sin B)) by ring.
    replace (x * x * (y * z) * sin C) with ((x * x) * (z * y * sin C)) by ring.
    rewrite C1, C2, S1, S2, S3, Q1. simpl. ring.
Qed.

Lemma angle_between_inner : forall (p q r : pt RA) s t, p <> q -> r <> q ->
  si s = q -> sj s = p -> si t = q -> sj t = r ->
  angle_between_lines s t = Ok (inner_angle p q r * (180 / PI)).
Proof.
  intros p q r s t N1 N2 E1 E2 E3 E4.
  assert (0 < dist q p) as P1 by (apply dist_pos; congruence).
  assert (0 < dist q r) as P2 by (apply dist_pos; congruence).
  destruct (inner_angle_spec p q r N1 N2) as (B & C & _).
  unfold angle_between_lines. rewrite !norm_dist, E1, E2, E3, E4, <- !dist_distance.
  unfold pdiv. assert (@neqb RA (dist q p * dist q r)%num n0 = false) as ->.
  { apply Reqb_false. unfold n0. simpl. nra. }
  cbn [bind]. rewrite dotproduct_R. unfold delta_x, delta_y. rewrite E1, E2, E3, E4.
  unfold pacos. ra_simpl.
  set (v := ((px p - px q) * (px r - px q) + (py p - py q) * (py r - py q)) / (dist q p * dist q r)).
  assert (v = cos (inner_angle p q r)) as V.
  { unfold v. simpl in C. rewrite <- C. field. split; lra. }
  pose proof (COS_bound (inner_angle p q r)) as CB.
  assert (Rltb v (IZR (-1)) = false) as H1 by (apply Rltb_false; rewrite V; lra).
  assert (Rltb n1 v = false) as H2 by (apply Rltb_false; rewrite V; unfold n1; simpl; lra).
  change (@num RA) with R in *. rewrite H1, H2. reflexivity.
Qed.

(*@ C39_angles *)
(** C39: the three angles of a triangle with vertices p, q, r that differ by more than the tolerance,
    its segments in any directions: each lies in [0, 180], and they sum to 180. *)
Lemma triangle_angles_spec : forall (p q r : pt RA) (l : list (seg RA)),
  pt_eqb p q = false -> pt_eqb q r = false -> pt_eqb p r = false ->
  Forall2 joins (cycle_edges [p; q; r]) l ->
  exists x y z : R, triangle_angles l = Ok [x; y; z] /\
    0 <= x <= 180 /\ 0 <= y <= 180 /\ 0 <= z <= 180 /\ x + y + z = 180 /\
    dist q p * dist q r * cos (x * PI / 180) = (px p - px q) * (px r - px q) + (py p - py q) * (py r - py q) /\
    dist p q * dist p r * cos (y * PI / 180) = (px q - px p) * (px r - px p) + (py q - py p) * (py r - py p) /\
    dist r p * dist r q * cos (z * PI / 180) = (px p - px r) * (px q - px r) + (py p - py r) * (py q - py r).
Proof.
  intros p q r l PQ QR PR F. simpl in F.
  inversion F as [|? s0 ? l0 J0 F0]; subst. inversion F0 as [|? s1 ? l1 J1 F1]; subst.
  inversion F1 as [|? s2 ? l2 J2 F2]; subst. inversion F2; subst. clear F F0 F1 F2.
  assert (p <> q) as N1 by (intros ->; rewrite pt_eqb_refl in PQ; discriminate).
  assert (q <> r) as N2 by (intros ->; rewrite pt_eqb_refl in QR; discriminate).
  assert (p <> r) as N3 by (intros ->; rewrite pt_eqb_refl in PR; discriminate).
  assert (pt_eqb q p = false) as QP by (rewrite pt_eqb_sym; auto).
  assert (pt_eqb r q = false) as RQ by (rewrite pt_eqb_sym; auto).
  assert (pt_eqb r p = false) as RP by (rewrite pt_eqb_sym; auto).
  assert (forall a b (s : seg RA), joins (a, b) s -> joins (b, a) s) as JS by (intros a b s [H|H]; [right|left]; auto).
  unfold triangle_angles.
  destruct (angle_norm_joins p q r s0 s1 PQ QR PR J0 J1) as (a & b & -> & A1 & A2 & B1 & B2).
  rewrite (angle_between_inner p q r a b N1 (not_eq_sym N2) A1 A2 B1 B2). cbn [bind].
  assert (joins (q, p) a) as Ja by (left; auto).
  destruct (angle_norm_joins q p r a s2 QP PR QR Ja (JS _ _ _ J2)) as (a' & c & -> & A3 & A4 & C1 & C2).
  rewrite (angle_between_inner q p r a' c (not_eq_sym N1) (not_eq_sym N3) A3 A4 C1 C2). cbn [bind].
  assert (joins (q, r) b) as Jb by (left; auto). assert (joins (r, p) c) as Jc by (right; auto).
  destruct (angle_norm_joins q r p b c QR RP QP Jb Jc) as (b' & c' & -> & B3 & B4 & C3 & C4).
  rewrite (angle_between_inner q r p b' c' N2 N3 B3 B4 C3 C4). cbn [bind].
  destruct (inner_angle_spec p q r N1 (not_eq_sym N2)) as (X1 & X2 & _).
  destruct (inner_angle_spec q p r (not_eq_sym N1) (not_eq_sym N3)) as (Y1 & Y2 & _).
  destruct (inner_angle_spec q r p N2 N3) as (Z1 & Z2 & _).
  assert (inner_angle q r p = inner_angle p r q) as E.
  { unfold inner_angle. f_equal. rewrite (Rmult_comm (dist r q)). simpl. f_equal. ring. }
  pose proof (angles_sum p q r N1 N2 N3) as SUM. rewrite <- E in SUM.
  pose proof PI_RGT_0 as PP.
  assert (forall x, 0 <= x <= PI -> 0 <= x * (180 / PI) <= 180) as RG.
  { intros x Hx. assert (0 < / PI) by (apply Rinv_0_lt_compat; auto). split.
    - unfold Rdiv. apply Rmult_le_pos; [lra|]. nra.
    - apply (Rmult_le_reg_r PI); auto. replace (x * (180 / PI) * PI) with (x * 180) by (field; lra). nra. }
  assert (forall x, x * (180 / PI) * PI / 180 = x) as RD by (intros; field; lra).
  do 3 eexists. split; [reflexivity|]. rewrite !RD.
  split; [apply RG; auto|]. split; [apply RG; auto|]. split; [apply RG; auto|]. split.
  - replace PI with (inner_angle p q r + inner_angle q p r + inner_angle q r p) by lra. 
    set (w := inner_angle p q r + inner_angle q p r + inner_angle q r p) in *. 
    replace (inner_angle p q r * (180 / w) + inner_angle q p r * (180 / w) + inner_angle q r p * (180 / w))
      with (w * (180 / w)) by (unfold w; ring). field. lra.
  - split; [exact X2|]. split; [exact Y2|]. rewrite (Rmult_comm (dist r p)). rewrite Z2. ring.
Qed.

(*@ C39_quality *)
(** C39: quality is non-negative and zero exactly for equilateral triangles. *)
Lemma quality_spec : forall (p q r : pt RA) (l : list (seg RA)),
  pt_eqb p q = false -> pt_eqb q r = false -> pt_eqb p r = false ->
  Forall2 joins (cycle_edges [p; q; r]) l ->
  exists x : R, triangle_quality l = Ok x /\ 0 <= x /\
    (x = 0 <-> dist p q = dist q r /\ dist q r = dist r p).
Proof.
  intros p q r l PQ QR PR F.
  destruct (triangle_angles_spec p q r l PQ QR PR F) as (x & y & z & E & BX & BY & BZ & SUM & CX & CY & CZ).
  assert (p <> q) as N1 by (intros ->; rewrite pt_eqb_refl in PQ; discriminate).
  assert (q <> r) as N2 by (intros ->; rewrite pt_eqb_refl in QR; discriminate).
  assert (p <> r) as N3 by (intros ->; rewrite pt_eqb_refl in PR; discriminate).
  unfold triangle_quality. rewrite E. cbn [bind]. rewrite nsum_R. eexists. split; [reflexivity|].
  cbn [map fold_right]. ra_simpl.
  pose proof (Rabs_pos (x - 60)). pose proof (Rabs_pos (y - 60)). pose proof (Rabs_pos (z - 60)).
  split; [lra|].
  rewrite (dist_sym p q), (dist_sym r p) in *. rewrite (dist_sym r q) in CZ.
  pose proof (dist_sq q p) as Q1. pose proof (dist_sq q r) as Q2. pose proof (dist_sq p r) as Q3.
  assert (0 < dist q p) as P1 by (apply dist_pos; congruence).
  assert (0 < dist q r) as P2 by (apply dist_pos; congruence).
  assert (0 < dist p r) as P3 by (apply dist_pos; congruence).
  set (a := dist q p) in *. set (b := dist q r) in *. set (c := dist p r) in *.
  assert (2 * (a * b * cos (x * PI / 180)) = a * a + b * b - c * c) as LX by (rewrite CX, Q1, Q2, Q3; simpl; ring).
  assert (2 * (a * c * cos (y * PI / 180)) = a * a + c * c - b * b) as LY by (rewrite CY, Q1, Q2, Q3; simpl; ring).
  assert (2 * (c * b * cos (z * PI / 180)) = c * c + b * b - a * a) as LZ by (rewrite CZ, Q1, Q2, Q3; simpl; ring).
  assert (cos (60 * PI / 180) = 1 / 2) as C60 by (replace (60 * PI / 180) with (PI / 3) by field; apply cos_PI3).
  split.
  - intros Z. assert (Rabs (x - 60) = 0 /\ Rabs (y - 60) = 0 /\ Rabs (z - 60) = 0) as (ZX & ZY & ZZ) by lra.
    assert (forall v, Rabs v = 0 -> v = 0) as A0 by (intros v; unfold Rabs; destruct (Rcase_abs v); lra).
    apply A0 in ZX, ZY, ZZ. replace x with 60 in LX by lra. replace y with 60 in LY by lra. replace z with 60 in LZ by lra.
    rewrite C60 in *.
    assert (a * (b + c - 2 * a) = 0) as K1 by nra. assert (b * (a + c - 2 * b) = 0) as K2 by nra.
    apply Rmult_integral in K1 as [K1|K1]; [lra|]. apply Rmult_integral in K2 as [K2|K2]; [lra|].
    split; lra.
  - intros [E1 E2]. rewrite <- E1 in E2. rewrite <- E2, <- E1 in *.
    assert (forall v, 0 <= v <= 180 -> 2 * (a * a * cos (v * PI / 180)) = a * a -> v = 60) as K.
    { intros v BV HH. pose proof PI_RGT_0. assert (cos (v * PI / 180) = cos (60 * PI / 180)) as EC.
      { rewrite C60. apply (Rmult_eq_reg_l (2 * (a * a))); [lra|nra]. }
      apply cos_inj in EC; [|nra|nra].
      apply (Rmult_eq_reg_r (PI / 180)); lra. }
    rewrite (K x), (K y), (K z) by lra.
    replace (60 - 60) with 0 by ring. rewrite Rabs_R0. ring.
Qed.

(*@ex C39_example *)
Lemma angles_example : let p := @mkpt RA 0 0 in let q := @mkpt RA 3 0 in let r := @mkpt RA 0 4 in
  pt_eqb p q = false /\ pt_eqb q r = false /\ pt_eqb p r = false /\
  Forall2 joins (cycle_edges [p; q; r]) [LineSegment q p; LineSegment q r; LineSegment p r].
Proof.
  repeat split.
  1-3: apply pt_eqb_false_iff; simpl; unfold Rabs; repeat destruct (Rcase_abs _); lra.
  simpl. apply Forall2_cons; [right; split; reflexivity|]. apply Forall2_cons; [left; split; reflexivity|].
  apply Forall2_cons; [right; split; reflexivity|]. constructor.
Qed.

(** * C58 *)
(*@ C58_rotationsmatrix *)
(** C58: determinant 1, orthogonal, identity at 0, additive composition. *)
Lemma rotationsmatrix_spec : forall f g : R,
  let mul := fun m n : (R * R) * (R * R) =>
    ((fst (fst m) * fst (fst n) + snd (fst m) * fst (snd n), fst (fst m) * snd (fst n) + snd (fst m) * snd (snd n)),
     (fst (snd m) * fst (fst n) + snd (snd m) * fst (snd n), fst (snd m) * snd (fst n) + snd (snd m) * snd (snd n))) in
  let m := rotationsmatrix f in
  fst (fst m) * snd (snd m) - snd (fst m) * fst (snd m) = 1 /\
  mul m ((fst (fst m), fst (snd m)), (snd (fst m), snd (snd m))) = ((1, 0), (0, 1)) /\
  rotationsmatrix 0 = ((1, 0), (0, 1)) /\
  mul (rotationsmatrix f) (rotationsmatrix g) = rotationsmatrix (f + g) /\
  (forall x y, x * fst (fst m) + y * fst (snd m) = x * cos (f * PI / 180) - y * sin (f * PI / 180) /\
               x * snd (fst m) + y * snd (snd m) = x * sin (f * PI / 180) + y * cos (f * PI / 180)).
Proof.
  intros f g mul m.
  assert (forall h, rotationsmatrix h = ((cos (h * PI / 180), sin (h * PI / 180)), (- sin (h * PI / 180), cos (h * PI / 180)))) as R.
  { intros h. unfold rotationsmatrix, nradians, n1. simpl.
    replace (h * (PI / 180)) with (h * PI / 180) by field.
    replace (1 * sin (h * PI / 180)) with (sin (h * PI / 180)) by ring.
    replace (-1 * sin (h * PI / 180)) with (- sin (h * PI / 180)) by ring. reflexivity. }
  unfold m, mul. rewrite !R. simpl.
  pose proof (sin2_cos2 (f * PI / 180)) as T. unfold Rsqr in T.
  split; [lra|]. split; [|split; [|split]].
  - repeat match goal with |- (_, _) = (_, _) => apply f_equal2 end; lra.
  - replace (0 * PI / 180) with 0 by field. rewrite sin_0, cos_0. repeat match goal with |- (_, _) = (_, _) => apply f_equal2 end; lra.
  - replace ((f + g) * PI / 180) with (f * PI / 180 + g * PI / 180) by field.
    rewrite cos_plus, sin_plus. repeat match goal with |- (_, _) = (_, _) => apply f_equal2 end; ring.
  - intros. split; ring.
Qed.
