(** Delaunay triangulation: the geometry of a flip, over the exact reals. *)
From Coq Require Import Reals ZArith Lra Lia Bool List Psatz.
From Verif Require Import Base Arith ArithR MPoint MLine MPoly MDelaunay Spec SpecDelaunay PPoint PLine PTrig PDelaunay.
Import ListNotations.
Local Open Scope R_scope.
#[local] Existing Instance RA.

Lemma stored_grid : forall p : pt RA, stored p -> on_grid (px p) /\ on_grid (py p).
Proof. intros p [[k K] [l L]]. split; [exists k|exists l]; [rewrite K|rewrite L]; f_equal; ring. Qed.
Lemma stored_sub : forall p q : pt RA, stored p -> stored q -> pt_sub p q = @mkpt RA (px p - px q) (py p - py q).
Proof.
  intros p q P Q. apply stored_grid in P, Q. destruct P as [P1 P2], Q as [Q1 Q2]. unfold pt_sub; ra. apply Point_new_id; auto with grid.
Qed.

Lemma getArea_orient : forall (ps : list (pt RA)) i j k p q r, nth_error ps i = Some p -> nth_error ps j = Some q -> nth_error ps k = Some r ->
  stored p -> stored q -> stored r -> getArea ps i j k = Ok (orient p q r).
Proof.
  intros ps i j k p q r I J K P Q R. unfold getArea, get. rewrite I, J, K. cbn [bind]. rewrite !stored_sub by auto. f_equal.
Qed.

(*@ C45_ccw *)
(** C45: makeCounterClockwise keeps the vertices; the triangle that results has an area of at least -1e-8
    (twice the signed area, as getArea computes it); it swaps the last two vertices if and only if the
    area was below. *)
Lemma ccw_spec : forall (ps : list (pt RA)) a b c t, makeCounterClockwise ps (a, b, c) = Ok t ->
  (t = (a, b, c) \/ t = (a, c, b)) /\
  (exists ar, getArea ps (fst (fst t)) (snd (fst t)) (snd t) = Ok ar /\ - (1 / 10 ^ 8) <= ar) /\
  (forall ar, getArea ps a b c = Ok ar -> - (1 / 10 ^ 8) <= ar -> t = (a, b, c)).
Proof.
  intros ps a b c t H. unfold makeCounterClockwise in H. destruct (getArea ps a b c) as [ar|] eqn:G; [|discriminate]. cbn [bind] in H.
  assert (Z : forall (X : Type) (x y : X), Ok x = Ok y -> x = y) by (intros X x y [= E]; exact E). apply Z in H. rewrite <- H. clear H Z.
  assert (EE : @EPS RA = 1 / 10 ^ 8) by (unfold EPS, ndec; ra_simpl; lra).
  assert (G' : getArea ps a c b = Ok (- ar)).
  { revert G. unfold getArea, get. destruct (nth_error ps a), (nth_error ps b), (nth_error ps c); cbn [bind]; try discriminate. intros E. f_equal.
    assert (Z : forall x y : R, Ok x = Ok y -> x = y) by (intros x y [= H]; exact H). apply Z in E. rewrite <- E.
    generalize (pt_sub p0 p) (pt_sub p1 p). intros [x y] [z w]. cbn [px py]. rring. }
  change (nltb ar (nopp EPS)) with (Rltb ar (Ropp (@EPS RA))). rewrite EE. unfold Rltb. destruct (Rlt_dec ar (- (1 / 10 ^ 8))) as [L|L]; cbn [fst snd].
  - split; [auto|]. split; [exists (- ar); split; [exact G'|lra]|]. intros ar' [= <-] L'. lra.
  - split; [auto|]. split; [exists ar; split; [exact G|lra]|]. auto.
Qed.

(** The angle at o under which a segment is seen, and the sum of two such angles. *)
Lemma angle_sum : forall x1 y1 x2 y2 : R, x1 <> 0 -> x2 <> 0 -> PI < Rabs (Ratan2 x1 y1) + Rabs (Ratan2 x2 y2) ->
  Rabs x1 * y2 + Rabs x2 * y1 < 0.
Proof.
  intros x1 y1 x2 y2 N1 N2 H.
  assert (P : forall x y, x <> 0 -> exists al r, Rabs (Ratan2 x y) = al /\ 0 <= al < PI /\ 0 < r /\ r * cos al = y /\ r * sin al = Rabs x).
  { intros x y N. destruct (atan2_spec y x) as (C & S & B). exists (Rabs (Ratan2 x y)), (sqrt (y * y + x * x)). split; [reflexivity|].
    assert (RP : 0 < sqrt (y * y + x * x)). { apply sqrt_lt_R0. pose proof (Rlt_0_sqr _ N) as Z. pose proof (Rle_0_sqr y) as W. unfold Rsqr in Z, W. lra. }
    pose proof PI_RGT_0 as PP.
    assert (B' : Ratan2 x y <> PI). { intros E. rewrite E, sin_PI in S. lra. }
    split; [split; [apply Rabs_pos|]|split; [exact RP|]].
    - unfold Rabs. destruct (Rcase_abs (Ratan2 x y)); lra.
    - unfold Rabs at 1 2. destruct (Rcase_abs (Ratan2 x y)) as [L|L].
      + rewrite cos_neg, sin_neg. split; [exact C|]. assert (sin (Ratan2 x y) < 0) by (apply sin_lt_0_var; lra). assert (x < 0) by nra. rewrite Rabs_left by lra. lra.
      + split; [exact C|]. assert (0 <= sin (Ratan2 x y)) by (apply sin_ge_0; lra). assert (0 <= x) by nra. rewrite Rabs_right by lra. exact S. }
  destruct (P x1 y1 N1) as (a1 & r1 & E1 & B1 & R1 & C1 & S1). destruct (P x2 y2 N2) as (a2 & r2 & E2 & B2 & R2 & C2 & S2). clear P.
  rewrite E1, E2 in H. assert (S : sin (a1 + a2) < 0) by (apply sin_lt_0; lra). rewrite sin_plus in S.
  rewrite <- C1, <- C2, <- S1, <- S2.
  replace (r1 * sin a1 * (r2 * cos a2) + r2 * sin a2 * (r1 * cos a1)) with (r1 * r2 * (sin a1 * cos a2 + cos a1 * sin a2)) by ring.
  assert (0 < r1 * r2) by (apply Rmult_lt_0_compat; auto). nra.
Qed.

(** X1 y2 + X2 y1 *)
Definition incirc (a b o1 o2 : pt RA) : R := orient a b o1 * dot o2 a b - orient a b o2 * dot o1 a b.

Lemma test_true : forall (ps : list (pt RA)) i1 i2 i j a b o1 o2,
  nth_error ps i = Some a -> nth_error ps j = Some b -> nth_error ps i1 = Some o1 -> nth_error ps i2 = Some o2 ->
  stored a -> stored b -> stored o1 -> stored o2 ->
  delaunay_test ps i1 i2 (i, j) = Ok (Rltb (PI * (1 + 1 / 10 ^ 8)) (Rabs (Ratan2 (orient a b o1) (dot o1 a b)) + Rabs (Ratan2 (- orient a b o2) (dot o2 a b)))).
Proof.
  intros ps i1 i2 i j a b o1 o2 I J I1 I2 Sa Sb S1 S2. unfold delaunay_test. cbn [fst snd].
  rewrite (getArea_orient ps i1 i j o1 a b) by auto. rewrite (getArea_orient ps i2 j i o2 b a) by auto. cbn [bind].
  unfold opp_angle. cbn [fst snd]. unfold get. rewrite I, J, I1, I2. cbn [bind]. rewrite !stored_sub by auto. unfold dotproduct. cbn [px py].
  f_equal. ra_simpl. unfold EPS, ndec, n1. ra_simpl.
  replace (orient o1 a b) with (orient a b o1) by (unfold orient; ring). replace (orient o2 b a) with (- orient a b o2) by (unfold orient; ring).
  unfold dot. f_equal. f_equal. lra.
Qed.

Lemma test_incirc : forall (ps : list (pt RA)) i1 i2 i j a b o1 o2,
  nth_error ps i = Some a -> nth_error ps j = Some b -> nth_error ps i1 = Some o1 -> nth_error ps i2 = Some o2 ->
  stored a -> stored b -> stored o1 -> stored o2 -> delaunay_test ps i1 i2 (i, j) = Ok true ->
  (0 < orient a b o1 -> orient a b o2 < 0 -> incirc a b o1 o2 < 0) /\
  (orient a b o1 < 0 -> 0 < orient a b o2 -> 0 < incirc a b o1 o2).
Proof.
  intros ps i1 i2 i j a b o1 o2 I J I1 I2 Sa Sb S1 S2 T. rewrite (test_true ps i1 i2 i j a b o1 o2) in T by auto.
  injection T as T. unfold Rltb in T. destruct (Rlt_dec _ _) as [L|]; [|discriminate]. clear T.
  assert (L' : PI < Rabs (Ratan2 (orient a b o1) (dot o1 a b)) + Rabs (Ratan2 (- orient a b o2) (dot o2 a b))) by (pose proof PI_RGT_0; lra).
  unfold incirc. split; intros H1 H2.
  - apply angle_sum in L'; try lra. rewrite (Rabs_right (orient a b o1)) in L' by lra. rewrite (Rabs_right (- orient a b o2)) in L' by lra. lra.
  - apply angle_sum in L'; try lra. rewrite (Rabs_left (orient a b o1)) in L' by lra. rewrite (Rabs_left (- orient a b o2)) in L' by lra. lra.
Qed.

(** The quadrilateral is convex. *)
Lemma convex_key : forall ux uy vx vy s t : R,
  (s * ux + t * vx) * (s * ux + t * vx) + (s * uy + t * vy) * (s * uy + t * vy) - s * (ux * ux + uy * uy) - t * (vx * vx + vy * vy) < 0 ->
  1 < s + t -> 0 < t.
Proof.
  intros ux uy vx vy s t F S. apply Rnot_le_lt. intros T.
  set (F' := (s * ux + t * vx) * (s * ux + t * vx) + (s * uy + t * vy) * (s * uy + t * vy) - s * (ux * ux + uy * uy) - t * (vx * vx + vy * vy)) in *.
  assert (ID : (s - 1) * F' = s * (((s - 1) * ux + t * vx)² + ((s - 1) * uy + t * vy)²) + (- t) * (s + t - 1) * (vx² + vy²)) by (unfold F', Rsqr; ring).
  pose proof (Rle_0_sqr ((s - 1) * ux + t * vx)) as Q1. pose proof (Rle_0_sqr ((s - 1) * uy + t * vy)) as Q2. pose proof (Rle_0_sqr vx) as Q3. pose proof (Rle_0_sqr vy) as Q4.
  assert (0 <= s * (((s - 1) * ux + t * vx)² + ((s - 1) * uy + t * vy)²)) by (apply Rmult_le_pos; lra).
  assert (0 <= (- t) * (s + t - 1) * (vx² + vy²)) by (apply Rmult_le_pos; [apply Rmult_le_pos|]; lra).
  assert ((s - 1) * F' < 0) by nra. lra.
Qed.

Lemma quad_real : forall ax ay bx by' cx cy dx dy : R,
  let e := (bx - ax) * (cy - ay) - (by' - ay) * (cx - ax) in
  let f := (bx - ax) * (dy - ay) - (by' - ay) * (dx - ax) in
  0 < e -> f < 0 ->
  e * ((ax - dx) * (bx - dx) + (ay - dy) * (by' - dy)) - f * ((ax - cx) * (bx - cx) + (ay - cy) * (by' - cy)) < 0 ->
  0 < (ax - cx) * (dy - cy) - (ay - cy) * (dx - cx) /\ 0 < (dx - cx) * (by' - cy) - (dy - cy) * (bx - cx).
Proof.
  intros ax ay bx by' cx cy dx dy e f H1 H2 F.
  set (T := (ax - cx) * (dy - cy) - (ay - cy) * (dx - cx)). set (S := (dx - cx) * (by' - cy) - (dy - cy) * (bx - cx)).
  remember (S / e) as s eqn:Es. remember (T / e) as t eqn:Et.
  assert (ES : S = s * e) by (rewrite Es; field; lra). assert (ET : T = t * e) by (rewrite Et; field; lra).
  assert (X : dx - cx = s * (ax - cx) + t * (bx - cx)).
  { apply (Rmult_eq_reg_l e); [|lra]. replace (e * (s * (ax - cx) + t * (bx - cx))) with (S * (ax - cx) + T * (bx - cx)) by (rewrite ES, ET; ring). unfold e, S, T. ring. }
  assert (Y : dy - cy = s * (ay - cy) + t * (by' - cy)).
  { apply (Rmult_eq_reg_l e); [|lra]. replace (e * (s * (ay - cy) + t * (by' - cy))) with (S * (ay - cy) + T * (by' - cy)) by (rewrite ES, ET; ring). unfold e, S, T. ring. }
  assert (ST : f = e - S - T) by (unfold e, f, S, T; ring).
  assert (ST' : 1 < s + t).
  { apply (Rmult_lt_reg_l e); [exact H1|]. replace (e * (s + t)) with (S + T) by (rewrite ES, ET; ring). lra. }
  rewrite ES, ET. clearbody S T. rewrite ST, ES, ET in F. clear ST ES ET Es Et f H2 S T. clearbody e.
  set (ux := ax - cx) in *. set (uy := ay - cy) in *. set (vx := bx - cx) in *. set (vy := by' - cy) in *.
  replace (ax - dx) with (ux - (s * ux + t * vx)) in F by (rewrite <- X; unfold ux; ring).
  replace (bx - dx) with (vx - (s * ux + t * vx)) in F by (rewrite <- X; unfold vx; ring).
  replace (ay - dy) with (uy - (s * uy + t * vy)) in F by (rewrite <- Y; unfold uy; ring).
  replace (by' - dy) with (vy - (s * uy + t * vy)) in F by (rewrite <- Y; unfold vy; ring).
  clear X Y. clearbody ux uy vx vy.
  assert (F' : (s * ux + t * vx) * (s * ux + t * vx) + (s * uy + t * vy) * (s * uy + t * vy) - s * (ux * ux + uy * uy) - t * (vx * vx + vy * vy) < 0).
  { apply Rnot_le_lt. intros G. pose proof (Rmult_le_pos e _ (Rlt_le _ _ H1) G). lra. }
  pose proof (convex_key ux uy vx vy s t F' ST') as TP.
  assert (SP : 0 < s). { apply (convex_key vx vy ux uy t s); [|lra]. replace ((t * vx + s * ux)) with (s * ux + t * vx) by ring. replace ((t * vy + s * uy)) with (s * uy + t * vy) by ring. lra. }
  split; apply Rmult_lt_0_compat; auto.
Qed.
Lemma quad_convex : forall a b o1 o2 : pt RA, 0 < orient a b o1 -> orient a b o2 < 0 -> incirc a b o1 o2 < 0 ->
  0 < orient o1 a o2 /\ 0 < orient o1 o2 b.
Proof. intros [ax ay] [bx by'] [cx cy] [dx dy] H1 H2 F. exact (quad_real ax ay bx by' cx cy dx dy H1 H2 F). Qed.

Lemma incirc_diag : forall a b o1 o2, incirc o1 o2 a b = incirc a b o1 o2.
Proof. intros [ax ay] [bx by'] [cx cy] [dx dy]. unfold incirc, orient, dot. cbn [px py]. ring. Qed.

Lemma dist_pos : forall p q : pt RA, p <> q -> 0 < dist p q.
Proof.
  intros [x y] [z w] NE. unfold dist. apply sqrt_lt_R0. cbn [px py].
  pose proof (Rle_0_sqr (x - z)) as A. pose proof (Rle_0_sqr (y - w)) as B. unfold Rsqr in A, B.
  destruct (Req_dec (x - z) 0) as [E|E]; [destruct (Req_dec (y - w) 0) as [F|F]|].
  - exfalso. apply NE. f_equal; lra.
  - pose proof (Rlt_0_sqr _ F) as Z. unfold Rsqr in Z. lra.
  - pose proof (Rlt_0_sqr _ E) as Z. unfold Rsqr in Z. lra.
Qed.
Lemma dist_prod : forall o p q : pt RA, dist o p * dist o q = sqrt (dot o p q * dot o p q + orient o p q * orient o p q).
Proof.
  intros [x y] [z w] [u v]. unfold dist, dot, orient. cbn [px py]. rewrite <- sqrt_mult_alt.
  - f_equal. ring.
  - pose proof (Rle_0_sqr (x - z)) as A. pose proof (Rle_0_sqr (y - w)) as B. unfold Rsqr in A, B. lra.
Qed.
Lemma angle_unique : forall (o p q : pt RA) al x, o <> p -> o <> q -> angle_at o p q al -> x = orient o p q \/ x = - orient o p q ->
  Rabs (Ratan2 x (dot o p q)) = al.
Proof.
  intros o p q al x P Q [B E] X. rewrite dist_prod in E.
  assert (R0 : 0 < dist o p * dist o q) by (apply Rmult_lt_0_compat; apply dist_pos; auto). rewrite dist_prod in R0.
  destruct (atan2_spec (dot o p q) x) as (C & S & B').
  replace (x * x) with (orient o p q * orient o p q) in C by (destruct X as [-> | ->]; ring).
  set (r := sqrt (dot o p q * dot o p q + orient o p q * orient o p q)) in *.
  set (be := Ratan2 x (dot o p q)) in *.
  assert (CC : cos (Rabs be) = cos al).
  { apply (Rmult_eq_reg_l r); [|lra]. rewrite E, <- C. f_equal. unfold Rabs. destruct (Rcase_abs be); [apply cos_neg|reflexivity]. }
  rewrite <- (acos_cos (Rabs be)), <- (acos_cos al), CC; [reflexivity|lra|].
  split; [apply Rabs_pos|]. unfold Rabs. destruct (Rcase_abs be); lra.
Qed.

(*@ C45_flip_iff *)
(** C45: an edge with the end points a, b and two triangles with the other vertices o1, o2 is flipped if
    and only if the angles at o1 and o2 add up to more than 180 degrees, by the factor 1 + 1e-8. *)
Lemma flip_iff : forall (st : dst RA) i j k1 k2 u w a b o1 o2 al1 al2, consistent st -> Forall stored (dpts st) ->
  In ((i, j), [k1; k2]) (de2t st) -> has st k1 u -> u <> i -> u <> j -> has st k2 w -> w <> i -> w <> j ->
  nth_error (dpts st) i = Some a -> nth_error (dpts st) j = Some b -> nth_error (dpts st) u = Some o1 -> nth_error (dpts st) w = Some o2 ->
  o1 <> a -> o1 <> b -> o2 <> a -> o2 <> b -> angle_at o1 a b al1 -> angle_at o2 a b al2 ->
  exists st' r, flipOneEdge st (i, j) = Ok (st', r) /\ (r <> [] <-> PI * (1 + 1 / 10 ^ 8) < al1 + al2) /\ (r = [] -> st' = st).
Proof.
  intros st i j k1 k2 u w a b o1 o2 al1 al2 C SP I Hu Ui Uj Hw Wi Wj Ea Eb E1 E2 D1 D2 D3 D4 A1 A2.
  assert (SS : forall k p, nth_error (dpts st) k = Some p -> stored p).
  { intros k p E. apply nth_error_In in E. rewrite Forall_forall in SP. auto. }
  destruct (flip_eval RA st i j k1 k2 u w) as (v & st' & T & F); auto.
  rewrite (test_true (dpts st) u w i j a b o1 o2) in T by eauto.
  rewrite (angle_unique o1 a b al1) in T; auto; [|left; unfold orient; ring].
  rewrite (angle_unique o2 a b al2) in T; auto; [|right; unfold orient; ring].
  injection T as <-. rewrite F. unfold Rltb. destruct (Rlt_dec _ _) as [L|L].
  - exists st'. eexists. split; [reflexivity|]. split; [|discriminate]. split; [auto|discriminate].
  - exists st, []. split; [reflexivity|]. split; [|auto]. split; [congruence|lra].
Qed.

Lemma circle_power : forall a b o1 o2 c : pt RA, dist c a = dist c b -> dist c a = dist c o1 ->
  orient a b o1 * (dist c o2 * dist c o2 - dist c a * dist c a) = incirc a b o1 o2.
Proof.
  intros a b o1 o2 c E1 E2.
  assert (D : forall p : pt RA, dist c p * dist c p = (px c - px p) ^ 2 + (py c - py p) ^ 2).
  { intros p. apply sqrt_sqrt. pose proof (Rle_0_sqr (px c - px p)) as Z. pose proof (Rle_0_sqr (py c - py p)) as W. unfold Rsqr in Z, W. lra. }
  assert (F1 : dist c a * dist c a = dist c b * dist c b) by (rewrite E1; reflexivity).
  assert (F2 : dist c a * dist c a = dist c o1 * dist c o1) by (rewrite E2; reflexivity).
  rewrite !D in *. clear E1 E2 D. revert F1 F2. destruct a as [ax ay], b as [bx by'], o1 as [x1 y1], o2 as [x2 y2], c as [cx cy]. unfold incirc, orient, dot. cbn [px py]. intros F1 F2.
  change (@num RA) with R in *.
  assert (G1 : 2 * (bx - ax) * cx + 2 * (by' - ay) * cy = bx * bx + by' * by' - ax * ax - ay * ay) by (clear F2; simpl in F1; lra).
  assert (G2 : 2 * (x1 - ax) * cx + 2 * (y1 - ay) * cy = x1 * x1 + y1 * y1 - ax * ax - ay * ay) by (clear F1; simpl in F2; lra).
  clear F1 F2.
  (* the centre is determined by e c = ... *)
  set (e := (bx - ax) * (y1 - ay) - (by' - ay) * (x1 - ax)).
  assert (CX : 2 * (e * cx) = (bx * bx + by' * by' - ax * ax - ay * ay) * (y1 - ay) - (x1 * x1 + y1 * y1 - ax * ax - ay * ay) * (by' - ay)).
  { rewrite <- G1, <- G2. unfold e. ring. }
  assert (CY : 2 * (e * cy) = (x1 * x1 + y1 * y1 - ax * ax - ay * ay) * (bx - ax) - (bx * bx + by' * by' - ax * ax - ay * ay) * (x1 - ax)).
  { rewrite <- G1, <- G2. unfold e. ring. }
  replace (e * ((cx - x2) ^ 2 + (cy - y2) ^ 2 - ((cx - ax) ^ 2 + (cy - ay) ^ 2)))
    with (2 * (e * cx) * (ax - x2) + 2 * (e * cy) * (ay - y2) + e * (x2 * x2 + y2 * y2 - ax * ax - ay * ay)) by ring.
  rewrite CX, CY. unfold e. ring.
Qed.

Lemma incirc_swap : forall a b o1 o2, incirc b a o1 o2 = - incirc a b o1 o2.
Proof. intros [ax ay] [bx by'] [cx cy] [dx dy]. unfold incirc, orient, dot. cbn [px py]. ring. Qed.
Lemma orient_swap : forall a b c, orient b a c = - orient a b c.
Proof. intros. unfold orient. ring. Qed.
Lemma orient_rot : forall a b c, orient b c a = orient a b c.
Proof. intros. unfold orient. ring. Qed.

(*@ C45_flip_delaunay *)
(** C45: let o1 and o2 be on opposite sides of the edge a b, which is flipped.  Then o2 was inside the
    circumcircle of a, b, o1, and after the flip b is outside that of the new triangle o1, a, o2; the new
    triangles have the orientation of the old ones (the quadrilateral was convex) and together the same
    area; and the new edge is not flipped back. *)
Lemma flip_delaunay : forall (st st' : dst RA) i j k1 k2 u w a b o1 o2 r, consistent st -> Forall stored (dpts st) ->
  In ((i, j), [k1; k2]) (de2t st) -> has st k1 u -> u <> i -> u <> j -> has st k2 w -> w <> i -> w <> j ->
  nth_error (dpts st) i = Some a -> nth_error (dpts st) j = Some b -> nth_error (dpts st) u = Some o1 -> nth_error (dpts st) w = Some o2 ->
  orient a b o1 * orient a b o2 < 0 -> flipOneEdge st (i, j) = Ok (st', r) -> r <> [] ->
  nth_error (dtris st') k1 = Some (u, i, w) /\ nth_error (dtris st') k2 = Some (u, w, j) /\
  (forall c, dist c a = dist c b -> dist c a = dist c o1 -> dist c o2 < dist c a) /\
  (forall c, dist c o1 = dist c a -> dist c o1 = dist c o2 -> dist c o1 < dist c b) /\
  0 < orient o1 a o2 * orient a b o1 /\ 0 < orient o1 o2 b * orient a b o1 /\
  Rabs (orient o1 a o2) + Rabs (orient o1 o2 b) = Rabs (orient a b o1) + Rabs (orient a b o2) /\
  flipOneEdge st' (Nat.min u w, Nat.max u w) = Ok (st', []).
Proof.
  intros st st' i j k1 k2 u w a b o1 o2 r C SP I Hu Ui Uj Hw Wi Wj Ea Eb E1 E2 OP F NR.
  assert (SS : forall k p, nth_error (dpts st) k = Some p -> stored p).
  { intros k p E. apply nth_error_In in E. rewrite Forall_forall in SP. auto. }
  assert (UW : u <> w).
  { intros ->. rewrite E1 in E2. injection E2 as ->. pose proof (Rle_0_sqr (orient a b o2)) as Z. unfold Rsqr in Z. lra. }
  destruct (flip_eval RA st i j k1 k2 u w) as (v & st2 & T & F2); auto.
  assert (v = true) as -> by (destruct v; [reflexivity|]; rewrite F in F2; injection F2 as _ ->; congruence).
  pose proof (test_incirc (dpts st) u w i j a b o1 o2 Ea Eb E1 E2 (SS _ _ Ea) (SS _ _ Eb) (SS _ _ E1) (SS _ _ E2) T) as [T1 T2].
  destruct (flip_replaces RA st st' i j r C F) as [[-> ->]|FR]; [congruence|].
  destruct FR as (h1 & h2 & q1 & q2 & H12 & HI & Q1i & Q1j & Q2i & Q2j & HT1 & HT2 & HP & HB & HL & N1 & N2 & HO & HR).
  assert (KK : h1 = k1 /\ h2 = k2). { apply (cons_get st i j _ C) in HI. apply (cons_get st i j _ C) in I. rewrite I in HI. injection HI as -> ->. auto. }
  destruct KK as [-> ->]. assert (q1 = u) by (apply HT1 in Hu; intuition congruence). assert (q2 = w) by (apply HT2 in Hw; intuition congruence). subst q1 q2.
  split; [exact N1|]. split; [exact N2|].
  (* the signs *)
  assert (G : (0 < orient a b o1 /\ orient a b o2 < 0 /\ incirc a b o1 o2 < 0 /\ 0 < orient o1 a o2 /\ 0 < orient o1 o2 b) \/
              (orient a b o1 < 0 /\ 0 < orient a b o2 /\ 0 < incirc a b o1 o2 /\ orient o1 a o2 < 0 /\ orient o1 o2 b < 0)).
  { assert (SG : forall x y : R, x * y < 0 -> (0 < x /\ y < 0) \/ (x < 0 /\ 0 < y)) by (intros x y L; destruct (Rlt_le_dec 0 x); [left|destruct (Rlt_le_dec 0 y); [right|]]; nra).
    destruct (SG _ _ OP) as [[G1 G2]|[G1 G2]]; [left|right].
    - pose proof (T1 G1 G2) as G3. destruct (quad_convex a b o1 o2 G1 G2 G3). auto.
    - pose proof (T2 G1 G2) as G3. destruct (quad_convex b a o1 o2) as [H1 H2].
      + rewrite orient_swap; lra.
      + rewrite orient_swap; lra.
      + rewrite incirc_swap. lra.
      + repeat split; auto.
        * assert (orient o1 a o2 = - orient o1 o2 a) as -> by (unfold orient; ring). lra.
        * assert (orient o1 o2 b = - orient o1 b o2) as -> by (unfold orient; ring). lra. }
  assert (DN : forall c p : pt RA, 0 <= dist c p) by (intros; apply sqrt_pos).
  assert (SQ : forall x y : R, 0 <= x -> 0 <= y -> x * x - y * y < 0 -> x < y) by (intros; nra).
  split.
  { intros c H1 H2. pose proof (circle_power a b o1 o2 c H1 H2) as CP. apply SQ; auto. destruct G as [(G1 & _ & G3 & _)|(G1 & _ & G3 & _)]; nra. }
  split.
  { intros c H1 H2. assert (CP : orient o1 o2 a * (dist c b * dist c b - dist c o1 * dist c o1) = incirc o1 o2 a b) by (apply circle_power; congruence).
    rewrite incirc_diag in CP. replace (orient o1 o2 a) with (- orient o1 a o2) in CP by (unfold orient; ring). apply SQ; auto. destruct G as [(_ & _ & G3 & G4 & _)|(_ & _ & G3 & G4 & _)]; nra. }
  split; [destruct G as [(G1 & _ & G3 & G4 & _)|(G1 & _ & G3 & G4 & _)]; nra|].
  split; [destruct G as [(G1 & _ & G3 & _ & G4)|(G1 & _ & G3 & _ & G4)]; nra|].
  assert (SUM : orient o1 a o2 + orient o1 o2 b = orient a b o1 - orient a b o2) by (unfold orient; ring).
  split.
  { destruct G as [(G1 & G2 & _ & G3 & G4)|(G1 & G2 & _ & G3 & G4)].
    - rewrite (Rabs_right (orient o1 a o2)), (Rabs_right (orient o1 o2 b)), (Rabs_right (orient a b o1)), (Rabs_left (orient a b o2)) by lra. lra.
    - rewrite (Rabs_left (orient o1 a o2)), (Rabs_left (orient o1 o2 b)), (Rabs_left (orient a b o1)), (Rabs_right (orient a b o2)) by lra. lra. }
  (* no flip back *)
  set (x := Nat.min u w). set (y := Nat.max u w). assert (XY : (x < y)%nat) by (unfold x, y; lia).
  assert (XYE : (x = u /\ y = w) \/ (x = w /\ y = u)) by (unfold x, y; lia).
  assert (AG : aget (de2t st') (x, y) = Some [k1; k2]).
  { apply flip_inv in F. destruct F as [[_ ->]|F]; [congruence|].
    destruct F as (t1 & t2 & tri1 & tri2 & p1 & p2 & v1 & v2 & GG & F1 & F3 & O1 & O2 & D & V1 & V2 & -> & _).
    rewrite (proj2 (cons_get st i j _ C) I) in GG. injection GG as <- <-. cbn [dtris] in N1.
    assert (p1 = u /\ p2 = w).
    { rewrite !tset_nth, F1 in N1. rewrite (proj2 (Nat.eqb_neq k1 k2)), Nat.eqb_refl in N1 by auto. injection N1 as -> ->. auto. }
    destruct H as [-> ->]. destruct (cs_val st C _ _ _ I) as (AB & _ & _). cbn [de2t fst snd].
    destruct (aget_m4 (de2t st) i j u w k1 k2 v1 v2 x y (cs_keys st C) AB XY Ui Uj Wi Wj UW) as [[_ Z]|[(E & _)|[(E & _)|[(X1 & X2 & _)|(X1 & _)]]]]; [exact Z| | | |]; exfalso; clear - XYE Ui Uj Wi Wj UW E X1 X2 || clear - XYE Ui Uj Wi Wj UW E || clear - XYE Ui Uj Wi Wj UW X1 X2 || clear - XYE X1; intuition congruence. }
  unfold flipOneEdge. rewrite AG. rewrite (get_ok _ _ _ _ N1), (get_ok _ _ _ _ N2). cbn [bind].
  assert (OO : opposite (u, i, w) (x, y) = Some i /\ opposite (u, w, j) (x, y) = Some j).
  { unfold opposite. cbn [tri_list filter fst snd]. destruct XYE as [[-> ->]|[-> ->]];
    rewrite !Nat.eqb_refl; rewrite (proj2 (Nat.eqb_neq i u)), (proj2 (Nat.eqb_neq i w)), (proj2 (Nat.eqb_neq j u)), (proj2 (Nat.eqb_neq j w)) by auto;
    rewrite ?orb_true_r; cbn; auto. }
  destruct OO as [-> ->].
  assert (TF : exists v, delaunay_test (dpts st') i j (x, y) = Ok v /\ v = false).
  { rewrite HP. assert (RG : forall k p, nth_error (dpts st) k = Some p -> (k < length (dpts st))%nat) by (intros k p E; apply nth_error_Some; congruence).
    assert (XL : (x < length (dpts st) /\ y < length (dpts st))%nat) by (destruct XYE as [[-> ->]|[-> ->]]; eauto).
    destruct (test_ok RA (dpts st) i j x y (RG _ _ Ea) (RG _ _ Eb) (proj1 XL) (proj2 XL)) as [v TV]. exists v. split; [exact TV|].
    destruct v; [|reflexivity]. exfalso.
    assert (OA : orient o1 o2 a = - orient o1 a o2) by (unfold orient; ring).
    destruct XYE as [[-> ->]|[-> ->]].
    - destruct (test_incirc (dpts st) i j u w o1 o2 a b E1 E2 Ea Eb (SS _ _ E1) (SS _ _ E2) (SS _ _ Ea) (SS _ _ Eb) TV) as [U1 U2].
      rewrite incirc_diag in U1, U2. rewrite OA in U1, U2. destruct G as [(G1 & G2 & G3 & G4 & G5)|(G1 & G2 & G3 & G4 & G5)]; [specialize (U2 ltac:(lra) ltac:(lra)); lra|specialize (U1 ltac:(lra) ltac:(lra)); lra].
    - destruct (test_incirc (dpts st) i j w u o2 o1 a b E2 E1 Ea Eb (SS _ _ E2) (SS _ _ E1) (SS _ _ Ea) (SS _ _ Eb) TV) as [U1 U2].
      rewrite incirc_swap, incirc_diag in U1, U2. rewrite !(orient_swap o1 o2), OA in U1, U2. destruct G as [(G1 & G2 & G3 & G4 & G5)|(G1 & G2 & G3 & G4 & G5)]; [specialize (U1 ltac:(lra) ltac:(lra)); lra|specialize (U2 ltac:(lra) ltac:(lra)); lra]. }
  destruct TF as (v & -> & ->). reflexivity.
Qed.

(*@ C45_visible *)
(** C45: the area computed for three stored points is twice the signed area of their triangle, and an edge
    is visible from a point if and only if this is less than 1e-8 for the point and the ends of the edge
    (the point is right of the directed edge, or on its line). *)
Lemma visible_spec : forall (ps : list (pt RA)) i j k p a b, nth_error ps k = Some p -> nth_error ps i = Some a -> nth_error ps j = Some b ->
  stored p -> stored a -> stored b ->
  getArea ps k i j = Ok (orient p a b) /\
  isEdgeVisible ps k (i, j) = Ok (if Rlt_dec (orient p a b) (1 / 10 ^ 8) then true else false).
Proof.
  intros ps i j k p a b K I J P SA SB. pose proof (getArea_orient ps k i j p a b K I J P SA SB) as G. split; [exact G|].
  unfold isEdgeVisible. cbn [fst snd]. rewrite G. cbn [bind].
  assert (EE : @EPS RA = 1 / 10 ^ 8) by (unfold EPS, ndec; ra_simpl; lra).
  change (Ok (Rltb (orient p a b) (@EPS RA)) = Ok (if Rlt_dec (orient p a b) (1 / 10 ^ 8) then true else false)). rewrite EE. reflexivity.
Qed.
