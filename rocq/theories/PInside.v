(** is_internal_point of polygons. *)
From Coq Require Import Reals ZArith Lra Lia Bool List Psatz Permutation.
From Verif Require Import Base Arith ArithR ArithF MPoint MLine MPoly Spec SpecInside PPoint PLine PShape PPoly PCommon PConvex.
Import ListNotations.
Local Open Scope R_scope.
#[local] Existing Instance RA.

(** * One ray, one edge *)
Lemma Rltb_dec : forall (X : Type) (a b : R) (x y : X), (if Rlt_dec a b then x else y) = (if Rltb a b then x else y).
Proof. intros. destruct (Rlt_dec a b), (Rltb a b) eqn:E; rb; auto; try lra. Qed.

Lemma opposite_shared : forall ax ay bx by' qx qy Px Py : R,
  let o ux uy vx vy wx wy := (vx - ux) * (wy - uy) - (vy - uy) * (wx - ux) in
  o qx qy Px Py ax ay * o qx qy Px Py bx by' < 0 -> o ax ay bx by' qx qy * o ax ay bx by' Px Py < 0 ->
  exists t u, 0 <= t <= 1 /\ 0 <= u <= 1 /\ qx + t * (Px - qx) = ax + u * (bx - ax) /\ qy + t * (Py - qy) = ay + u * (by' - ay).
Proof.
  intros ax ay bx by' qx qy Px Py o H1 H2.
  set (A := o qx qy Px Py ax ay) in *. set (B := o qx qy Px Py bx by') in *.
  set (C := o ax ay bx by' qx qy) in *. set (D := o ax ay bx by' Px Py) in *.
  assert (E : C - D = B - A) by (unfold A, B, C, D, o; ring).
  assert (NZ : C - D <> 0) by (intro; nra).
  exists (C / (C - D)), (- A / (B - A)).
  assert (K : forall x y, x * y < 0 -> 0 <= x / (x - y) <= 1).
  { intros x y K. assert (x - y <> 0) by (intro; nra).
    destruct (Rlt_dec 0 x).
    - assert (y < 0) by nra. split; [apply Rmult_le_pos; [lra|left; apply Rinv_0_lt_compat; lra]|].
      apply (Rmult_le_reg_r (x - y)); [lra|]. field_simplify; lra.
    - assert (x < 0) by nra. assert (0 < y) by nra.
      replace (x / (x - y)) with ((- x) / (y - x)) by (field; split; lra).
      split; [apply Rmult_le_pos; [lra|left; apply Rinv_0_lt_compat; lra]|].
      apply (Rmult_le_reg_r (y - x)); [lra|]. field_simplify; lra. }
  split; [apply K; auto|]. split.
  - replace (- A / (B - A)) with (A / (A - B)) by (field; split; lra). apply K; auto.
  - rewrite <- E. split; apply (Rmult_eq_reg_r (C - D)); auto; field_simplify; auto;
      unfold A, C, D, o; ring.
Qed.

Lemma crosses_shared : forall p P a b : pt RA, orient p P a * orient p P b < 0 -> orient a b p * orient a b P < 0 ->
  exists q, on_segment p P q /\ on_segment a b q.
Proof.
  intros p P a b H1 H2. destruct (opposite_shared (px a) (py a) (px b) (py b) (px p) (py p) (px P) (py P) H1 H2)
    as (t & u & T & U & X & Y).
  exists (along p P t). split; [exists t; auto|exists u; split; auto]. apply pt_ext; simpl; auto.
Qed.

Lemma cross_np : forall p P a b : pt RA, orient p P a * orient p P b < 0 ->
  crossproduct (LineSegment p P) (LineSegment a b) <> 0.
Proof.
  intros p P a b H E. rewrite crossproduct_R in E. cbn in E.
  assert (Z : orient p P b = orient p P a) by (apply Rminus_diag_uniq; rewrite <- E; unfold orient; ring).
  rewrite Z in H. nra.
Qed.

Lemma dist_small : forall (p q : pt RA) e, Rabs (px p - px q) <= e -> Rabs (py p - py q) <= e -> dist p q <= 2 * e.
Proof.
  intros p q e X Y. unfold dist. assert (0 <= e) by (pose proof (Rabs_pos (px p - px q)); lra).
  apply Rabs_le_inv in X, Y. rewrite <- (sqrt_pow2 (2 * e)) by lra. apply sqrt_le_1_alt. nra.
Qed.

(** A proper crossing is reported. *)
Lemma ios_crosses : forall (s : seg RA) (p P : pt RA), crosses p P (si s) (sj s) ->
  intersection_on_segment (LineSegment p P) s = Ok true.
Proof.
  intros s p P (H1 & H2 & F). set (r := LineSegment p P).
  assert (NP : crossproduct r s <> 0).
  { pose proof (cross_np p P (si s) (sj s) H1) as N. rewrite crossproduct_R in *. exact N. }
  assert (T : touch r s = false).
  { apply not_true_is_false. intros T. apply (proj1 (touch_spec r s)) in T. unfold r in T. cbn [si sj LineSegment] in T.
    assert (/ 10^8 <= dist p (si s) /\ / 10^8 <= dist p (sj s) /\ / 10^8 <= dist P (si s) /\ / 10^8 <= dist P (sj s))
      by (repeat split; apply F; simpl; auto). lra. }
  unfold intersection_on_segment. rewrite T, (intersection_point_R r s NP). cbn [bind]. f_equal.
  destruct (crosses_shared p P (si s) (sj s) H1 H2) as (q & Q1 & Q2).
  assert (Q : q = @mkpt RA (ip_x r s) (ip_y r s)).
  { apply (lines_unique r s _ _ NP).
    - destruct Q1 as (t & _ & E). exists t; exact E.
    - destruct Q2 as (t & _ & E). exists t; exact E.
    - destruct (ip_on_first r s NP) as (t & E). exists t; exact E.
    - destruct (ip_on_second r s NP) as (t & E). exists t; exact E. }
  assert (QX : ip_x r s = px q) by (rewrite Q; reflexivity). assert (QY : ip_y r s = py q) by (rewrite Q; reflexivity).
  rewrite QX, QY.
  assert (K : forall t : seg RA, on_segment (si t) (sj t) q -> ls_is_internal_point t (Point_new (px q) (py q)) = true).
  { intros t S. apply internal_iff_R. destruct (segment_box _ _ _ S) as [BX BY].
    pose proof (Rround8_err (px q)) as X. pose proof (Rround8_err (py q)) as Y. apply Rabs_le_inv in X, Y.
    unfold Point_new; ra. cbn [px py]. simpl in *. lra. }
  rewrite (K r Q1), (K s Q2). reflexivity.
Qed.

Lemma ios_apart : forall (s : seg RA) (p P : pt RA), apart p P (si s) (sj s) ->
  intersection_on_segment (LineSegment p P) s = Ok false.
Proof.
  intros s p P F. set (r := LineSegment p P). destruct (ios_sym r s) as (_ & _ & K & _).
  destruct (touch r s) eqn:T; [apply K; auto|]. destruct (is_parallel r s) eqn:PA; [apply K; auto|]. clear K.
  destruct (proj2 (intersection_point_spec r s) PA) as (q & Q & (a & Ea) & (b & Eb) & _).
  unfold intersection_on_segment. rewrite T, Q. cbn [bind]. f_equal.
  destruct (ls_is_internal_point r (Point_new (px q) (py q))) eqn:I1; [|reflexivity].
  destruct (ls_is_internal_point s (Point_new (px q) (py q))) eqn:I2; [|reflexivity]. exfalso.
  assert (K : forall (t : seg RA) c, q = along (si t) (sj t) c -> ls_is_internal_point t (Point_new (px q) (py q)) = true ->
    exists e, on_segment (si t) (sj t) e /\ Rabs (px q - px e) <= 15/1000000000 /\ Rabs (py q - py e) <= 15/1000000000).
  { intros t c E I. destruct (Rle_dec 0 c) as [C0|C0]; [destruct (Rle_dec c 1) as [C1|C1]|].
    - exists q. split; [exists c; auto|]. unfold Rminus. rewrite !Rplus_opp_r, Rabs_R0. lra.
    - destruct (near_end2 t q c E) as (e & He & X & Y); auto; [lra|]. exists e. split; auto.
      destruct He as [<-|[<-|[]]]; [exists 0|exists 1]; (split; [lra|apply pt_ext; simpl; rring]).
    - destruct (near_end2 t q c E) as (e & He & X & Y); auto; [lra|]. exists e. split; auto.
      destruct He as [<-|[<-|[]]]; [exists 0|exists 1]; (split; [lra|apply pt_ext; simpl; rring]). }
  destruct (K r a Ea I1) as (e & S1 & X1 & Y1). destruct (K s b Eb I2) as (f & S2 & X2 & Y2).
  specialize (F e f S1 S2). pose proof (dist_small e f (3/100000000)) as D.
  apply Rabs_le_inv in X1, X2, Y1, Y2.
  assert (dist e f <= 2 * (3/100000000)) by (apply D; apply Rabs_le; lra). simpl in F. lra.
Qed.

(** * Parity of one edge *)
Lemma row_segment : forall a b w : pt RA, py a < py b -> py a <= py w <= py b -> orient a b w = 0 -> on_segment a b w.
Proof.
  intros a b w L W O. exists ((py w - py a) / (py b - py a)).
  assert (E : forall x, x / (py b - py a) * (py b - py a) = x) by (intros; field; lra).
  split.
  - split; [apply Rmult_le_pos; [lra|left; apply Rinv_0_lt_compat; lra]|].
    apply (Rmult_le_reg_r (py b - py a)); [lra|]. rewrite E. lra.
  - unfold orient in O. apply pt_ext; simpl; [|rewrite E; lra].
    apply (Rmult_eq_reg_r (py b - py a)); [|lra].
    replace ((px a + (py w - py a) / (py b - py a) * (px b - px a)) * (py b - py a))
      with (px a * (py b - py a) + ((py w - py a) / (py b - py a) * (py b - py a)) * (px b - px a)) by ring.
    rewrite E. lra.
Qed.

Lemma orient_along : forall a b p P t, orient a b (along p P t) = (1 - t) * orient a b p + t * orient a b P.
Proof. intros. unfold orient, along. simpl. ring. Qed.

(** p P lies in the rows of a b and its ends are on different sides of it. *)
Lemma rows_shared : forall a b p P : pt RA, py a < py b ->
  py a <= py p <= py b -> py a <= py P <= py b -> orient a b p * orient a b P < 0 ->
  exists q, on_segment p P q /\ on_segment a b q.
Proof.
  intros a b p P L R1 R2 O. set (C := orient a b p) in *. set (D := orient a b P) in *.
  assert (N : C - D <> 0) by (intro; nra).
  set (t := C / (C - D)).
  assert (T : 0 <= t <= 1).
  { unfold t. destruct (Rlt_dec 0 C).
    - assert (D < 0) by nra. split; [apply Rmult_le_pos; [lra|left; apply Rinv_0_lt_compat; lra]|].
      apply (Rmult_le_reg_r (C - D)); [lra|]. field_simplify; lra.
    - assert (C < 0) by nra. assert (0 < D) by nra.
      replace (C / (C - D)) with ((- C) / (D - C)) by (field; split; lra).
      split; [apply Rmult_le_pos; [lra|left; apply Rinv_0_lt_compat; lra]|].
      apply (Rmult_le_reg_r (D - C)); [lra|]. field_simplify; lra. }
  exists (along p P t). split; [exists t; auto|]. apply row_segment; auto.
  - simpl. nra.
  - rewrite orient_along. fold C D. unfold t. field; auto.
Qed.

Definition crossb (p P a b : pt RA) : bool :=
  Rltb (orient p P a * orient p P b) 0 && Rltb (orient a b p * orient a b P) 0.
(** Is the vertex a to the right of the segment p P, in one of its rows? *)
Definition vright (p P a : pt RA) : bool :=
  match Rle_lt_dec (py a) (py p), Rle_lt_dec (py a) (py P) with
  | right _, left _ => Rltb (orient p P a) 0
  | left _, right _ => Rltb 0 (orient p P a)
  | _, _ => false
  end.

Lemma row_sym : forall p a b, right_of_row p a b = right_of_row p b a.
Proof.
  intros p a b. unfold right_of_row. destruct (Rle_lt_dec (py a) (py p)), (Rle_lt_dec (py b) (py p)); auto;
  rewrite !Rltb_dec; replace (orient b a p) with (- orient a b p) by (unfold orient; ring).
  - destruct (Rltb 0 _) eqn:E, (Rltb (- _) 0) eqn:F; rb; auto; lra.
  - destruct (Rltb _ 0) eqn:E, (Rltb 0 (- _)) eqn:F; rb; auto; lra.
Qed.
Lemma vright_sym : forall p P a, vright p P a = vright P p a.
Proof.
  intros p P a. unfold vright. destruct (Rle_lt_dec (py a) (py p)), (Rle_lt_dec (py a) (py P)); auto;
  replace (orient P p a) with (- orient p P a) by (unfold orient; ring).
  - destruct (Rltb 0 _) eqn:E, (Rltb (- _) 0) eqn:F; rb; auto; lra.
  - destruct (Rltb _ 0) eqn:E, (Rltb 0 (- _)) eqn:F; rb; auto; lra.
Qed.
Lemma crossb_sym : forall p P a b, crossb p P a b = crossb p P b a /\ crossb p P a b = crossb P p a b.
Proof.
  intros p P a b. unfold crossb.
  replace (orient b a p) with (- orient a b p) by (unfold orient; ring).
  replace (orient b a P) with (- orient a b P) by (unfold orient; ring).
  replace (orient P p a) with (- orient p P a) by (unfold orient; ring).
  replace (orient P p b) with (- orient p P b) by (unfold orient; ring).
  rewrite !Rmult_opp_opp. rewrite (Rmult_comm (orient p P b)), (Rmult_comm (orient a b P)). auto.
Qed.

(** What the four orientations of two segments have to do with the heights of their ends. *)
Lemma heights : forall a b p P : pt RA,
  let A := orient p P a in let B := orient p P b in let C := orient a b p in let D := orient a b P in
  C - D = B - A /\
  (py P - py b) * C + (py b - py p) * D = - (py b - py a) * B /\
  (py P - py a) * C + (py a - py p) * D = - (py b - py a) * A /\
  (py b - py p) * A + (py p - py a) * B = - (py P - py p) * C /\
  (py b - py P) * A + (py P - py a) * B = - (py P - py p) * D.
Proof. intros. unfold A, B, C, D, orient. repeat split; ring. Qed.

Lemma crossb_true : forall p P a b, crossb p P a b = true <->
  orient p P a * orient p P b < 0 /\ orient a b p * orient a b P < 0.
Proof. intros. unfold crossb. rewrite andb_true_iff, !Rltb_true. tauto. Qed.

Lemma sign_cases : forall x y : R, x * y < 0 -> (0 < x /\ y < 0) \/ (x < 0 /\ 0 < y).
Proof. intros x y H. destruct (Rtotal_order x 0) as [X|[->|X]]; [right; split; nra|lra|left; split; nra]. Qed.

Lemma zero_sum : forall x y z a b c : R, 0 <= x -> 0 <= y -> 0 <= z -> 0 < a -> 0 < b -> 0 < c ->
  x * a + y * b + z * c = 0 -> x = 0 /\ y = 0 /\ z = 0.
Proof.
  intros x y z a b c X Y Z A B C H.
  assert (0 <= x * a) by (apply Rmult_le_pos; lra). assert (0 <= y * b) by (apply Rmult_le_pos; lra).
  assert (0 <= z * c) by (apply Rmult_le_pos; lra).
  assert (x * a = 0) as E1 by lra. assert (y * b = 0) as E2 by lra. assert (z * c = 0) as E3 by lra.
  apply Rmult_integral in E1, E2, E3. repeat split; lra.
Qed.
Lemma edge_parity_up : forall p P a b : pt RA, py a <= py b -> py p <= py P ->
  crossb p P a b = true \/ (forall q, on_segment p P q -> on_segment a b q -> False) ->
  crossb p P a b = xorb (xorb (right_of_row p a b) (right_of_row P a b)) (xorb (vright p P a) (vright p P b)).
Proof.
  intros p P a b L1 L2 H.
  destruct (heights a b p P) as (I0 & I1 & I1' & I2 & I2').
  pose proof (crossb_true p P a b) as CT.
  assert (NC : crossb p P a b = false -> ~ (orient p P a * orient p P b < 0 /\ orient a b p * orient a b P < 0)).
  { intros F T. apply CT in T. congruence. }
  assert (CP : crossb p P a b = true -> orient p P a * orient p P b < 0 /\ orient a b p * orient a b P < 0) by apply CT.
  assert (S0 : forall x y : pt RA, on_segment x y x) by (intros x y; exists 0; split; [lra|apply pt_ext; simpl; rring]).
  assert (S1 : forall x y : pt RA, on_segment x y y) by (intros x y; exists 1; split; [lra|apply pt_ext; simpl; rring]).
  assert (NCp : crossb p P a b = false -> py a <= py p < py b -> orient a b p <> 0).
  { intros F R O. destruct H as [H|H]; [congruence|]. apply (H p); [apply S0|]. apply row_segment; auto; lra. }
  assert (NCP : crossb p P a b = false -> py a <= py P < py b -> orient a b P <> 0).
  { intros F R O. destruct H as [H|H]; [congruence|]. apply (H P); [apply S1|]. apply row_segment; auto; lra. }
  assert (NCa : crossb p P a b = false -> py p < py a <= py P -> orient p P a <> 0).
  { intros F R O. destruct H as [H|H]; [congruence|]. apply (H a); [|apply S0]. apply row_segment; auto; lra. }
  assert (NCb : crossb p P a b = false -> py p < py b <= py P -> orient p P b <> 0).
  { intros F R O. destruct H as [H|H]; [congruence|]. apply (H b); [|apply S1]. apply row_segment; auto; lra. }
  assert (N4 : crossb p P a b = false -> py a <= py p -> py P < py b -> orient a b p * orient a b P < 0 -> False).
  { intros F R1 R2 O. destruct H as [H|H]; [congruence|].
    destruct (rows_shared a b p P) as (q & Q1 & Q2); auto; try lra. eauto. }
  assert (N5 : crossb p P a b = false -> py p < py a -> py b <= py P -> orient p P a * orient p P b < 0 -> False).
  { intros F R1 R2 O. destruct H as [H|H]; [congruence|].
    destruct (rows_shared p P a b) as (q & Q1 & Q2); auto; try lra. eauto. }
  clear H CT S0 S1.
  assert (FLAT : py a = py p -> py b = py p -> py P = py p -> orient p P a = 0).
  { intros E1 E2 E3. unfold orient. rewrite E1, E3. ring. }
  unfold right_of_row, vright. rewrite !Rltb_dec.
  set (A := orient p P a) in *. set (B := orient p P b) in *. set (C := orient a b p) in *. set (D := orient a b P) in *.
  clearbody A B C D.
  destruct (Rle_lt_dec (py a) (py p)) as [ap|ap], (Rle_lt_dec (py b) (py p)) as [bp|bp],
    (Rle_lt_dec (py a) (py P)) as [aP|aP], (Rle_lt_dec (py b) (py P)) as [bP|bP]; try (exfalso; lra); cbn [xorb].
  - (* b below p *)
    destruct (crossb p P a b); auto. exfalso. destruct (CP eq_refl) as [AB CD].
    destruct (sign_cases _ _ AB) as [[]|[]], (sign_cases _ _ CD) as [[]|[]]; try lra.
    + destruct (zero_sum (py p - py b) (py p - py a) (py P - py p) A (- B) (- C)) as (X & Y & Z); try lra.

    + destruct (zero_sum (py p - py b) (py p - py a) (py P - py p) (- A) B C) as (X & Y & Z); try lra.

  - (* a <= p < b <= P *)
    destruct (crossb p P a b).
    + destruct (CP eq_refl) as [AB CD].
      destruct (sign_cases _ _ AB) as [[]|[]], (sign_cases _ _ CD) as [[]|[]]; try lra;
      destruct (Rltb 0 C) eqn:E, (Rltb B 0) eqn:F; rb; auto; lra.
    + specialize (NC eq_refl). assert (C <> 0) by (apply NCp; auto; lra). assert (B <> 0) by (apply NCb; auto; lra).
      destruct (Rltb 0 C) eqn:E, (Rltb B 0) eqn:F; rb; auto; exfalso; apply NC.
      * assert (0 < B) by lra. assert (D < 0) by nra. assert (A < 0) by nra. split; nra.
      * assert (C < 0) by lra. assert (0 < D) by nra. assert (0 < A) by nra. split; nra.
  - (* a <= p <= P < b *)
    destruct (crossb p P a b).
    + destruct (CP eq_refl) as [AB CD].
      destruct (sign_cases _ _ CD) as [[]|[]]; destruct (Rltb 0 C) eqn:E, (Rltb 0 D) eqn:F; rb; auto; lra.
    + assert (C <> 0) by (apply NCp; auto; lra). assert (D <> 0) by (apply NCP; auto; lra).
      destruct (Rltb 0 C) eqn:E, (Rltb 0 D) eqn:F; rb; auto; exfalso; apply N4; auto.
      * assert (D < 0) by lra. nra.
      * assert (C < 0) by lra. nra.
  - (* p < a <= b <= P *)
    destruct (crossb p P a b).
    + destruct (CP eq_refl) as [AB CD].
      destruct (sign_cases _ _ AB) as [[]|[]]; destruct (Rltb A 0) eqn:E, (Rltb B 0) eqn:F; rb; auto; lra.
    + assert (A <> 0) by (apply NCa; auto; lra). assert (B <> 0) by (apply NCb; auto; lra).
      destruct (Rltb A 0) eqn:E, (Rltb B 0) eqn:F; rb; auto; exfalso; apply N5; auto.
      * assert (0 < B) by lra. nra.
      * assert (0 < A) by lra. nra.
  - (* p < a <= P < b *)
    destruct (crossb p P a b).
    + destruct (CP eq_refl) as [AB CD].
      destruct (sign_cases _ _ AB) as [[]|[]], (sign_cases _ _ CD) as [[]|[]]; try lra;
      destruct (Rltb 0 D) eqn:E, (Rltb A 0) eqn:F; rb; auto; lra.
    + specialize (NC eq_refl). assert (D <> 0) by (apply NCP; auto; lra). assert (A <> 0) by (apply NCa; auto; lra).
      destruct (Rltb 0 D) eqn:E, (Rltb A 0) eqn:F; rb; auto; exfalso; apply NC.
      * assert (0 < A) by lra. assert ((py P - py a) * C < 0) by nra. assert (C < 0) by nra.
        assert ((py P - py a) * B < 0) by nra. assert (B < 0) by nra. split; nra.
      * assert (D < 0) by lra. assert (0 < (py P - py a) * C) by nra. assert (0 < C) by nra.
        assert (0 < (py P - py a) * B) by nra. assert (0 < B) by nra. split; nra.
  - (* P < a *)
    destruct (crossb p P a b); auto. exfalso. destruct (CP eq_refl) as [AB CD].
    destruct (sign_cases _ _ AB) as [[]|[]], (sign_cases _ _ CD) as [[]|[]]; try lra; nra.
Qed.

Lemma on_segment_sym : forall a b q, on_segment a b q -> on_segment b a q.
Proof. intros a b q (t & T & ->). exists (1 - t). split; [lra|]. apply pt_ext; simpl; rring. Qed.

Lemma edge_parity : forall p P a b : pt RA,
  crossb p P a b = true \/ (forall q, on_segment p P q -> on_segment a b q -> False) ->
  crossb p P a b = xorb (xorb (right_of_row p a b) (right_of_row P a b)) (xorb (vright p P a) (vright p P b)).
Proof.
  assert (K : forall p P a b : pt RA, py a <= py b ->
    crossb p P a b = true \/ (forall q, on_segment p P q -> on_segment a b q -> False) ->
    crossb p P a b = xorb (xorb (right_of_row p a b) (right_of_row P a b)) (xorb (vright p P a) (vright p P b))).
  { intros p P a b L H. destruct (Rle_dec (py p) (py P)); [apply edge_parity_up; auto|].
    rewrite (proj2 (crossb_sym p P a b)), (vright_sym p P a), (vright_sym p P b), (xorb_comm (right_of_row p a b)).
    apply edge_parity_up; auto; [lra|]. rewrite <- (proj2 (crossb_sym p P a b)). destruct H as [H|H]; auto.
    right. intros q Q. apply H. apply on_segment_sym; auto. }
  intros p P a b H. destruct (Rle_dec (py a) (py b)); [apply K; auto|].
  rewrite (proj1 (crossb_sym p P a b)), (row_sym p a b), (row_sym P a b), (xorb_comm (vright p P a)).
  apply K; [lra|]. rewrite <- (proj1 (crossb_sym p P a b)). destruct H as [H|H]; auto.
  right. intros q Q1 Q2. apply (H q); auto. apply on_segment_sym; auto.
Qed.

(** * Parity of the whole polygon *)
Definition parity (l : list bool) : bool := fold_right xorb false l.
Lemma odd_S : forall n, Nat.odd (S n) = negb (Nat.odd n).
Proof. intros n. rewrite Nat.odd_succ. symmetry. apply Nat.negb_odd. Qed.
Lemma odd_filter : forall X (g : X -> bool) l, Nat.odd (length (filter g l)) = parity (map g l).
Proof.
  intros X g l. induction l as [|x l IH]; [reflexivity|]. cbn [filter map parity fold_right]. fold (parity (map g l)).
  destruct (g x); cbn [length]; [|rewrite IH; destruct (parity (map g l)); reflexivity].
  rewrite odd_S, IH. destruct (parity (map g l)); reflexivity.
Qed.
Lemma parity_perm : forall l l', Permutation l l' -> parity l = parity l'.
Proof.
  induction 1; simpl; auto; try congruence.
  rewrite <- !xorb_assoc, (xorb_comm x y). reflexivity.
Qed.
Lemma parity_xor : forall X (f g : X -> bool) l, parity (map (fun x => xorb (f x) (g x)) l) = xorb (parity (map f l)) (parity (map g l)).
Proof.
  induction l as [|x l IH]; simpl; auto. rewrite IH.
  destruct (f x), (g x), (parity (map f l)), (parity (map g l)); reflexivity.
Qed.
Lemma parity_cycle : forall X (f : X -> bool) vs, parity (map (fun e => xorb (f (fst e)) (f (snd e))) (cycle_edges vs)) = false.
Proof.
  intros X f vs. destruct (cycle_fst_snd X vs) as [F S].
  rewrite parity_xor, <- (map_map fst f), <- (map_map snd f), F, (parity_perm _ _ (Permutation_map f S)). apply xorb_nilpotent.
Qed.

Lemma right_of_all : forall P a b, px a < px P -> px b < px P -> right_of_row P a b = false.
Proof.
  intros P a b A B. unfold right_of_row. destruct (Rle_lt_dec (py a) (py P)), (Rle_lt_dec (py b) (py P)); auto; rewrite Rltb_dec.
  - destruct (Rltb 0 _) eqn:E; rb; auto. unfold orient in E. nra.
  - destruct (Rltb _ 0) eqn:E; rb; auto. unfold orient in E. nra.
Qed.

Lemma cycle_parity : forall vs p P,
  (forall v, In v vs -> px v < px P) ->
  (forall a b, In (a, b) (cycle_edges vs) -> crossb p P a b = true \/ (forall q, on_segment p P q -> on_segment a b q -> False)) ->
  parity (map (fun e => crossb p P (fst e) (snd e)) (cycle_edges vs)) = even_odd vs p.
Proof.
  intros vs p P R H. unfold even_odd. rewrite odd_filter.
  rewrite (map_ext_in _ (fun e => xorb (right_of_row p (fst e) (snd e)) (xorb (vright p P (fst e)) (vright p P (snd e))))).
  - rewrite parity_xor, parity_cycle, xorb_false_r. reflexivity.
  - intros [a b] I. cbn [fst snd]. rewrite (edge_parity p P a b (H a b I)).
    destruct (cycle_edges_In _ _ _ _ I). rewrite (right_of_all P a b), xorb_false_r; auto.
Qed.

Lemma seg_sameb_iff : forall s t : seg RA, seg_sameb s t = true <-> s = t.
Proof.
  intros [c a b] [c' a' b']. unfold seg_sameb. cbn. rewrite !andb_true_iff, !pt_sameb_iff. split.
  - intros [[E ->] ->]. destruct c, c'; try discriminate; reflexivity.
  - intros [= -> -> ->]. destruct c'; auto.
Qed.

Lemma dedup_perm : forall l : list (seg RA), NoDup l -> Permutation (dedup seg_sameb l) l.
Proof.
  intros l N. apply NoDup_Permutation; auto; [apply dedup_NoDup, seg_sameb_iff|]. intros x. apply dedup_In, seg_sameb_iff.
Qed.

Lemma filterM_filter : forall X (f : X -> res bool) (g : X -> bool) l, (forall x, In x l -> f x = Ok (g x)) ->
  filterM f l = Ok (filter g l).
Proof.
  induction l as [|x l IH]; intros H; simpl; auto. rewrite (H x (or_introl eq_refl)), IH by (intros; apply H; simpl; auto).
  simpl. destruct (g x); reflexivity.
Qed.

Lemma crosses_rev : forall p P a b, crosses p P a b -> crosses p P b a.
Proof.
  intros p P a b (H1 & H2 & H3). split; [|split].
  - rewrite Rmult_comm. auto.
  - replace (orient b a p) with (- orient a b p) by (unfold orient; ring).
    replace (orient b a P) with (- orient a b P) by (unfold orient; ring). lra.
  - intros q v Q [<-|[<-|[]]]; apply H3; simpl; auto.
Qed.
Lemma apart_rev : forall p P a b, apart p P a b -> apart p P b a.
Proof. intros p P a b H q q' Q Q'. apply H; auto. apply on_segment_sym; auto. Qed.

Lemma apart_noshare : forall p P a b, apart p P a b -> forall q, on_segment p P q -> on_segment a b q -> False.
Proof.
  intros p P a b H q Q1 Q2. specialize (H q q Q1 Q2). unfold dist in H.
  replace ((px q - px q)^2 + (py q - py q)^2) with 0 in H by rring. rewrite sqrt_0 in H. simpl in H. lra.
Qed.

(** The answer of intersection_on_segment for an edge in general position. *)
Lemma ios_clear : forall (s : seg RA) p P, crosses p P (si s) (sj s) \/ apart p P (si s) (sj s) ->
  intersection_on_segment (LineSegment p P) s = Ok (crossb p P (si s) (sj s)).
Proof.
  intros s p P [H|H].
  - rewrite (ios_crosses s p P H). f_equal. symmetry. apply crossb_true. destruct H as (? & ? & _); auto.
  - rewrite (ios_apart s p P H). f_equal. symmetry. apply not_true_is_false. intros T. apply crossb_true in T as [T1 T2].
    destruct (crosses_shared _ _ _ _ T1 T2) as (q & Q1 & Q2). eapply apart_noshare; eauto.
Qed.

Lemma polygon_parity : forall vs (l : list (seg RA)) p P, polygon_of vs l ->
  parity (map (fun s => crossb p P (si s) (sj s)) l) = parity (map (fun e => crossb p P (fst e) (snd e)) (cycle_edges vs)).
Proof.
  intros vs l p P (l' & PM & F). rewrite (parity_perm _ _ (Permutation_map _ PM)). clear PM.
  induction F as [|e s E l' J F IH]; auto. simpl. rewrite IH. f_equal.
  destruct J as [[-> ->]|[-> ->]]; auto. apply crossb_sym.
Qed.

Lemma polygon_edge : forall vs (l : list (seg RA)) s, polygon_of vs l -> In s l ->
  In (si s, sj s) (cycle_edges vs) \/ In (sj s, si s) (cycle_edges vs).
Proof.
  intros vs l s (l' & PM & F) I. apply (Permutation_in _ PM) in I. clear PM.
  induction F as [|e s' E l' J F IH]; [destruct I|]. destruct I as [->|I].
  - destruct e as [a b]. destruct J as [[-> ->]|[-> ->]]; simpl; auto.
  - destruct (IH I) as [K|K]; simpl; auto.
Qed.
Lemma polygon_ends : forall vs (l : list (seg RA)), polygon_of vs l -> forall v, In v (flat_map ij l) <-> In v vs.
Proof.
  intros vs l H v. split.
  - intros I. apply in_flat_map in I as (s & I & J). destruct (polygon_edge _ _ _ H I) as [K|K];
    apply cycle_edges_In in K as [K1 K2]; destruct J as [<-|[<-|[]]]; auto.
  - intros I. destruct H as (l' & PM & F). destruct (cycle_fst_snd _ vs) as [E _].
    rewrite <- E in I. apply in_map_iff in I as (e & <- & I).
    apply in_flat_map. assert (exists s, In s l' /\ joins e s) as (s & J & K).
    { clear PM E. induction F as [|e' s E l' J F IH]; [destruct I|]. destruct I as [->|I]; [exists s; simpl; auto|].
      destruct (IH I) as (s' & ? & ?). exists s'. simpl; auto. }
    exists s. split; [apply (Permutation_in _ (Permutation_sym PM)); auto|]. destruct K as [[K1 K2]|[K1 K2]]; simpl; auto.
Qed.

Lemma box_max : forall (l : list (seg RA)) xm ym, l <> [] ->
  (forall v, In v (flat_map ij l) -> Rabs (px v) <= 10^11 /\ Rabs (py v) <= 10^11) ->
  (exists v, In v (flat_map ij l) /\ px v = xm) -> (forall v, In v (flat_map ij l) -> px v <= xm) ->
  (exists v, In v (flat_map ij l) /\ py v = ym) -> (forall v, In v (flat_map ij l) -> py v <= ym) ->
  exists x0 y0, bounding_box l = ((x0, xm), (y0, ym)).
Proof.
  intros l xm ym NE B (v & V & <-) X (w & W & <-) Y. destruct (bounding_box l) as [[x1 x2] [y1 y2]] eqn:E.
  destruct (bounding_box_exact l x1 x2 y1 y2 NE B E) as (C & _ & (v' & V' & <-) & _ & (w' & W' & <-)).
  exists x1, y1. pose proof (C _ V). pose proof (C _ W). specialize (X _ V'). specialize (Y _ W').
  f_equal; [f_equal|f_equal]; lra.
Qed.

(** The end of the ray for the draws r1, r2 and the largest coordinates xm, ym of the polygon. *)
Definition far (xm ym : R) (d : R * R) : pt RA :=
  @mkpt RA (Rround8 (xm + 499 * xm * fst d)) (Rround8 (ym + 29 * ym * snd d)).

Lemma ray_end_far : forall (l : list (seg RA)) x0 xm y0 ym d, bounding_box l = ((x0, xm), (y0, ym)) -> ray_end l d = far xm ym d.
Proof.
  intros l x0 xm y0 ym d E. unfold ray_end. rewrite E. unfold Point_new, far, uniform; ra. apply pt_ext; cbn [px py]; f_equal; lra.
Qed.

(*@ C35_even_odd *)
(** C35: for a closed polygon given by its edges in any order and direction, a point that is not == a
    vertex, and draws of the first round whose rays end to the right of the polygon and meet every edge
    either in a proper crossing or not at all, the answer is that of the even-odd rule. *)
Lemma internal_even_odd : forall (vs : list (pt RA)) (l : list (seg RA)) (p : pt RA) (xm ym : R)
    (draws : nat -> R * R) (fuel : nat),
  polygon_of vs l -> NoDup l -> vs <> [] ->
  (forall v, In v vs -> Rabs (px v) <= 10^11 /\ Rabs (py v) <= 10^11) ->
  (exists v, In v vs /\ px v = xm) -> (forall v, In v vs -> px v <= xm) ->
  (exists v, In v vs /\ py v = ym) -> (forall v, In v vs -> py v <= ym) ->
  (forall v, In v vs -> / 10^5 <= Rabs (px v - px p) \/ / 10^5 <= Rabs (py v - py p)) ->
  (forall k, (k < 3)%nat ->
     let P := @mkpt RA (Rround8 (xm + 499 * xm * fst (draws k))) (Rround8 (ym + 29 * ym * snd (draws k))) in
     xm < px P /\ forall a b, In (a, b) (cycle_edges vs) -> crosses p P a b \/ apart p P a b) ->
  poly_is_internal_point l p draws (S fuel) = Ok (Some (even_odd vs p)).
Proof.
  intros vs l p xm ym draws fuel PO ND NE B X1 X2 Y1 Y2 NV R.
  pose proof (polygon_ends _ _ PO) as EN.
  assert (NL : l <> []).
  { intros ->. destruct vs as [|v vs]; [contradiction|]. apply (EN v). simpl; auto. }
  destruct (box_max l xm ym NL) as (x0 & y0 & BB).
  { intros v V. apply B, EN, V. }
  { destruct X1 as (v & V & E). exists v. split; auto. apply EN; auto. }
  { intros v V. apply X2, EN, V. }
  { destruct Y1 as (v & V & E). exists v. split; auto. apply EN; auto. }
  { intros v V. apply Y2, EN, V. }
  unfold poly_is_internal_point.
  replace (existsb (fun q => pt_eqb q p) (point_set l)) with false.
  2:{ symmetry. apply not_true_is_false. intros E. apply existsb_exists in E as (v & V & E).
      unfold point_set in V. apply (Permutation_in _ (sort_by_perm _ _ _)) in V.
      apply (proj1 (dedup_In _ _ pt_sameb_iff _ _)) in V. apply pt_eqb_iff in E.
      unfold all_points in V. apply (Permutation_in _ (sort_by_perm _ _ _)) in V. apply EN in V. destruct (NV v V); simpl in *; lra. }
  assert (RC : forall k, (k < 3)%nat -> exists n, ray_count l p (draws k) = Ok n /\ Nat.odd n = even_odd vs p).
  { intros k K. destruct (R k K) as [RX RE]. fold (far xm ym (draws k)) in RX, RE. set (P := far xm ym (draws k)) in *.
    unfold ray_count. rewrite (ray_end_far l x0 xm y0 ym (draws k) BB). fold P.
    assert (CL : forall s, In s l -> crosses p P (si s) (sj s) \/ apart p P (si s) (sj s)).
    { intros s S. destruct (polygon_edge _ _ _ PO S) as [I|I]; destruct (RE _ _ I) as [H|H];
      auto using crosses_rev, apart_rev. }
    rewrite (filterM_filter _ _ (fun s => crossb p P (si s) (sj s))).
    - cbn [bind]. eexists. split; [reflexivity|].
      rewrite odd_filter, (parity_perm _ _ (Permutation_map _ (dedup_perm l ND))), (polygon_parity vs); auto.
      apply cycle_parity.
      + intros v V. specialize (X2 v V). simpl in *. lra.
      + intros a b I. destruct (RE _ _ I) as [H|H]; [left|right; apply apart_noshare; auto].
        apply crossb_true. destruct H as (? & ? & _); auto.
    - intros s S. apply (proj1 (dedup_In _ _ seg_sameb_iff _ _)) in S. apply ios_clear; auto. }
  simpl. destruct (RC 0%nat) as (n0 & -> & O0); [lia|]. destruct (RC 1%nat) as (n1 & -> & O1); [lia|].
  destruct (RC 2%nat) as (n2 & -> & O2); [lia|]. cbn [bind]. rewrite O0, O1, O2, eqb_reflx. reflexivity.
Qed.
