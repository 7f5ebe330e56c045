(** Binary64: order laws, laws of Point equality for all doubles, and computed witnesses of
    claims the program does not satisfy in the arithmetic it really uses. *)
From Coq Require Import ZArith Bool List Lia Floats.SpecFloat.
From Verif Require Import Base Arith ArithF MPoint MLine.
Import ListNotations.
Local Open Scope Z_scope.

(** ** Order of doubles *)
Definition not_nan (x : F) : Prop := x <> S754_nan.
Definition finite (x : F) : Prop := match x with S754_zero _ | S754_finite _ _ _ => True | _ => False end.

(** An order-embedding key: a lexicographic triple. *)
Definition key (x : F) : Z * Z * Z :=
  match x with
  | S754_infinity true => (-2, 0, 0)
  | S754_finite true m e => (-1, - e, - Zpos m)
  | S754_zero _ => (0, 0, 0)
  | S754_finite false m e => (1, e, Zpos m)
  | S754_infinity false => (2, 0, 0)
  | S754_nan => (0, 0, 0)
  end.
Definition klt (a b : Z * Z * Z) : Prop :=
  let '(a1, a2, a3) := a in let '(b1, b2, b3) := b in
  a1 < b1 \/ (a1 = b1 /\ (a2 < b2 \/ (a2 = b2 /\ a3 < b3))).

Lemma SFcompare_key : forall x y, not_nan x -> not_nan y ->
  match SFcompare x y with
  | Some Lt => klt (key x) (key y)
  | Some Gt => klt (key y) (key x)
  | Some Eq => key x = key y
  | None => False
  end.
Proof.
  intros x y Hx Hy.
  destruct x as [sx|sx| |sx mx ex]; destruct y as [sy|sy| |sy my ey]; try (now elim Hx); try (now elim Hy);
  try (destruct sx; destruct sy; simpl; auto; unfold klt; lia);
  try (destruct sx; simpl; auto; unfold klt; lia);
  try (destruct sy; simpl; auto; unfold klt; lia).
  destruct sx, sy; simpl; try (unfold klt; lia).
  - destruct (Z.compare_spec ex ey); simpl; try (unfold klt; lia).
    fold (Pos.compare mx my). destruct (Pos.compare_spec mx my); simpl; subst; auto; unfold klt; lia.
  - destruct (Z.compare_spec ex ey); simpl; try (unfold klt; lia).
    fold (Pos.compare mx my). destruct (Pos.compare_spec mx my); simpl; subst; auto; unfold klt; lia.
Qed.

Lemma klt_irrefl : forall a, ~ klt a a.
Proof. intros [[a b] c]; unfold klt; lia. Qed.
Lemma klt_trans : forall a b c, klt a b -> klt b c -> klt a c.
Proof. intros [[a1 a2] a3] [[b1 b2] b3] [[c1 c2] c3]; unfold klt; lia. Qed.
Lemma klt_total : forall a b, klt a b \/ a = b \/ klt b a.
Proof.
  intros [[a1 a2] a3] [[b1 b2] b3]; unfold klt.
  destruct (Z.lt_total a1 b1) as [?|[?|?]]; [lia| |lia].
  destruct (Z.lt_total a2 b2) as [?|[?|?]]; [lia| |lia].
  destruct (Z.lt_total a3 b3) as [?|[?|?]]; [lia| |lia]. subst; auto.
Qed.

Lemma SFltb_key : forall x y, not_nan x -> not_nan y -> (SFltb x y = true <-> klt (key x) (key y)).
Proof.
  intros x y Hx Hy. pose proof (SFcompare_key x y Hx Hy) as K. unfold SFltb.
  destruct (SFcompare x y) as [[]|]; try contradiction; split; auto; try discriminate; intros H.
  - rewrite K in H. elim (klt_irrefl _ H).
  - elim (klt_irrefl _ (klt_trans _ _ _ H K)).
Qed.

Lemma SFleb_key : forall x y, not_nan x -> not_nan y -> (SFleb x y = true <-> ~ klt (key y) (key x)).
Proof.
  intros x y Hx Hy. pose proof (SFcompare_key x y Hx Hy) as K. unfold SFleb.
  destruct (SFcompare x y) as [[]|]; try contradiction; split; auto; try discriminate; intros H.
  - rewrite K. apply klt_irrefl.
  - intros H'. elim (klt_irrefl _ (klt_trans _ _ _ K H')).
Qed.

(** ** Subtraction: |x - y| = |y - x|, x - x = 0 *)
Lemma round_aux_abs : forall s m e l,
  SFabs (binary_round_aux fprec femax s m e l) = SFabs (binary_round_aux fprec femax false m e l).
Proof.
  intros. unfold binary_round_aux.
  destruct (shr_fexp fprec femax m e l) as [mrs' e'].
  destruct (shr_fexp fprec femax _ e' loc_Exact) as [mrs'' e''].
  destruct (shr_m mrs''); auto. destruct (e'' <=? femax - fprec); reflexivity.
Qed.

Lemma normalize_abs : forall m e, 
  SFabs (binary_normalize fprec femax (- m) e false) = SFabs (binary_normalize fprec femax m e false).
Proof.
  intros [|m|m] e; simpl; auto; unfold binary_round;
  match goal with |- context [let '(_, _) := ?a in _] => destruct a as [mz ez] end;
  rewrite (round_aux_abs true); reflexivity.
Qed.

Lemma Fsub_abs_sym : forall x y : F, SFabs (Fsub x y) = SFabs (Fsub y x).
Proof.
  intros x y. unfold Fsub, SFsub.
  destruct x as [sx|sx| |sx mx ex]; destruct y as [sy|sy| |sy my ey]; simpl; auto;
  try (destruct sx, sy; reflexivity).
  rewrite (Z.min_comm ey ex).
  rewrite <- normalize_abs. f_equal. f_equal. ring.
Qed.

Lemma Fsub_self : forall x : F, finite x -> SFabs (Fsub x x) = S754_zero false.
Proof.
  intros x H. unfold Fsub, SFsub. destruct x as [sx|sx| |sx mx ex]; simpl in *; try contradiction.
  - destruct sx; reflexivity.
  - rewrite Z.sub_diag. reflexivity.
Qed.

(*@ C02_point_eq_binary64 *)
(** C02, binary64, all libm: [==] is symmetric for all doubles and reflexive for finite ones. *)
Lemma point_eq_binary64 : forall (L : Libm) (p q : pt (FA L)),
  @pt_eqb (FA L) p q = @pt_eqb (FA L) q p /\
  (finite (px p) -> finite (py p) -> @pt_eqb (FA L) p p = true).
Proof.
  intros L p q. unfold pt_eqb, pt_tol, EPS. simpl. split.
  - rewrite (Fsub_abs_sym (px p)), (Fsub_abs_sym (py p)). reflexivity.
  - intros H1 H2. rewrite (Fsub_self _ H1), (Fsub_self _ H2). reflexivity.
Qed.

(*@ C02_not_transitive_refuted *)
(** C02, finding, binary64: [==] is not transitive (stored points 0, 9e-6, 1.8e-5 on the x axis). *)
Lemma not_transitive_refuted : forall L : Libm, exists p q r : pt (FA L),
  p = @Point_new (FA L) (FofZ 0) (FofZ 0) /\
  q = @Point_new (FA L) (Fdec 9 1000000) (FofZ 0) /\
  r = @Point_new (FA L) (Fdec 18 1000000) (FofZ 0) /\
  pt_eqb p q = true /\ pt_eqb q r = true /\ pt_eqb p r = false.
Proof. intros L. do 3 eexists. do 3 (split; [reflexivity|]). repeat split; vm_compute; reflexivity. Qed.

(*@ C03_set_contract_refuted *)
(** C03, finding, binary64: two [==] Points are two elements of a set. *)
Lemma set_contract_refuted : forall L : Libm, exists p q : pt (FA L),
  p = @Point_new (FA L) (FofZ 1) (FofZ 0) /\
  q = @Point_new (FA L) (Fdec 1000001 1000000) (FofZ 0) /\
  pt_eqb p q = true /\ length (dedup pt_sameb [p; q]) = 2%nat.
Proof. intros L. do 2 eexists. do 2 (split; [reflexivity|]). repeat split; vm_compute; reflexivity. Qed.

(*@ C08_on_and_right_refuted *)
(** C08, finding, binary64: "on the line" does not exclude "to the right": the stored point
    (0.5, -1e-8) relative to the segment (0,0)-(0.5,0.0). *)
Lemma on_and_right_refuted : forall L : Libm, exists (s : seg (FA L)) (p : pt (FA L)),
  s = LineSegment (@Point_new (FA L) (FofZ 0) (FofZ 0)) (@Point_new (FA L) (Fdec 5 10) (FofZ 0)) /\
  p = @Point_new (FA L) (Fdec 25 100) (Fdec (-1) 100000000) /\
  is_point_on_line s p = Ok true /\ is_point_to_right s p = true.
Proof. intros L. do 2 eexists. do 2 (split; [reflexivity|]). split; vm_compute; reflexivity. Qed.

(*@ C20_angle_domain_refuted *)
(** C20, finding, binary64: the angle of the segment (0,0)-(2,3) with itself is a ValueError (the
    cosine is computed as 13 / 12.999999999999998 > 1), whatever libm does. *)
Lemma angle_domain_refuted : forall L : Libm, exists s : seg (FA L),
  s = LineSegment (@Point_new (FA L) (FofZ 0) (FofZ 0)) (@Point_new (FA L) (FofZ 2) (FofZ 3)) /\
  angle_between_lines s s = Err ValueError.
Proof. intros L. eexists. split; [reflexivity|]. vm_compute. reflexivity. Qed.

(*@ C59_collinear_not_parallel_refuted *)
(** C59, finding, binary64: the segment (0.1,0.3)-(0.2,0.6) lies on (0,0)-(0.3,0.9), but the program
    finds the two neither parallel nor overlapping. *)
Lemma collinear_not_parallel_refuted : forall L : Libm, exists s t : seg (FA L),
  s = LineSegment (@Point_new (FA L) (FofZ 0) (FofZ 0)) (@Point_new (FA L) (Fdec 3 10) (Fdec 9 10)) /\
  t = LineSegment (@Point_new (FA L) (Fdec 1 10) (Fdec 3 10)) (@Point_new (FA L) (Fdec 2 10) (Fdec 6 10)) /\
  is_collinear s t = Ok true /\ ls_is_internal_point s (si t) = true /\ ls_is_internal_point s (sj t) = true /\
  is_parallel s t = false /\ overlap s t = Ok (false, None) /\ common_part s t = Ok None.
Proof.
  intros L. do 2 eexists. do 2 (split; [reflexivity|]).
  assert (N : forall X (r : res (option X)), (match r with Ok None => true | _ => false end) = true -> r = Ok None) by (intros X [[x|]|e] E; [discriminate|reflexivity|discriminate]).
  repeat split; try (apply N); vm_compute; reflexivity.
Qed.
