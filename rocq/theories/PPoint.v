(** Lemmas on Points (exact reals unless stated otherwise). *)
From Coq Require Import Reals ZArith Lra Lia Bool List Psatz.
From Verif Require Import Base Arith ArithR MPoint MLine Spec.
Import ListNotations.
Local Open Scope R_scope.
#[local] Existing Instance RA.

(** Unfold derived numerals over RA. *)
Ltac ra := unfold pt_tol, pt_neb, ndegrees, nradians, ndec, EPS, n0, n1, n2, sqr in *; ra_simpl.

(** Split a boolean conjunction/disjunction of real tests into propositions. *)
Lemma pt_eqb_iff : forall p q : pt RA,
  pt_eqb p q = true <-> Rabs (px p - px q) < 1/100000 /\ Rabs (py p - py q) < 1/100000.
Proof.
  intros. unfold pt_eqb; ra. rewrite andb_true_iff, !Rltb_true.
  replace (1 / 100000000 * 1000) with (1/100000) by lra. tauto.
Qed.

Lemma pt_eqb_false_iff : forall p q : pt RA,
  pt_eqb p q = false <-> 1/100000 <= Rabs (px p - px q) \/ 1/100000 <= Rabs (py p - py q).
Proof.
  intros. pose proof (pt_eqb_iff p q) as H. destruct (pt_eqb p q).
  - split; [discriminate|]. intros. destruct H as [H _]. specialize (H eq_refl). lra.
  - split; auto. intros _. destruct (Rlt_dec (Rabs (px p - px q)) (1/100000)); [|lra].
    destruct (Rlt_dec (Rabs (py p - py q)) (1/100000)); [|lra].
    destruct H as [_ H]. discriminate H; auto.
Qed.

Lemma pt_eqb_refl : forall p : pt RA, pt_eqb p p = true.
Proof. intros; apply pt_eqb_iff. rewrite !Rminus_diag_eq, Rabs_R0 by reflexivity. lra. Qed.

Lemma pt_eqb_sym : forall p q : pt RA, pt_eqb p q = pt_eqb q p.
Proof.
  intros. unfold pt_eqb; ra. rewrite (Rabs_minus_sym (px q)), (Rabs_minus_sym (py q)). reflexivity.
Qed.

Lemma pt_sameb_iff : forall p q : pt RA, pt_sameb p q = true <-> p = q.
Proof.
  intros [x y] [x' y']. unfold pt_sameb; ra; simpl. rewrite andb_true_iff, !Reqb_true.
  split; [intros [-> ->]; reflexivity|]. intros H; inversion H; auto.
Qed.

Lemma pt_sameb_false : forall p q : pt RA, pt_sameb p q = false <-> p <> q.
Proof.
  intros. rewrite <- pt_sameb_iff. destruct (pt_sameb p q); split; try congruence.
Qed.

Lemma pt_sameb_refl : forall p : pt RA, pt_sameb p p = true.
Proof. intros; apply pt_sameb_iff; reflexivity. Qed.

Lemma pt_ext : forall p q : pt RA, px p = px q -> py p = py q -> p = q.
Proof. intros [x y] [x' y']; simpl; congruence. Qed.

(** ** Sets: [dedup] keeps exactly the elements, once each *)
Section Dedup.
Variable X : Type.
Variable eqb : X -> X -> bool.
Hypothesis eqb_eq : forall x y, eqb x y = true <-> x = y.

Lemma memb_In : forall x l, memb eqb x l = true <-> In x l.
Proof.
  induction l as [|y ys IH]; simpl; [split; [discriminate|tauto]|].
  rewrite orb_true_iff, eqb_eq, IH. tauto.
Qed.

Lemma dedup_acc_In : forall l acc x, In x (dedup_acc eqb l acc) <-> In x l \/ In x acc.
Proof.
  induction l as [|y ys IH]; simpl; intros acc x; [tauto|].
  destruct (memb eqb y acc) eqn:E.
  - rewrite IH. apply memb_In in E. intuition (subst; auto).
  - rewrite IH, in_app_iff. simpl. intuition (subst; auto).
Qed.

Lemma dedup_In : forall l x, In x (dedup eqb l) <-> In x l.
Proof. intros. unfold dedup. rewrite dedup_acc_In. simpl. tauto. Qed.

Lemma dedup_acc_NoDup : forall l acc, NoDup acc -> NoDup (dedup_acc eqb l acc).
Proof.
  induction l as [|y ys IH]; simpl; intros acc H; auto.
  destruct (memb eqb y acc) eqn:E; auto.
  apply IH. apply NoDup_rev in H. rewrite <- (rev_involutive (acc ++ [y])). apply NoDup_rev.
  rewrite rev_app_distr. simpl. constructor; auto.
  intros I. apply in_rev in I. apply memb_In in I. congruence.
Qed.

Lemma dedup_NoDup : forall l, NoDup (dedup eqb l).
Proof. intros; apply dedup_acc_NoDup; constructor. Qed.

Lemma set_inter_In : forall a b x, In x (set_inter eqb a b) <-> In x a /\ In x b.
Proof. intros. unfold set_inter. rewrite filter_In, dedup_In, memb_In. tauto. Qed.

Lemma set_inter_NoDup : forall a b, NoDup (set_inter eqb a b).
Proof. intros; apply NoDup_filter, dedup_NoDup. Qed.

Lemma set_eqb_iff : forall a b, set_eqb eqb a b = true <-> (forall x, In x a <-> In x b).
Proof.
  intros. unfold set_eqb. rewrite andb_true_iff, Nat.eqb_eq, forallb_forall. split.
  - intros [L I] x.
    assert (incl (dedup eqb a) (dedup eqb b)) as J.
    { intros z Hz. apply dedup_In, memb_In, I, Hz. }
    split; intros H.
    + apply memb_In, I, dedup_In, H.
    + assert (incl (dedup eqb b) (dedup eqb a)) as K.
      { apply NoDup_length_incl; [apply dedup_NoDup| lia| exact J]. }
      apply dedup_In, K, dedup_In, H.
  - intros H. split.
    + apply Nat.le_antisymm; apply NoDup_incl_length; try apply dedup_NoDup;
      intros z; rewrite !dedup_In; apply H.
    + intros z Hz. apply memb_In, H, dedup_In, Hz.
Qed.
End Dedup.

(** ** Distance *)
Lemma pt_distance_R : forall p q : pt RA,
  pt_distance p q = sqrt ((px p - px q) * (px p - px q) + (py p - py q) * (py p - py q)).
Proof. intros. unfold pt_distance, sqr. ra. reflexivity. Qed.

Lemma sum_sq_nonneg : forall a b : R, 0 <= a * a + b * b.
Proof. intros; nra. Qed.

Lemma pt_distance_nonneg : forall p q : pt RA, 0 <= pt_distance p q.
Proof. intros; rewrite pt_distance_R; apply sqrt_pos. Qed.

Lemma pt_distance_sym : forall p q : pt RA, pt_distance p q = pt_distance q p.
Proof. intros; rewrite !pt_distance_R; f_equal; ring. Qed.

Lemma sum_sq_0 : forall a b : R, a * a + b * b = 0 -> a = 0 /\ b = 0.
Proof. intros; split; nra. Qed.

Lemma pt_distance_zero : forall p q : pt RA, pt_distance p q = 0 <-> px p = px q /\ py p = py q.
Proof.
  intros. rewrite pt_distance_R. split.
  - intros H. apply sqrt_eq_0 in H; [|apply sum_sq_nonneg]. apply sum_sq_0 in H. lra.
  - intros [-> ->]. rewrite !Rminus_diag_eq by reflexivity.
    replace (0*0+0*0) with 0 by ring. apply sqrt_0.
Qed.

Lemma sqrt_minkowski : forall a b c d : R,
  sqrt ((a + c) * (a + c) + (b + d) * (b + d)) <= sqrt (a * a + b * b) + sqrt (c * c + d * d).
Proof.
  intros.
  pose proof (sum_sq_nonneg a b). pose proof (sum_sq_nonneg c d).
  pose proof (sqrt_pos (a*a+b*b)). pose proof (sqrt_pos (c*c+d*d)).
  apply Rsqr_incr_0_var; [|lra].
  unfold Rsqr. rewrite sqrt_sqrt by (apply sum_sq_nonneg).
  replace ((sqrt (a * a + b * b) + sqrt (c * c + d * d)) * (sqrt (a * a + b * b) + sqrt (c * c + d * d)))
    with (sqrt (a*a+b*b) * sqrt (a*a+b*b) + sqrt (c*c+d*d) * sqrt (c*c+d*d)
          + 2 * (sqrt (a*a+b*b) * sqrt (c*c+d*d))) by ring.
  rewrite !sqrt_sqrt by auto.
  assert (a * c + b * d <= sqrt (a*a+b*b) * sqrt (c*c+d*d)); [|nra].
  rewrite <- sqrt_mult by auto.
  destruct (Rle_dec (a*c+b*d) 0).
  - pose proof (sqrt_pos ((a * a + b * b) * (c * c + d * d))). lra.
  - apply Rsqr_incr_0_var; [|apply sqrt_pos].
    unfold Rsqr. rewrite sqrt_sqrt by (apply Rmult_le_pos; auto).
    pose proof (Rle_0_sqr (a*d-b*c)) as Q; unfold Rsqr in Q. nra.
Qed.

Lemma pt_distance_triangle : forall p q r : pt RA,
  pt_distance p r <= pt_distance p q + pt_distance q r.
Proof.
  intros. rewrite !pt_distance_R.
  pose proof (sqrt_minkowski (px p - px q) (py p - py q) (px q - px r) (py q - py r)) as H.
  replace (px p - px r) with (px p - px q + (px q - px r)) by ring.
  replace (py p - py r) with (py p - py q + (py q - py r)) by ring. exact H.
Qed.

(** ** Grid points *)
Definition grid_pt (p : pt RA) : Prop := on_grid (px p) /\ on_grid (py p).

Lemma Point_new_grid : forall x y : R, grid_pt (Point_new x y).
Proof. intros; split; simpl; auto with grid. Qed.

Lemma Point_new_id : forall x y : R, on_grid x -> on_grid y -> Point_new x y = mkpt x y.
Proof. intros; unfold Point_new; ra. rewrite !Rround8_id; auto. Qed.

(** ** Raw construction *)
Section Raw.
Context {A : Arith}.

Definition floatable (v : pyval A) : bool :=
  match v with VNum _ | VBool _ | VNumStr _ => true | _ => false end.

(** Value a floatable argument denotes. *)
Definition float_of (v : pyval A) : num :=
  match v with VNum x | VNumStr x => x | VBool true => n1 | _ => n0 end.

Lemma mapM_floatable : forall l : list (pyval A), forallb floatable l = true ->
  mapM (fun v => x <- py_float v ;; Ok (VNum (nround8 x))) l =
  Ok (map (fun v => VNum (nround8 (float_of v))) l).
Proof.
  induction l as [|v l IH]; simpl; intros H; auto.
  apply andb_true_iff in H as [H1 H2]. rewrite (IH H2).
  destruct v; try discriminate; simpl; auto.
Qed.

(** The first value [float] does not accept. *)
Definition first_bad (l : list (pyval A)) : option (pyval A) :=
  find (fun v => negb (floatable v)) l.

Lemma mapM_bad : forall (l : list (pyval A)) v, first_bad l = Some v ->
  mapM (fun v => x <- py_float v ;; Ok (VNum (nround8 x))) l =
  Err (match v with VStr => ValueError | _ => TypeError end).
Proof.
  induction l as [|w l IH]; simpl; intros v H; [discriminate|].
  destruct (floatable w) eqn:E; simpl in H.
  - destruct w; try discriminate; simpl; rewrite (IH _ H); reflexivity.
  - inversion H; subst. destruct v; simpl in *; try discriminate; reflexivity.
Qed.

Lemma first_bad_none : forall l : list (pyval A), first_bad l = None -> forallb floatable l = true.
Proof.
  induction l as [|v l IH]; simpl; intros H; auto.
  destruct (floatable v); simpl in *; [auto|discriminate].
Qed.

End Raw.

(** * The properties *)

(*@ C01_point_rounding *)
(** C01: stored coordinates are multiples of 1e-8 within 5e-9 of the given ones, and rebuilding a
    Point from them changes nothing. *)
Lemma point_rounding : forall x y : R,
  let p := Point_new x y in
  (exists k : Z, px p = IZR k / 10^8) /\ (exists l : Z, py p = IZR l / 10^8) /\
  Rabs (px p - x) <= 5 / 10^9 /\ Rabs (py p - y) <= 5 / 10^9 /\
  Point_new (px p) (py p) = p.
Proof.
  intros x y p; unfold p.
  destruct (Point_new_grid x y) as [[k Hk] [l Hl]].
  split; [exists k; rewrite Hk; lra|]. split; [exists l; rewrite Hl; lra|].
  split; [|split]; [unfold Point_new; ra; simpl px..|].
  - pose proof (Rround8_err x). lra.
  - simpl py. pose proof (Rround8_err y). lra.
  - unfold Point_new; ra; simpl. rewrite !Rround8_idem. reflexivity.
Qed.

(*@ C01_point_rounding_monotone *)
(** C01: rounding never swaps the order of two inputs, and is symmetric about 0. *)
Lemma point_rounding_monotone : forall x x' y y' : R,
  (x <= x' -> px (Point_new x y) <= px (Point_new x' y')) /\
  (y <= y' -> py (Point_new x y) <= py (Point_new x' y')) /\
  px (Point_new (- x) y) = - px (Point_new x y) /\
  py (Point_new x (- y)) = - py (Point_new x y).
Proof.
  intros. unfold Point_new; ra; simpl. repeat split; intros; try apply Rround8_mono; auto;
  apply Rround8_opp.
Qed.

(*@ C01_point_rounding_nearest *)
(** C01: no multiple of 1e-8 is closer to the given coordinate than the stored one. *)
Lemma point_rounding_nearest : forall (x y : R) (k : Z),
  Rabs (px (Point_new x y) - x) <= Rabs (IZR k / 10^8 - x) /\
  Rabs (py (Point_new x y) - y) <= Rabs (IZR k / 10^8 - y).
Proof.
  assert (forall x k, Rabs (Rround8 x - x) <= Rabs (IZR k / 10^8 - x)) as H.
  { intros x k. unfold Rround8. set (z := x * 100000000). set (n := Rnearest z).
    assert (Rabs (IZR n - z) <= Rabs (IZR k - z)) as G.
    { destruct (Z.eq_dec n k) as [->|NE]; [lra|].
      pose proof (Rnearest_err z) as E. fold n in E.
      assert (1 <= Rabs (IZR n - IZR k)).
      { rewrite <- minus_IZR, <- abs_IZR. apply IZR_le. lia. }
      unfold Rabs in *. repeat destruct (Rcase_abs _); lra. }
    replace (IZR n / 100000000 - x) with ((IZR n - z) * / 100000000) by (unfold z; field).
    replace (IZR k / 10^8 - x) with ((IZR k - z) * / 100000000) by (unfold z; field).
    rewrite !Rabs_mult. apply Rmult_le_compat_r; [apply Rabs_pos|exact G]. }
  intros; split; apply H.
Qed.

(*@ex C01_example *)
Lemma point_rounding_example : px (Point_new (1/3) 0) = 33333333 / 10^8.
Proof.
  unfold Point_new; ra; simpl. unfold Rround8. rewrite (Rnearest_unique _ 33333333); [lra|].
  apply Rabs_def1; lra.
Qed.

(*@ C02_point_eq_iff *)
(** C02: [==] is the open box of half-width 1e-5; [!=] its negation. *)
Lemma point_eq_iff : forall p q : pt RA,
  (pt_eqb p q = true <-> Rabs (px p - px q) < / 10^5 /\ Rabs (py p - py q) < / 10^5) /\
  pt_eqb p p = true /\ pt_eqb p q = pt_eqb q p /\ pt_neb p q = negb (pt_eqb p q).
Proof.
  intros. split; [|split; [apply pt_eqb_refl|split; [apply pt_eqb_sym|reflexivity]]].
  rewrite pt_eqb_iff. replace (1 / 100000) with (/ 10^5) by lra. tauto.
Qed.

(*@ C02_point_eq_separated *)
(** C02: where distinct Points are at least 2e-5 apart in some coordinate, [==] is transitive. *)
Lemma point_eq_separated : forall l : list (pt RA),
  (forall p q, In p l -> In q l -> p = q \/ 2 / 10^5 <= Rabs (px p - px q) \/ 2 / 10^5 <= Rabs (py p - py q)) ->
  forall p q r, In p l -> In q l -> In r l -> pt_eqb p q = true -> pt_eqb q r = true -> pt_eqb p r = true.
Proof.
  intros l H p q r Hp Hq Hr E1 E2.
  apply pt_eqb_iff in E1, E2.
  destruct (H p q Hp Hq) as [->|[?|?]]; [apply pt_eqb_iff; auto|exfalso; lra..].
Qed.

(*@ C03_set_identical *)
(** C03: a set of Points holds each coordinate pair exactly once. *)
Lemma set_identical : forall (l : list (pt RA)),
  (forall p, In p (dedup pt_sameb l) <-> In p l) /\ NoDup (dedup pt_sameb l).
Proof.
  intros; split; intros; [apply dedup_In|apply dedup_NoDup]; apply pt_sameb_iff.
Qed.

(*@ C03_set_separated *)
(** C03: if the unequal-coordinate Points of a collection are never [==], no two elements of its set
    are [==]; otherwise some are. *)
Lemma set_separated : forall (l : list (pt RA)),
  (forall p q, In p (dedup pt_sameb l) -> In q (dedup pt_sameb l) -> pt_eqb p q = true -> p = q) <->
  (forall p q, In p l -> In q l -> pt_eqb p q = true -> px p = px q /\ py p = py q).
Proof.
  intros. split; intros H p q Hp Hq E.
  - assert (p = q) as ->; [|auto]. apply H; auto; apply dedup_In; auto; apply pt_sameb_iff.
  - apply dedup_In in Hp; [|apply pt_sameb_iff]. apply dedup_In in Hq; [|apply pt_sameb_iff].
    destruct (H p q Hp Hq E). apply pt_ext; auto.
Qed.

(*@ C04_validity_iff *)
(** C04: which sequences construct a valid Point: at least two entries, and either [float] accepts
    all entries, or the first entry it does not accept is not a string and the first two entries
    are numbers. *)
Lemma validity_iff : forall (A : Arith) (t : bool) (l : list (pyval A)),
  let number v := match v with VNum _ | VBool _ => True | _ => False end in
  let accepts v := match v with VNum _ | VBool _ | VNumStr _ => True | _ => False end in
  (exists o, obj_new (ASeq t l) = Ok o /\ fst (obj_isvalid o) = Ok true) <->
  exists v0 v1 rest, l = v0 :: v1 :: rest /\
    (Forall accepts l \/
     (number v0 /\ number v1 /\
      exists pre v post, l = pre ++ v :: post /\ Forall accepts pre /\ (v = VNone \/ v = VOther))).
Proof.
  intros A t l number accepts.
  assert (ACC : forall v, accepts v <-> floatable v = true).
  { intros v; destruct v; simpl; split; auto; discriminate. }
  assert (FA : forall l, Forall accepts l <-> forallb floatable l = true).
  { intros l0. rewrite forallb_forall, Forall_forall. split; intros H x Hx; apply ACC; auto. }
  destruct (first_bad l) as [bad|] eqn:FB.
  - (* some entry is not accepted *)
    pose proof (mapM_bad _ _ FB) as M.
    assert (~ Forall accepts l) as NA.
    { rewrite FA. intros H. unfold first_bad in FB. apply find_some in FB as [I B].
      rewrite forallb_forall in H. rewrite (H _ I) in B. discriminate. }
    assert (SP : exists pre post, l = pre ++ bad :: post /\ Forall accepts pre /\ ~ accepts bad).
    { clear -FB ACC. induction l as [|v l IH]; simpl in FB; [discriminate|].
      destruct (floatable v) eqn:E; simpl in FB.
      - destruct (IH FB) as (pre & post & -> & P & B). exists (v :: pre), post.
        repeat split; auto. constructor; auto. apply ACC; auto.
      - inversion FB; subst. exists [], l. repeat split; auto. rewrite ACC. congruence. }
    destruct SP as (pre & post & EQ & PRE & NB).
    assert (UNIQ : forall pre' v post', l = pre' ++ v :: post' -> Forall accepts pre' ->
              (v = VNone \/ v = VOther) -> v = bad).
    { clear -EQ PRE NB. revert pre PRE EQ. intros pre PRE EQ pre' v post' E' P' HV.
      assert (~ accepts v) as NV by (destruct HV; subst; simpl; auto).
      rewrite EQ in E'. clear EQ. revert pre' P' E' . induction PRE as [|x xs HX _ IH]; intros pre' P' E'.
      - destruct P' as [|y ys HY P']; simpl in E'; inversion E'; subst; auto. contradiction.
      - destruct P' as [|y ys HY P']; simpl in E'; inversion E'; subst; [contradiction|]. eauto. }
    unfold obj_new, set_coords. rewrite M.
    assert (bad = VStr \/ bad = VNone \/ bad = VOther) as [->|HB].
    { destruct bad; simpl in NB; tauto. }
    + simpl. split; [intros (o & H & _); discriminate|].
      intros (v0 & v1 & rest & -> & [H|(_ & _ & pre' & v & post' & E & P & HV)]); [contradiction|].
      pose proof (UNIQ _ _ _ E P HV). subst v. destruct HV; discriminate.
    + replace (match bad with VStr => ValueError | _ => TypeError end) with TypeError
        by (destruct HB; subst; reflexivity).
      simpl. split.
      * intros (o & H & V). inversion H; subst o; clear H. unfold obj_isvalid in V; simpl in V.
        destruct (isvalid_body (ASeq t l)) eqn:IB; simpl in V; [|discriminate].
        injection V as ->. unfold isvalid_body in IB.
        destruct (is_EMPTY _); [discriminate|]. simpl in IB.
        destruct l as [|v0 [|v1 rest]]; simpl in IB; try discriminate.
        { destruct (negb (is_int_float v0)); discriminate. }
        exists v0, v1, rest. split; auto. right.
        destruct (is_int_float v0) eqn:I0; simpl in IB; [|discriminate].
        destruct (is_int_float v1) eqn:I1; simpl in IB; [|discriminate].
        split; [destruct v0; simpl in *; auto; discriminate|].
        split; [destruct v1; simpl in *; auto; discriminate|].
        exists pre, bad, post. auto.
      * intros (v0 & v1 & rest & E & [H|(N0 & N1 & _)]); [contradiction|].
        eexists; split; [reflexivity|]. unfold obj_isvalid; simpl. rewrite E.
        unfold isvalid_body.
        replace (is_EMPTY (ASeq t (v0 :: v1 :: rest))) with false
          by (destruct v0; simpl in N0; try contradiction; destruct t; reflexivity).
        simpl. destruct v0; simpl in N0; try contradiction; destruct v1; simpl in N1; try contradiction; reflexivity.
  - pose proof (first_bad_none _ FB) as ALL.
    pose proof (mapM_floatable _ ALL) as M. unfold obj_new, set_coords. rewrite M. simpl.
    split.
    + intros (o & H & V). inversion H; subst o; clear H. unfold obj_isvalid in V; simpl in V.
      destruct l as [|v0 [|v1 rest]]; simpl in V; try discriminate.
      exists v0, v1, rest. split; auto. left. apply FA; auto.
    + intros (v0 & v1 & rest & -> & _). eexists; split; [reflexivity|]. reflexivity.
Qed.

(*@ C04_validity_two_numbers *)
(** C04: two numbers make a valid Point storing both rounded to 8 decimals; the empty Point is
    invalid. *)
Lemma validity_two_numbers : forall (A : Arith) (x y : @num A),
  obj_new (ASeq true [VNum x; VNum y]) =
    Ok (mkobj (ASeq true [VNum (nround8 x); VNum (nround8 y)]) None) /\
  (forall o, obj_new (ASeq true [VNum x; VNum y]) = Ok o -> fst (obj_isvalid o) = Ok true) /\
  (exists o, obj_new (@EMPTY A) = Ok o /\ fst (obj_isvalid o) = Ok false /\ obj_isempty o = true).
Proof.
  intros. split; [reflexivity|]. split.
  - intros o H; inversion H; subst; reflexivity.
  - eexists; split; [reflexivity|]. split; reflexivity.
Qed.


(*@ C04_validity_frozen *)
(** C04: the first answer of [isvalid] is frozen: no later coordinate change alters it. *)
Lemma validity_frozen : forall (A : Arith) (o : ptobj A) b ops o',
  fst (obj_isvalid o) = Ok b ->
  run_ops ops (snd (obj_isvalid o)) = Ok o' ->
  fst (obj_isvalid o') = Ok b.
Proof.
  intros A o b ops o' H.
  assert (forall ops o1, o_valid o1 = Some b -> run_ops ops o1 = Ok o' -> fst (obj_isvalid o') = Ok b) as G.
  { clear. induction ops as [|op ops IH]; simpl; intros o1 V R.
    - inversion R; subst. unfold obj_isvalid. rewrite V. reflexivity.
    - destruct op.
      + apply (IH (snd (obj_isvalid o1))); auto. unfold obj_isvalid. rewrite V. auto.
      + unfold obj_set_coords in R. destruct (set_coords a); simpl in R; [|discriminate].
        eapply IH; [|exact R]. auto.
      + eapply IH; [|exact R]. auto. }
  apply G. unfold obj_isvalid in *. destruct (o_valid o) eqn:V.
  - simpl in *. rewrite V. congruence.
  - destruct (isvalid_body (o_coords o)); simpl in *; congruence.
Qed.

(*@ C04_two_coordinates_refuted *)
(** C04, finding: "exactly two coordinates are needed" is false - for any arithmetic, three numbers
    are accepted, and a third non-number even leaves the first two unrounded. *)
Lemma two_coordinates_refuted : forall (A : Arith) (x y z : @num A),
  (exists o, obj_new (ASeq true [VNum x; VNum y; VNum z]) = Ok o /\ fst (obj_isvalid o) = Ok true) /\
  (exists o, obj_new (ASeq true [VNum x; VNum y; VNone]) = Ok o /\ fst (obj_isvalid o) = Ok true /\
             coord_at 0 (o_coords o) = Ok (VNum x) /\ coord_at 1 (o_coords o) = Ok (VNum y)).
Proof.
  intros; split; eexists; (split; [reflexivity|]); repeat split.
Qed.

(*@ C04_stale_validity_refuted *)
(** C04, finding: after the coordinates were revoked the Point still claims to be valid when it had
    been asked before. *)
Lemma stale_validity_refuted : forall (A : Arith) (x y : @num A),
  exists o o', obj_new (ASeq true [VNum x; VNum y]) = Ok o /\
    run_ops [OpQuery; OpEmpty] o = Ok o' /\
    obj_isempty o' = true /\ fst (obj_isvalid o') = Ok true.
Proof. intros. do 2 eexists. split; [reflexivity|]. split; [reflexivity|]. split; reflexivity. Qed.

(*@ C05_distance_metric *)
(** C05: [distance] is a metric. *)
Lemma distance_metric : forall p q r : pt RA,
  0 <= pt_distance p q /\
  (pt_distance p q = 0 <-> px p = px q /\ py p = py q) /\
  pt_distance p q = pt_distance q p /\
  pt_distance p r <= pt_distance p q + pt_distance q r.
Proof.
  intros. split; [apply pt_distance_nonneg|]. split; [apply pt_distance_zero|].
  split; [apply pt_distance_sym|apply pt_distance_triangle].
Qed.

(*@ C05_distance_eq *)
(** C05: [==] and [distance]: Points closer than 1e-5 are [==], and [==] Points are closer than
    1.5e-5. *)
Lemma distance_eq : forall p q : pt RA,
  (pt_distance p q < / 10^5 -> pt_eqb p q = true) /\
  (pt_eqb p q = true -> pt_distance p q < 15 / 10^6).
Proof.
  intros. rewrite pt_eqb_iff, pt_distance_R.
  set (a := px p - px q). set (b := py p - py q).
  assert (forall u v, Rabs u <= sqrt (u * u + v * v)) as G.
  { intros. rewrite <- sqrt_Rsqr_abs. apply sqrt_le_1_alt. unfold Rsqr. nra. }
  split; intros H.
  - pose proof (G a b). pose proof (G b a) as G2. rewrite Rplus_comm in G2. split; lra.
  - destruct H as [H1 H2].
    apply Rabs_def2 in H1. apply Rabs_def2 in H2.
    apply Rlt_le_trans with (sqrt (225 / 10^12)); [apply sqrt_lt_1_alt; split; [nra|]; nra|].
    replace (225 / 10^12) with ((15 / 10^6) * (15/10^6)) by field.
    rewrite sqrt_square; lra.
Qed.

(*@ C06_add_sub *)
(** C06: on stored coordinates sum and difference are exact, commutative and mutually inverse. *)
Lemma add_sub_exact : forall x y x' y' : R,
  let p := Point_new x y in let q := Point_new x' y' in
  pt_add p q = mkpt (px p + px q) (py p + py q) /\
  pt_sub p q = mkpt (px p - px q) (py p - py q) /\
  pt_add p q = pt_add q p /\
  pt_sub (pt_add p q) q = p /\ pt_add (pt_sub p q) q = p.
Proof.
  intros x y x' y' p q.
  destruct (Point_new_grid x y) as [GX GY]. fold p in GX, GY.
  destruct (Point_new_grid x' y') as [GX' GY']. fold q in GX', GY'.
  assert (pt_add p q = mkpt (px p + px q) (py p + py q)) as E1.
  { unfold pt_add; ra. apply Point_new_id; auto with grid. }
  assert (pt_sub p q = mkpt (px p - px q) (py p - py q)) as E2.
  { unfold pt_sub; ra. apply Point_new_id; auto with grid. }
  split; auto. split; auto. split.
  { unfold pt_add; ra. f_equal; ring. }
  rewrite E1, E2. split.
  - unfold pt_sub; ra; simpl.
    rewrite Point_new_id; [apply pt_ext; simpl; ring|auto with grid..].
  - unfold pt_add; ra; simpl.
    rewrite Point_new_id; [apply pt_ext; simpl; ring|auto with grid..].
Qed.

(*@ C06_add_sub_rounding *)
(** C06: for arbitrary operands sum and difference are the componentwise ones up to 5e-9. *)
Lemma add_sub_rounding : forall p q : pt RA,
  Rabs (px (pt_add p q) - (px p + px q)) <= 5 / 10^9 /\ Rabs (py (pt_add p q) - (py p + py q)) <= 5 / 10^9 /\
  Rabs (px (pt_sub p q) - (px p - px q)) <= 5 / 10^9 /\ Rabs (py (pt_sub p q) - (py p - py q)) <= 5 / 10^9.
Proof.
  intros. unfold pt_add, pt_sub, Point_new; ra; simpl px; simpl py.
  replace (5 / 10^9) with (5 / 1000000000) by field.
  repeat split; apply Rround8_err.
Qed.
