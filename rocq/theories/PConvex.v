(** Validity, convexity and orientation of polygons. *)
From Coq Require Import Reals ZArith Lra Lia Bool List Psatz Permutation.
From Verif Require Import Base Arith ArithR ArithF MPoint MLine MPoly Spec PPoint PLine PShape.
Import ListNotations.
Local Open Scope R_scope.
#[local] Existing Instance RA.

(** * Validity *)
Lemma others_In : forall X (l pre : list X) x r,
  In (x, r) (others pre l) <-> exists l1 l2, l = l1 ++ x :: l2 /\ r = rev pre ++ l1 ++ l2.
Proof.
  induction l as [|y l IH]; intros pre x r; simpl.
  - split; [intros []|intros (l1 & l2 & E & _)]. destruct l1; discriminate.
  - split.
    + intros [E|I].
      * injection E as <- <-. exists [], l. auto.
      * apply IH in I as (l1 & l2 & -> & ->). exists (y :: l1), l2. split; auto.
        simpl. rewrite <- app_assoc. reflexivity.
    + intros (l1 & l2 & E & ->). destruct l1 as [|z l1].
      * injection E as -> ->. left. reflexivity.
      * injection E as -> ->. right. apply IH. exists l1, l2. split; auto.
        simpl. rewrite <- app_assoc. reflexivity.
Qed.

Lemma permutations2_In : forall X (l : list X) x y, In (x, y) (permutations2 l) <-> distinct_positions l x y.
Proof.
  intros X l x y. unfold permutations2. rewrite in_flat_map. split.
  - intros ([x' r] & I & J). apply others_In in I as (l1 & l2 & -> & ->). simpl in J.
    apply in_map_iff in J as (z & E & J). injection E as -> ->.
    assert (nth_error (l1 ++ x :: l2) (length l1) = Some x) as Hx by (rewrite nth_error_app2, Nat.sub_diag; auto).
    apply in_app_or in J as [J|J]; apply In_nth_error in J as [k Hk].
    + exists (length l1), k. assert (k < length l1)%nat by (apply nth_error_Some; congruence).
      repeat split; auto; [lia|]. rewrite nth_error_app1; auto.
    + exists (length l1), (length l1 + S k)%nat. repeat split; auto; [lia|].
      rewrite nth_error_app2 by lia. replace (length l1 + S k - length l1)%nat with (S k) by lia. exact Hk.
  - intros (a & b & N & Ha & Hb).
    destruct (nth_error_split l a Ha) as (l1 & l2 & E & L). subst l.
    exists (x, l1 ++ l2). split.
    + apply others_In. exists l1, l2. auto.
    + apply in_map_iff. exists y. split; auto. apply in_or_app.
      destruct (Nat.lt_ge_cases b (length l1)) as [B|B].
      * left. rewrite nth_error_app1 in Hb by auto. eapply nth_error_In; eauto.
      * right. rewrite nth_error_app2 in Hb by auto. destruct (b - length l1)%nat eqn:E; [lia|].
        simpl in Hb. eapply nth_error_In; eauto.
Qed.

Lemma ios_total : forall s t : seg RA, exists b, intersection_on_segment s t = Ok b.
Proof.
  intros s t. unfold intersection_on_segment. destruct (touch s t); [eauto|].
  destruct (is_parallel s t) eqn:P.
  - unfold intersection_point. rewrite P. simpl. eauto.
  - apply is_parallel_false in P. rewrite (intersection_point_R s t P). simpl. eauto.
Qed.

Lemma filterM_ok : forall X (f : X -> res bool) (l : list X),
  (forall x, In x l -> exists b, f x = Ok b) ->
  exists r, filterM f l = Ok r /\ forall x, In x r <-> In x l /\ f x = Ok true.
Proof.
  induction l as [|x l IH]; intros H; simpl.
  - exists []. split; auto. simpl. tauto.
  - destruct (H x (or_introl eq_refl)) as [b B]. destruct IH as (r & R & C); [intros; apply H; simpl; auto|].
    rewrite B, R. simpl. eexists. split; [reflexivity|]. intros y. destruct b; simpl; rewrite C.
    + split; [intros [<-|[]]; auto|intros [[<-|] ?]; auto].
    + split; [intros []; auto|intros [[<-|] ?]; [congruence|auto]].
Qed.

(*@ C61_isvalid *)
(** C61: a polygon line is valid exactly if it has a segment, consecutive segments are continuous,
    and no two of its segments cross. *)
Lemma isvalid_spec : forall l : list (seg RA), exists b : bool, poly_isvalid l = Ok b /\
  (b = true <-> l <> [] /\
     (forall k s t, nth_error l k = Some s -> nth_error l (S k) = Some t -> continuous s t = true) /\
     (forall s t, distinct_positions l s t -> intersection_on_segment s t = Ok false)).
Proof.
  intros l. unfold poly_isvalid.
  destruct (iscontinuous l) eqn:C; simpl.
  2:{ exists false. split; auto. split; [discriminate|]. intros (_ & H & _).
      apply iscontinuous_iff in H. congruence. }
  destruct l as [|x l]; [exists false; split; auto; split; [discriminate|tauto]|].
  set (p := x :: l) in *. change (Nat.ltb (length p) 1) with false. cbv iota.
  destruct (filterM_ok _ (fun '(a, b) => intersection_on_segment a b) (permutations2 p)) as (r & R & I).
  { intros [a b] _. apply ios_total. }
  unfold crossing_lines. rewrite R. simpl. eexists. split; [reflexivity|].
  split.
  - intros E. destruct r; [|discriminate]. split; [discriminate|]. split; [apply iscontinuous_iff; auto|].
    intros s t D. destruct (ios_total s t) as [[|] B]; auto.
    exfalso. apply (I (s, t)). split; auto. apply permutations2_In. exact D.
  - intros (_ & _ & H). destruct r as [|[s t] r]; auto. exfalso.
    destruct (proj1 (I (s, t)) (or_introl eq_refl)) as [J K]. simpl in K.
    apply permutations2_In in J. rewrite (H s t J) in K. discriminate.
Qed.

Lemma poly_isvalid_true : forall l : list (seg RA), poly_isvalid l = Ok true <-> l <> [] /\
     iscontinuous l = true /\
     (forall s t, distinct_positions l s t -> intersection_on_segment s t = Ok false).
Proof.
  intros l. rewrite iscontinuous_iff. destruct (isvalid_spec l) as (b & E & H). rewrite E, <- H.
  split; [intros F; injection F; auto|intros ->; auto].
Qed.

(** * Turns *)
Lemma cps_edges : forall (A : Arith) (s : seg A) l, cps (s :: l) = Ok (map (fun e => crossproduct (fst e) (snd e)) (cycle_edges (s :: l))).
Proof.
  intros. unfold cps. cbn [get nth_error bind tl cycle_edges]. apply f_equal, map_ext. intros [x y]. reflexivity.
Qed.

Lemma cycle_edges_pairs : forall X (v : X) r, cycle_edges (v :: r) = pairs (v :: r ++ [v]).
Proof.
  intros X v r. simpl. generalize v at 2 4 as w. revert v.
  induction r as [|x r IH]; intros v w; [reflexivity|].
  simpl. f_equal. apply IH.
Qed.

Lemma pairs_rev : forall X (l : list X), pairs (rev l) = rev (map (fun e => (snd e, fst e)) (pairs l)).
Proof.
  intros X l. induction l as [|x [|y l] IH]; [reflexivity|reflexivity|].
  change (pairs (x :: y :: l)) with ((x, y) :: pairs (y :: l)). rewrite map_cons.
  change (rev ((snd (x, y), fst (x, y)) :: map (fun e => (snd e, fst e)) (pairs (y :: l))))
    with (rev (map (fun e => (snd e, fst e)) (pairs (y :: l))) ++ [(y, x)]).
  rewrite <- IH. change (rev (x :: y :: l)) with ((rev l ++ [y]) ++ [x]). change (rev (y :: l)) with (rev l ++ [y]).
  destruct (rev l ++ [y]) as [|z m] eqn:E; [destruct (rev l); discriminate|].
  assert (last m z = y) as L.
  { rewrite <- (last_cons _ m z x). rewrite <- E. apply last_last. }
  rewrite pairs_app1, L. reflexivity.
Qed.

Lemma cycle_edges_rotate : forall X (v : X) r, Permutation (cycle_edges (r ++ [v])) (cycle_edges (v :: r)).
Proof.
  intros X v [|x r]; [apply Permutation_refl|].
  simpl app. rewrite !cycle_edges_pairs.
  change (pairs (v :: (x :: r) ++ [v])) with ((v, x) :: pairs ((x :: r) ++ [v])).
  change (x :: (r ++ [v]) ++ [x]) with ((x :: (r ++ [v])) ++ [x]). rewrite pairs_app1, last_last.
  apply Permutation_sym, Permutation_cons_append.
Qed.

Lemma cycle_edges_rev : forall X (l : list X),
  Permutation (cycle_edges (rev l)) (map (fun e => (snd e, fst e)) (cycle_edges l)).
Proof.
  intros X [|v r]; [apply Permutation_refl|].
  simpl rev. eapply perm_trans; [apply cycle_edges_rotate|].
  rewrite !cycle_edges_pairs.
  replace (v :: rev r ++ [v]) with (rev (v :: r ++ [v])) by (simpl; rewrite rev_app_distr; reflexivity).
  rewrite pairs_rev. apply Permutation_sym, Permutation_rev.
Qed.

Lemma cycle_edges_map : forall X Y (f : X -> Y) l, cycle_edges (map f l) = map (fun e => (f (fst e), f (snd e))) (cycle_edges l).
Proof.
  intros X Y f [|v r]; [reflexivity|]. rewrite map_cons, !cycle_edges_pairs.
  replace (f v :: map f r ++ [f v]) with (map f (v :: r ++ [v])) by (rewrite map_cons, map_app; reflexivity).
  generalize (v :: r ++ [v]) as m. induction m as [|x [|y m] IH]; [reflexivity|reflexivity|].
  change (map f (x :: y :: m)) with (f x :: f y :: map f m).
  change (pairs (f x :: f y :: map f m)) with ((f x, f y) :: pairs (map f (y :: m))).
  rewrite IH. reflexivity.
Qed.

(** The cross products of consecutive segments, cyclically. *)
Definition turns (l : list (seg RA)) : list R := map (fun e => crossproduct (fst e) (snd e)) (cycle_edges l).

Lemma turns_reversed : forall l : list (seg RA), Permutation (turns (rev (map seg_reverse l))) (map Ropp (turns l)).
Proof.
  intros l. unfold turns.
  eapply perm_trans; [apply Permutation_map, cycle_edges_rev|].
  rewrite cycle_edges_map, !map_map. simpl.
  erewrite map_ext; [apply Permutation_refl|]. intros [x y]. simpl.
  rewrite !crossproduct_R. unfold delta_x, delta_y. simpl. ring.
Qed.

Lemma turns_translated : forall u v (l : list (seg RA)), turns (map (seg_translate u v) l) = turns l.
Proof.
  intros u v l. unfold turns. rewrite cycle_edges_map, !map_map. apply map_ext. intros [x y]. simpl.
  rewrite !crossproduct_R. unfold delta_x, delta_y. simpl. ring.
Qed.

(** * C34 *)
Lemma isconvex_eq : forall (l : list (seg RA)), poly_isvalid l = Ok true ->
  isconvex l = Ok (forallb (fun x => Rleb 0 x) (turns l) || forallb (fun x => Rleb x 0) (turns l)).
Proof.
  intros [|s l] V; [discriminate V|]. unfold isconvex. rewrite V. cbn [bind assert_]. rewrite cps_edges. reflexivity.
Qed.

Lemma nsum_R : forall l : list R, nsum l = fold_right Rplus 0 l.
Proof.
  intros l. unfold nsum. change (@n0 RA) with 0.
  assert (forall a, fold_left (@nadd RA) l a = a + fold_right Rplus 0 l) as H; [|rewrite H; rring].
  induction l as [|x l IH]; intros a; simpl; [rring|]. rewrite IH. rring.
Qed.

Lemma forallb_le : forall l : list R, forallb (fun x => Rleb 0 x) l = true <-> ~ exists x, In x l /\ x < 0.
Proof.
  intros l. rewrite forallb_forall. split.
  - intros H (x & I & L). apply H, Rleb_true in I. lra.
  - intros H x I. apply Rleb_true. destruct (Rle_dec 0 x); auto. exfalso. apply H. exists x. split; auto. lra.
Qed.
Lemma forallb_ge : forall l : list R, forallb (fun x => Rleb x 0) l = true <-> ~ exists x, In x l /\ 0 < x.
Proof.
  intros l. rewrite forallb_forall. split.
  - intros H (x & I & L). apply H, Rleb_true in I. lra.
  - intros H x I. apply Rleb_true. destruct (Rle_dec x 0); auto. exfalso. apply H. exists x. split; auto. lra.
Qed.

(*@ C34_isconvex *)
(** C34: isconvex raises for invalid polygons; otherwise it says whether turns in both senses occur
    (a turn is the cross product of a segment with the next one, cyclically). *)
Lemma isconvex_spec : forall l : list (seg RA),
  (poly_isvalid l = Ok false -> isconvex l = Err AssertionError) /\
  (poly_isvalid l = Ok true -> exists b, isconvex l = Ok b /\
     (b = false <-> (exists s t, In (s, t) (cycle_edges l) /\ 0 < crossproduct s t) /\
                    (exists s t, In (s, t) (cycle_edges l) /\ crossproduct s t < 0))).
Proof.
  intros l. split.
  - intros H. unfold isconvex. rewrite H. reflexivity.
  - intros V. rewrite (isconvex_eq l V). eexists. split; [reflexivity|].
    assert (forall P : R -> Prop, (exists x, In x (turns l) /\ P x) <->
      (exists s t, In (s, t) (cycle_edges l) /\ P (crossproduct s t))) as T.
    { intros P. unfold turns. split.
      - intros (x & I & H). apply in_map_iff in I as ([s t] & <- & I). exists s, t. auto.
      - intros (s & t & I & H). exists (crossproduct s t). split; auto. apply in_map_iff. exists (s, t). auto. }
    rewrite <- (T (fun x => 0 < x)), <- (T (fun x => x < 0)).
    rewrite orb_false_iff, <- !not_true_iff_false, forallb_le, forallb_ge.
    destruct (Classical_Prop.classic (exists x, In x (turns l) /\ 0 < x));
    destruct (Classical_Prop.classic (exists x, In x (turns l) /\ x < 0)); tauto.
Qed.

Lemma seg_reverse_touch : forall s t : seg RA, touch (seg_reverse t) (seg_reverse s) = touch s t.
Proof.
  intros s t. apply eq_true_iff_eq. rewrite !touch_near. simpl.
  split; intros (a & b & Ia & Ib & H); exists b, a; rewrite pt_distance_sym; simpl in *; tauto.
Qed.

Lemma continuous_reverse : forall s t : seg RA, continuous (seg_reverse t) (seg_reverse s) = continuous s t.
Proof.
  intros s t. unfold continuous. rewrite seg_reverse_touch. simpl.
  rewrite (pt_eqb_sym (si t) (sj s)), (pt_eqb_sym (sj t) (si s)). reflexivity.
Qed.

Lemma isvalid_reversed : forall l : list (seg RA), poly_isvalid l = Ok true -> poly_isvalid (rev (map seg_reverse l)) = Ok true.
Proof.
  intros l V. apply poly_isvalid_true in V as (N & C & X). apply poly_isvalid_true. repeat split.
  - destruct l; [congruence|]. simpl. intros E. apply app_eq_nil in E as [_ E]. discriminate.
  - unfold iscontinuous in *. rewrite pairs_rev, forallb_forall. intros [a b] I.
    apply in_rev in I. apply in_map_iff in I as ([c d] & E & I). injection E as <- <-.
    assert (exists s t, In (s, t) (pairs l) /\ c = seg_reverse s /\ d = seg_reverse t) as (s & t & J & -> & ->).
    { apply In_nth_error in I as [k I]. apply pairs_nth in I as [I1 I2]. rewrite nth_error_map in I1, I2.
      destruct (nth_error l k) as [s|] eqn:E1; [|discriminate]. destruct (nth_error l (S k)) as [t|] eqn:E2; [|discriminate].
      exists s, t. split; [eapply nth_error_In; apply pairs_nth; eauto|]. simpl in *. split; congruence. }
    simpl. rewrite continuous_reverse. rewrite forallb_forall in C. apply (C (s, t) J).
  - intros s t (a & b & NE & Ha & Hb).
    assert (forall k x, nth_error (rev (map seg_reverse l)) k = Some x ->
      (k < length l)%nat /\ nth_error l (length l - S k) = Some (seg_reverse x)) as Q.
    { intros k x Hk. assert (k < length l)%nat as K.
      { assert (k < length (rev (map seg_reverse l)))%nat by (apply nth_error_Some; congruence).
        rewrite rev_length, map_length in H. exact H. }
      split; auto. rewrite (nth_error_nth' _ (seg_reverse x)) in Hk by (rewrite rev_length, map_length; auto).
      injection Hk as Hk. rewrite rev_nth, map_length in Hk by (rewrite map_length; auto).
      rewrite (nth_error_nth' l x) by lia. f_equal.
      rewrite map_nth in Hk. transitivity (seg_reverse (seg_reverse (nth (length l - S k) l x))); [destruct (nth (length l - S k) l x); reflexivity|congruence]. }
    apply Q in Ha as [La Ha]. apply Q in Hb as [Lb Hb].
    assert (distinct_positions l (seg_reverse s) (seg_reverse t)) as D by (exists (length l - S a)%nat, (length l - S b)%nat; repeat split; auto; lia).
    apply X in D. destruct (ios_total s t) as [b' B]. rewrite B. f_equal.
    destruct (ios_sym s (seg_reverse t)) as (_ & E2 & _). rewrite E2 in D.
    destruct (ios_sym s (seg_reverse t)) as (E1 & _). rewrite E1 in D.
    destruct (ios_sym t s) as (E3 & E4 & _). rewrite E4, E3 in D. congruence.
Qed.

Lemma sumR_perm : forall l l' : list R, Permutation l l' -> fold_right Rplus 0 l = fold_right Rplus 0 l'.
Proof. intros l l' P. induction P; simpl; lra. Qed.
Lemma sumR_opp : forall l : list R, fold_right Rplus 0 (map Ropp l) = - fold_right Rplus 0 l.
Proof. induction l; simpl; lra. Qed.

Lemma forallb_perm : forall X (f : X -> bool) l l', Permutation l l' -> forallb f l = forallb f l'.
Proof.
  intros X f l l' P. apply eq_true_iff_eq. rewrite !forallb_forall.
  split; intros H x I; apply H; [apply Permutation_sym in P|]; eapply Permutation_in; eauto.
Qed.

Lemma forallb_map_opp : forall l : list R,
  forallb (fun x => Rleb 0 x) (map Ropp l) = forallb (fun x => Rleb x 0) l /\
  forallb (fun x => Rleb x 0) (map Ropp l) = forallb (fun x => Rleb 0 x) l.
Proof.
  induction l as [|x l [IH1 IH2]]; simpl; auto. rewrite IH1, IH2.
  split; f_equal; apply eq_true_iff_eq; rewrite !Rleb_true; lra.
Qed.

(*@ C34_isconvex_invariant *)
(** C34: the reversed polygon is valid and convex together with the original; a translated polygon,
    if valid, is convex together with the original. *)
Lemma isconvex_invariant : forall (l : list (seg RA)) (u v : R), poly_isvalid l = Ok true ->
  poly_isvalid (rev (map seg_reverse l)) = Ok true /\
  isconvex (rev (map seg_reverse l)) = isconvex l /\
  (poly_isvalid (map (seg_translate u v) l) = Ok true -> isconvex (map (seg_translate u v) l) = isconvex l).
Proof.
  intros l u v V. pose proof (isvalid_reversed l V) as VR. split; auto. split.
  - rewrite !isconvex_eq by auto. f_equal.
    rewrite !(forallb_perm _ _ _ _ (turns_reversed l)).
    destruct (forallb_map_opp (turns l)) as [-> ->]. apply orb_comm.
  - intros VT. rewrite !isconvex_eq by auto. rewrite turns_translated. reflexivity.
Qed.

Lemma iscw_convex_eq : forall l : list (seg RA), poly_isvalid l = Ok true -> isconvex l = Ok true ->
  iscw l = Ok (negb (Rltb 0 (fold_right Rplus 0 (turns l)))).
Proof.
  intros [|s l] V C; [discriminate V|]. unfold iscw. rewrite C. cbn [bind]. rewrite cps_edges. cbn [bind].
  rewrite nsum_R. reflexivity.
Qed.

(*@ C34_iscw_reversed *)
(** C34: for a convex polygon with a non-zero sum of turns, iscw and isccw are opposite, and swap
    when the polygon is reversed. *)
Lemma iscw_reversed : forall l : list (seg RA), isconvex l = Ok true ->
  fold_right Rplus 0 (map (fun e => crossproduct (fst e) (snd e)) (cycle_edges l)) <> 0 ->
  exists b, iscw l = Ok b /\ isccw l = Ok (negb b) /\
    iscw (rev (map seg_reverse l)) = Ok (negb b) /\ isccw (rev (map seg_reverse l)) = Ok b /\
    (b = true <-> fold_right Rplus 0 (map (fun e => crossproduct (fst e) (snd e)) (cycle_edges l)) < 0).
Proof.
  intros l C NZ. fold (turns l) in *.
  assert (poly_isvalid l = Ok true) as V.
  { unfold isconvex in C. destruct (poly_isvalid l) as [[|]|]; simpl in C; congruence. }
  destruct (isconvex_invariant l 0 0 V) as (VR & CR & _). rewrite C in CR.
  unfold isccw. rewrite !iscw_convex_eq by auto. rewrite (sumR_perm _ _ (turns_reversed l)), sumR_opp.
  set (x := fold_right Rplus 0 (turns l)) in *. change (@num RA) with R in *. fold x in NZ.
  eexists. split; [reflexivity|]. simpl. rewrite !negb_involutive.
  assert (negb (Rltb 0 (- x)) = Rltb 0 x) as E.
  { apply eq_true_iff_eq. rewrite negb_true_iff, Rltb_true, Rltb_false. lra. }
  rewrite E. repeat split; auto.
  - rewrite <- E, negb_involutive. reflexivity.
  - rewrite negb_true_iff, Rltb_false. lra.
  - rewrite negb_true_iff, Rltb_false. lra.
Qed.

Lemma triangle_valid : forall a b c : pt RA, poly_isvalid (cycle_poly [a; b; c]) = Ok true.
Proof.
  intros a b c. apply poly_isvalid_true. split; [discriminate|]. split.
  - unfold iscontinuous. simpl. rewrite !continuous_same by reflexivity. reflexivity.
  - assert (forall s t : seg RA, sj s = si t -> intersection_on_segment s t = Ok false /\ intersection_on_segment t s = Ok false) as T.
    { intros s t E. pose proof (touch_same s t E) as H. destruct (ios_sym s t) as (S1 & _ & K & _).
      rewrite <- S1, K by auto. auto. }
    intros s t (i & j & N & Hi & Hj).
    destruct i as [|[|[|i]]], j as [|[|[|j]]]; simpl in Hi, Hj; try congruence;
      try (destruct i; discriminate); try (destruct j; discriminate);
      injection Hi as <-; injection Hj as <-; match goal with |- intersection_on_segment ?x ?y = _ => first [exact (proj1 (T x y eq_refl)) | exact (proj2 (T y x eq_refl))] end.
Qed.

(*@ C34_triangle_orientation *)
(** C34: a triangle a b c is always valid and convex, and iscw tells the sign of its area. *)
Lemma triangle_orientation : forall a b c : pt RA,
  poly_isvalid (cycle_poly [a; b; c]) = Ok true /\
  isconvex (cycle_poly [a; b; c]) = Ok true /\
  iscw (cycle_poly [a; b; c]) = Ok (negb (Rltb 0 (orient a b c))).
Proof.
  intros a b c. pose proof (triangle_valid a b c) as V.
  assert (turns (cycle_poly [a; b; c]) = [orient a b c; orient a b c; orient a b c]) as T.
  { assert (forall x y z w : R, x = w -> y = w -> z = w -> [x; y; z] = [w; w; w]) as Q by (intros; subst; reflexivity).
    unfold turns. simpl. apply Q; rewrite !crossproduct_R; unfold delta_x, delta_y, orient; simpl; ring. }
  assert (isconvex (cycle_poly [a; b; c]) = Ok true) as C.
  { rewrite isconvex_eq by auto. rewrite T. simpl. f_equal. apply orb_true_iff.
    destruct (Rle_dec 0 (orient a b c)) as [G|G]; [left|right].
    - assert (Rleb 0 (orient a b c) = true) as -> by (apply Rleb_true; auto). reflexivity.
    - assert (Rleb (orient a b c) 0 = true) as -> by (apply Rleb_true; lra). reflexivity. }
  split; auto. split; auto. rewrite iscw_convex_eq by auto. rewrite T. simpl. do 2 f_equal.
  apply eq_true_iff_eq. rewrite !Rltb_true. lra.
Qed.

Lemma turns_cycle : forall vs : list (pt RA), turns (cycle_poly vs) =
  map (fun e => (px (snd (fst e)) - px (fst (fst e))) * (py (snd (snd e)) - py (fst (snd e)))
              - (py (snd (fst e)) - py (fst (fst e))) * (px (snd (snd e)) - px (fst (snd e)))) (cycle_edges (cycle_edges vs)).
Proof.
  intros vs. unfold turns, cycle_poly. rewrite cycle_edges_map, map_map. apply map_ext.
  intros [[a b] [c d]]. reflexivity.
Qed.

(** Consecutive edges: e = (a, b) is followed by (b, c). *)
Lemma cycle_edges_nth : forall X (l : list X) k x y, nth_error (cycle_edges l) k = Some (x, y) <->
  nth_error l k = Some x /\ nth_error l (if Nat.eqb (S k) (length l) then 0 else S k)%nat = Some y.
Proof.
  intros X [|v r] k x y.
  - simpl. destruct k; simpl; split; try discriminate; intros [? _]; discriminate.
  - rewrite cycle_edges_pairs, pairs_nth.
    change (v :: r ++ [v]) with ((v :: r) ++ [v]).
    assert (nth_error ((v :: r) ++ [v]) (length (v :: r)) = Some v) as E by (rewrite nth_error_app2, Nat.sub_diag; auto).
    destruct (Nat.lt_ge_cases k (length (v :: r))) as [K|K].
    + rewrite nth_error_app1 by auto. destruct (Nat.eqb_spec (S k) (length (v :: r))) as [F|F].
      * rewrite F, E. simpl. tauto.
      * rewrite nth_error_app1 by lia. tauto.
    + split; intros [H1 H2].
      * exfalso. assert (S k < length ((v :: r) ++ [v]))%nat by (apply nth_error_Some; congruence).
        rewrite app_length in H. simpl in *. lia.
      * exfalso. assert (k < length (v :: r))%nat by (apply nth_error_Some; congruence). lia.
Qed.

(** Points of the line a b outside the segment but near its bounding box are near an end point. *)
Lemma near_end : forall (a b q : R) (t e : R), q = a + t * (b - a) -> Rmin a b - e <= q <= Rmax a b + e ->
  (t <= 0 -> Rabs (q - a) <= e) /\ (1 <= t -> Rabs (q - b) <= e).
Proof.
  intros a b q t e -> H.
  assert (T1 : t <= 0 -> Rmin a b - e <= a + t * (b - a) <= Rmax a b + e -> Rabs (a + t * (b - a) - a) <= e).
  { clear H. intros T H. apply Rabs_le. unfold Rmin, Rmax in H. destruct (Rle_dec a b); nra. }
  assert (T2 : 1 <= t -> Rmin a b - e <= a + t * (b - a) <= Rmax a b + e -> Rabs (a + t * (b - a) - b) <= e).
  { clear H. intros T H. apply Rabs_le. unfold Rmin, Rmax in H. destruct (Rle_dec a b); nra. }
  split; auto.
Qed.
Lemma near_end2 : forall (s : seg RA) (q : pt RA) (t : R), q = along (si s) (sj s) t -> t <= 0 \/ 1 <= t ->
  ls_is_internal_point s (Point_new (px q) (py q)) = true ->
  exists e, In e (ij s) /\ Rabs (px q - px e) <= 15/1000000000 /\ Rabs (py q - py e) <= 15/1000000000.
Proof.
  intros s q t E T I. apply internal_iff_R in I. unfold Point_new in I; ra. cbn [px py] in I.
  pose proof (Rround8_err (px q)) as X. pose proof (Rround8_err (py q)) as Y. apply Rabs_le_inv in X, Y.
  assert (EX : px q = px (si s) + t * (px (sj s) - px (si s))) by (rewrite E; reflexivity).
  assert (EY : py q = py (si s) + t * (py (sj s) - py (si s))) by (rewrite E; reflexivity).
  assert (0 < / 10^8 <= 1/100000000) as K by (simpl; lra).
  destruct (near_end _ _ _ _ (15/1000000000) EX) as [X1 X2]; [simpl in *; lra|].
  destruct (near_end _ _ _ _ (15/1000000000) EY) as [Y1 Y2]; [simpl in *; lra|].
  destruct T as [T|T]; [exists (si s)|exists (sj s)]; cbn; auto.
Qed.
Lemma ios_same_side : forall s t : seg RA,
  (forall p q, In p (ij s) -> In q (ij t) -> Rabs (px p - px q) < 1/10^5 -> Rabs (py p - py q) < 1/10^5 -> p = q) ->
  0 <= orient (si s) (sj s) (si t) -> 0 <= orient (si s) (sj s) (sj t) ->
  0 <= orient (si t) (sj t) (si s) -> 0 <= orient (si t) (sj t) (sj s) ->
  intersection_on_segment s t = Ok false.
Proof.
  intros s t SEP O1 O2 O3 O4. destruct (ios_sym s t) as (_ & _ & K & _).
  destruct (touch s t) eqn:T; [apply K; auto|]. destruct (is_parallel s t) eqn:P; [apply K; auto|]. clear K.
  destruct (proj2 (intersection_point_spec s t) P) as (q & Q & (a & Ea) & (b & Eb) & _).
  unfold intersection_on_segment. rewrite T, Q. cbn [bind]. f_equal.
  destruct (ls_is_internal_point s (Point_new (px q) (py q))) eqn:I1; [|reflexivity].
  destruct (ls_is_internal_point t (Point_new (px q) (py q))) eqn:I2; [|reflexivity]. exfalso.
  apply is_parallel_false in P. rewrite crossproduct_R in P.
  assert (EX : px q = px (si s) + a * (px (sj s) - px (si s))) by (rewrite Ea; reflexivity).
  assert (EY : py q = py (si s) + a * (py (sj s) - py (si s))) by (rewrite Ea; reflexivity).
  assert (FX : px q = px (si t) + b * (px (sj t) - px (si t))) by (rewrite Eb; reflexivity).
  assert (FY : py q = py (si t) + b * (py (sj t) - py (si t))) by (rewrite Eb; reflexivity).
  unfold orient in *.
  assert (A : a <= 0 \/ 1 <= a).
  { destruct (Rle_dec a 0); [auto|]. destruct (Rle_dec 1 a); [auto|]. exfalso.
    assert (Z : (1 - a) * ((px (sj t) - px (si t)) * (py (si s) - py (si t)) - (py (sj t) - py (si t)) * (px (si s) - px (si t)))
      + a * ((px (sj t) - px (si t)) * (py (sj s) - py (si t)) - (py (sj t) - py (si t)) * (px (sj s) - px (si t))) = 0).
    { replace (_ + _) with ((px (sj t) - px (si t)) * (py q - py (si t)) - (py (sj t) - py (si t)) * (px q - px (si t))) by (rewrite EX, EY; rring).
      rewrite FX, FY. rring. }
    ra_simpl. simpl in *. apply P. nra. }
  assert (B : b <= 0 \/ 1 <= b).
  { destruct (Rle_dec b 0); [auto|]. destruct (Rle_dec 1 b); [auto|]. exfalso.
    assert (Z : (1 - b) * ((px (sj s) - px (si s)) * (py (si t) - py (si s)) - (py (sj s) - py (si s)) * (px (si t) - px (si s)))
      + b * ((px (sj s) - px (si s)) * (py (sj t) - py (si s)) - (py (sj s) - py (si s)) * (px (sj t) - px (si s))) = 0).
    { replace (_ + _) with ((px (sj s) - px (si s)) * (py q - py (si s)) - (py (sj s) - py (si s)) * (px q - px (si s))) by (rewrite FX, FY; rring).
      rewrite EX, EY. rring. }
    ra_simpl. simpl in *. apply P. nra. }
  destruct (near_end2 s q a Ea A I1) as (e & He & X1 & Y1). destruct (near_end2 t q b Eb B I2) as (f & Hf & X2 & Y2).
  assert (e = f) as <-.
  { apply SEP; auto.
    - apply Rabs_le_inv in X1, X2. apply Rabs_def1; simpl in *; lra.
    - apply Rabs_le_inv in Y1, Y2. apply Rabs_def1; simpl in *; lra. }
  assert (D0 : forall p : pt RA, dist p p < / 10^8).
  { intros p. unfold dist. replace ((px p - px p)^2 + (py p - py p)^2) with 0 by rring. rewrite sqrt_0. simpl; lra. }
  assert (T' : touch s t = true); [|congruence].
  apply (proj1 (touch_spec s t)). unfold ij in He, Hf. destruct He as [<-|[<-|[]]], Hf as [E|[E|[]]]; rewrite E; auto 6.
Qed.

Lemma iscontinuous_cycle : forall vs : list (pt RA), iscontinuous (cycle_poly vs) = true.
Proof.
  intros vs. apply iscontinuous_iff. intros k s t Hs Ht. apply continuous_same.
  unfold cycle_poly in *. rewrite nth_error_map in Hs, Ht.
  destruct (nth_error (cycle_edges vs) k) as [[a b]|] eqn:E1; [|discriminate]. injection Hs as <-.
  destruct (nth_error (cycle_edges vs) (S k)) as [[c d]|] eqn:E2; [|discriminate]. injection Ht as <-. cbn.
  assert (L : (S k < length vs)%nat).
  { apply cycle_edges_nth in E2. apply nth_error_Some. intuition congruence. }
  apply cycle_edges_nth in E1, E2. destruct (Nat.eqb_spec (S k) (length vs)); [lia|]. intuition congruence.
Qed.
Lemma cycle_edges_In : forall X (vs : list X) a b, In (a, b) (cycle_edges vs) -> In a vs /\ In b vs.
Proof.
  intros X vs a b H. apply In_nth_error in H as [k H]. apply cycle_edges_nth in H as [H1 H2].
  split; eapply nth_error_In; eauto.
Qed.

(*@ C61_convex_valid *)
(** C61: a closed polygon line is valid if every vertex is on or left of every directed edge (convex,
    counter-clockwise) and the vertices are identical or separated. *)
Lemma convex_valid : forall vs : list (pt RA), vs <> [] -> separated vs ->
  (forall a b c, In (a, b) (cycle_edges vs) -> In c vs -> 0 <= orient a b c) ->
  poly_isvalid (cycle_poly vs) = Ok true.
Proof.
  intros vs NE SEP CV. apply poly_isvalid_true. split; [|split].
  - destruct vs as [|v [|w r]]; [congruence| |]; cbn; discriminate.
  - apply iscontinuous_cycle.
  - intros s t (i & j & _ & Hi & Hj). unfold cycle_poly in *. rewrite nth_error_map in Hi, Hj.
    destruct (nth_error (cycle_edges vs) i) as [[a b]|] eqn:E1; [|discriminate]. injection Hi as <-.
    destruct (nth_error (cycle_edges vs) j) as [[c d]|] eqn:E2; [|discriminate]. injection Hj as <-.
    apply nth_error_In in E1, E2. pose proof (cycle_edges_In _ _ _ _ E1) as [A B]. pose proof (cycle_edges_In _ _ _ _ E2) as [C D].
    apply ios_same_side; cbn; auto.
    intros p q [<-|[<-|[]]] [<-|[<-|[]]]; apply SEP; auto.
Qed.

Lemma cycle_fst_snd : forall X (l : list X), map fst (cycle_edges l) = l /\ Permutation (map snd (cycle_edges l)) l.
Proof.
  intros X [|v r]; [split; auto|].
  assert (forall (a b : list X), length a = length b -> map fst (combine a b) = a /\ map snd (combine a b) = b) as C.
  { induction a as [|x a IH]; intros [|y b] L; try discriminate; auto. simpl.
    destruct (IH b) as [-> ->]; auto. }
  change (cycle_edges (v :: r)) with (combine (v :: r) (r ++ [v])).
  destruct (C (v :: r) (r ++ [v])) as [-> ->]; [rewrite app_length; simpl; lia|]. split; auto.
  apply Permutation_sym, Permutation_cons_append.
Qed.

Lemma cycle_telescope : forall X (g : X -> R) (l : list X),
  fold_right Rplus 0 (map (fun e => g (snd e) - g (fst e)) (cycle_edges l)) = 0.
Proof.
  intros X g l. destruct (cycle_fst_snd X l) as [F S].
  assert (forall E : list (X * X), fold_right Rplus 0 (map (fun e => g (snd e) - g (fst e)) E) =
    fold_right Rplus 0 (map g (map snd E)) - fold_right Rplus 0 (map g (map fst E))) as D.
  { induction E as [|e E IH]; simpl; [ring|]. rewrite IH. ring. }
  rewrite D, F. rewrite (sumR_perm _ _ (Permutation_map g S)). ring.
Qed.

Lemma sum_nonneg_zero : forall l : list R, (forall x, In x l -> 0 <= x) ->
  0 <= fold_right Rplus 0 l /\ (fold_right Rplus 0 l <= 0 -> forall x, In x l -> x = 0).
Proof.
  induction l as [|x l IH]; intros H; simpl.
  - split; [lra|intros _ ? []].
  - destruct IH as [P Z]; [intros; apply H; simpl; auto|]. pose proof (H x (or_introl eq_refl)).
    split; [lra|]. intros L y [<-|I]; [lra|apply Z; auto; lra].
Qed.

(*@ C34_convex_orientation *)
(** C34: if every vertex is on or left of every directed edge (the counter-clockwise traversal of a
    convex polygon, area positive) and the vertices are identical or separated, the closed polygon line
    through the vertices is valid and reported convex and counter-clockwise, its reversal clockwise. *)
Lemma convex_orientation : forall vs : list (pt RA),
  (forall a b, In (a, b) (cycle_edges vs) -> a <> b) ->
  (forall a b c, In (a, b) (cycle_edges vs) -> In c vs -> 0 <= orient a b c) ->
  0 < shoelace vs -> separated vs ->
  poly_isvalid (cycle_poly vs) = Ok true /\
  isconvex (cycle_poly vs) = Ok true /\ iscw (cycle_poly vs) = Ok false /\ isccw (cycle_poly vs) = Ok true /\
  iscw (rev (map seg_reverse (cycle_poly vs))) = Ok true.
Proof.
  intros vs ND CV AREA SEP.
  assert (V : poly_isvalid (cycle_poly vs) = Ok true).
  { apply convex_valid; auto. intros ->. unfold shoelace in AREA. simpl in AREA. lra. }
  split; [exact V|].
  assert (forall a b c d, In ((a, b), (c, d)) (cycle_edges (cycle_edges vs)) -> b = c /\ In (a, b) (cycle_edges vs) /\ In (c, d) (cycle_edges vs) /\ In d vs) as CONS.
  { intros a b c d I. apply In_nth_error in I as [k I]. apply cycle_edges_nth in I as [I1 I2].
    pose proof (nth_error_In _ _ I1) as J1. pose proof (nth_error_In _ _ I2) as J2.
    assert (length (cycle_edges vs) = length vs) as L.
    { destruct vs as [|v r]; auto. unfold cycle_edges. rewrite combine_length, app_length. apply Nat.min_l. simpl. lia. }
    rewrite L in I2. apply cycle_edges_nth in I1 as [_ I1]. apply cycle_edges_nth in I2 as [I2 I3].
    repeat split; auto; [congruence|]. eapply nth_error_In; eauto. }
  assert (forall x, In x (turns (cycle_poly vs)) -> 0 <= x) as TN.
  { intros x I. rewrite turns_cycle in I. apply in_map_iff in I as ([[a b] [c d]] & <- & I).
    apply CONS in I as (<- & I1 & I2 & I3). simpl. pose proof (CV a b d I1 I3) as O. unfold orient in O. simpl in *. ra_simpl. eapply Rle_trans; [exact O|]. right. ring. }
  assert (isconvex (cycle_poly vs) = Ok true) as C.
  { rewrite isconvex_eq by auto. assert (forallb (fun x => Rleb 0 x) (turns (cycle_poly vs)) = true) as ->; auto.
    apply forallb_forall. intros x I. apply Rleb_true. auto. }
  destruct (sum_nonneg_zero _ TN) as [SN SZ].
  assert (0 < fold_right Rplus 0 (turns (cycle_poly vs))) as SP.
  { destruct (Rlt_dec 0 (fold_right Rplus 0 (turns (cycle_poly vs)))) as [|NP]; auto. exfalso.
    assert (forall x, In x (turns (cycle_poly vs)) -> x = 0) as Z by (apply SZ; lra).
    destruct vs as [|v r]; [unfold shoelace in AREA; simpl in AREA; lra|]. set (vs := v :: r) in *.
    (* every vertex is on the line through v along the first edge *)
    assert (exists w, nth_error (cycle_edges vs) 0 = Some (v, w)) as [w W].
    { unfold vs. destruct r as [|w r]; simpl; eauto. }
    pose proof (nth_error_In _ _ W) as IW. pose proof (ND v w IW) as NE.
    set (ex := (px w - px v : R)). set (ey := (py w - py v : R)).
    assert (0 < ex * ex + ey * ey) as EP.
    { destruct (Req_dec ex 0) as [X|X]; [destruct (Req_dec ey 0) as [Y|Y]|]; [|nra|nra].
      exfalso. apply NE. apply pt_ext; [unfold ex in X|unfold ey in Y]; simpl in *; lra. }
    assert (forall k a b, nth_error (cycle_edges vs) k = Some (a, b) ->
      ex * (py b - py a) - ey * (px b - px a) = 0 /\ ex * (py a - py v) - ey * (px a - px v) = 0) as LINE.
    { induction k as [|k IH]; intros a b E.
      - rewrite W in E. injection E as <- <-. unfold ex, ey. simpl. split; ring.
      - assert (k < length (cycle_edges vs))%nat as KL by (assert (S k < length (cycle_edges vs))%nat by (apply nth_error_Some; congruence); lia).
        destruct (nth_error (cycle_edges vs) k) as [[c d]|] eqn:F; [|apply nth_error_None in F; lia].
        assert (In ((c, d), (a, b)) (cycle_edges (cycle_edges vs))) as I.
        { apply (nth_error_In _ k). apply cycle_edges_nth. split; auto.
          assert (S k < length (cycle_edges vs))%nat by (apply nth_error_Some; congruence).
          destruct (Nat.eqb_spec (S k) (length (cycle_edges vs))); [lia|]. exact E. }
        pose proof I as I'. apply CONS in I as (<- & I1 & I2 & I3).
        assert ((px d - px c) * (py b - py d) - (py d - py c) * (px b - px d) = 0) as T.
        { apply Z. rewrite turns_cycle. apply in_map_iff. exists ((c, d), (d, b)). split; auto. }
        destruct (IH c d eq_refl) as [H1 H2]. pose proof (ND c d I1) as ND1. simpl in *. ra_simpl.
        assert (px d - px c <> 0 \/ py d - py c <> 0) as [N|N].
        { destruct (Req_dec (px d - px c) 0); [right|left; auto]. intros Y. apply ND1. apply pt_ext; simpl; lra. }
        + assert ((px d - px c) * (ex * (py b - py d) - ey * (px b - px d)) = 0) as M.
          { replace ((px d - px c) * (ex * (py b - py d) - ey * (px b - px d))) with
             (ex * ((px d - px c) * (py b - py d) - (py d - py c) * (px b - px d))
              + (px b - px d) * (ex * (py d - py c) - ey * (px d - px c))) by ring. rewrite T, H1. ring. }
          apply Rmult_integral in M as [M|M]; [contradiction|]. split; [exact M|]. lra.
        + assert ((py d - py c) * (ex * (py b - py d) - ey * (px b - px d)) = 0) as M.
          { replace ((py d - py c) * (ex * (py b - py d) - ey * (px b - px d))) with
             (ey * ((px d - px c) * (py b - py d) - (py d - py c) * (px b - px d))
              + (py b - py d) * (ex * (py d - py c) - ey * (px d - px c))) by ring. rewrite T, H1. ring. }
          apply Rmult_integral in M as [M|M]; [contradiction|]. split; [exact M|]. lra. }
    set (t := fun p : pt RA => (ex * (px p - px v) + ey * (py p - py v)) / (ex * ex + ey * ey) * (px v * ey - py v * ex)).
    assert (shoelace vs = fold_right Rplus 0 (map (fun e => t (snd e) - t (fst e)) (cycle_edges vs))) as E.
    { unfold shoelace. f_equal. apply map_ext_in. intros [a b] I. apply In_nth_error in I as [k I].
      destruct (LINE k a b I) as [H1 H2]. unfold t. simpl in *. ra_simpl.
      assert (ex * (py b - py v) - ey * (px b - px v) = 0) as H3 by lra.
      assert (forall p : pt RA, ex * (py p - py v) - ey * (px p - px v) = 0 ->
        px p = px v + (ex * (px p - px v) + ey * (py p - py v)) / (ex * ex + ey * ey) * ex /\
        py p = py v + (ex * (px p - px v) + ey * (py p - py v)) / (ex * ex + ey * ey) * ey) as P.
      { intros p H. simpl in *. ra_simpl. split.
        - apply (Rmult_eq_reg_r (ex * ex + ey * ey)); [|lra]. field_simplify; [|lra].
          replace (px p * ex ^ 2 + px p * ey ^ 2) with (px p * ex^2 + ey * (px v * ey + (ey * (px p - px v)))) by ring.
          replace (ey * (px p - px v)) with (ex * (py p - py v)) by lra. ring.
        - apply (Rmult_eq_reg_r (ex * ex + ey * ey)); [|lra]. field_simplify; [|lra].
          replace (py p * ex ^ 2 + py p * ey ^ 2) with (py p * ey^2 + ex * (py v * ex + (ex * (py p - py v)))) by ring.
          replace (ex * (py p - py v)) with (ey * (px p - px v)) by lra. ring. }
      destruct (P a H2) as [PA1 PA2]. destruct (P b H3) as [PB1 PB2].
      set (ta := (ex * (px a - px v) + ey * (py a - py v)) / (ex * ex + ey * ey)) in *.
      set (tb := (ex * (px b - px v) + ey * (py b - py v)) / (ex * ex + ey * ey)) in *.
      rewrite PA1, PA2, PB1, PB2. ring. }
    rewrite cycle_telescope in E. lra. }
  destruct (iscw_reversed (cycle_poly vs) C) as (b & B1 & B2 & B3 & B4 & B5).
  { fold (turns (cycle_poly vs)). lra. }
  fold (turns (cycle_poly vs)) in B5.
  assert (b = false) as ->.
  { destruct b; auto. assert (fold_right Rplus 0 (turns (cycle_poly vs)) < 0) by (apply B5; auto). lra. }
  auto.
Qed.

(*@ex C34_orientation_example *)
(** The hypotheses of C34_convex_orientation hold for a triangle. *)
Lemma orientation_example : let vs := [@mkpt RA 0 0; @mkpt RA 4 0; @mkpt RA 0 3] in
  (forall a b, In (a, b) (cycle_edges vs) -> a <> b) /\
  (forall a b c, In (a, b) (cycle_edges vs) -> In c vs -> 0 <= orient a b c) /\
  0 < shoelace vs /\ separated vs.
Proof.
  intros vs. split; [|split; [|split]].
  - intros a b I E. simpl in I. destruct I as [I|[I|[I|[]]]]; injection I as <- <-; injection E; lra.
  - intros a b c I J. simpl in I, J.
    destruct I as [I|[I|[I|[]]]]; injection I as <- <-; destruct J as [<-|[<-|[<-|[]]]]; unfold orient; simpl; lra.
  - unfold shoelace. simpl. lra.
  - intros p q P Q H1 H2. apply Rabs_def2 in H1, H2.
    destruct P as [<-|[<-|[<-|[]]]], Q as [<-|[<-|[<-|[]]]]; simpl in *; auto; lra.
Qed.

(** * Findings in binary64 *)
(*@ C34_iscw_nonconvex_refuted *)
(** C34, finding: a valid counter-clockwise polygon (positive area) that is reported clockwise, and
    one for which iscw raises. *)
Lemma iscw_nonconvex : forall L : Libm,
  (exists vs, (0 < zshoelace vs)%Z /\ poly_isvalid (cycle_poly (zpts (FA L) vs)) = Ok true /\
              iscw (cycle_poly (zpts (FA L) vs)) = Ok true) /\
  (exists vs, (0 < zshoelace vs)%Z /\ poly_isvalid (cycle_poly (zpts (FA L) vs)) = Ok true /\
              iscw (cycle_poly (zpts (FA L) vs)) = Err OtherException).
Proof.
  intros L. split.
  - exists [(0,0);(10,0);(10,10);(9,5);(8,3);(7,2);(5,1)]%Z. repeat split; vm_compute; reflexivity.
  - exists [(0,0);(10,0);(10,10);(9,6);(7,3);(4,1)]%Z. repeat split; vm_compute; reflexivity.
Qed.

(*@ C34_spike_refuted *)
(** C34, finding: a line that runs clockwise around a triangle and overshoots every corner is
    reported valid, convex and counter-clockwise. *)
Lemma spike_refuted : forall L : Libm, exists vs, (zshoelace vs < 0)%Z /\
  poly_isvalid (cycle_poly (zpts (FA L) vs)) = Ok true /\
  isconvex (cycle_poly (zpts (FA L) vs)) = Ok true /\ iscw (cycle_poly (zpts (FA L) vs)) = Ok false.
Proof.
  intros L. exists [(0,0);(0,10);(0,12);(0,10);(10,0);(12,-2);(10,0);(0,0);(-2,0)]%Z. repeat split; vm_compute; reflexivity.
Qed.

(*@ C61_overlap_refuted *)
(** C61, finding: a line running back over itself is valid. *)
Lemma overlap_valid : forall L : Libm,
  poly_isvalid (cycle_poly (zpts (FA L) [(0,0);(10,0);(5,0);(20,0)]%Z)) = Ok true.
Proof. intros L. vm_compute. reflexivity. Qed.
