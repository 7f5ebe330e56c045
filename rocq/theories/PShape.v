(** Polygon lines: continuity, closing, appending, breaks, outliers, joining. *)
From Coq Require Import Reals ZArith Lra Lia Bool List Psatz Permutation.
From Verif Require Import Base Arith ArithR ArithF MPoint MLine MPoly Spec PPoint PLine.
Import ListNotations.
Local Open Scope R_scope.
#[local] Existing Instance RA.

Lemma last_cons : forall X (l : list X) x d, last (x :: l) d = last l x.
Proof.
  induction l as [|y l IH]; intros x d; auto.
  change (last (x :: y :: l) d) with (last (y :: l) d). rewrite IH. symmetry. apply IH.
Qed.

Lemma pairs_app1 : forall X (l : list X) x c, pairs ((x :: l) ++ [c]) = pairs (x :: l) ++ [(last l x, c)].
Proof.
  induction l as [|y l IH]; intros x c; [reflexivity|].
  change (pairs ((x :: y :: l) ++ [c])) with ((x, y) :: pairs ((y :: l) ++ [c])).
  rewrite IH, last_cons. reflexivity.
Qed.

Lemma iscontinuous_app1 : forall (A : Arith) (l : list (seg A)) x c,
  iscontinuous ((x :: l) ++ [c]) = iscontinuous (x :: l) && continuous (last l x) c.
Proof.
  intros. unfold iscontinuous. rewrite pairs_app1, forallb_app. simpl. rewrite andb_true_r. reflexivity.
Qed.

Lemma touch_same : forall s t : seg RA, sj s = si t -> touch s t = true.
Proof.
  intros s t E. apply touch_near. exists (sj s), (si t). rewrite E. simpl. repeat split; auto.
  replace (pt_distance (si t) (si t)) with 0; [lra|]. symmetry. apply pt_distance_zero. auto.
Qed.

Lemma continuous_same : forall s t : seg RA, sj s = si t -> continuous s t = true.
Proof.
  intros s t E. unfold continuous. rewrite (touch_same s t E), E, pt_eqb_refl. reflexivity.
Qed.

Lemma iscontinuous_iff : forall (A : Arith) (l : list (seg A)),
  iscontinuous l = true <-> forall k s t, nth_error l k = Some s -> nth_error l (S k) = Some t -> continuous s t = true.
Proof.
  intros A l. unfold iscontinuous. rewrite forallb_forall. split.
  - intros H k s t H1 H2. apply (H (s, t)). eapply nth_error_In. apply pairs_nth. eauto.
  - intros H [s t] I. apply In_nth_error in I as [k I]. apply pairs_nth in I as [I1 I2]. eauto.
Qed.

(** * C25 *)
(*@ C25_close *)
(** C25: closedness, and the effect of close() and closed_copy on a polygon line with first
    segment s and last segment [last l s]. *)
Lemma close_spec : forall (s : seg RA) (l : list (seg RA)),
  let p := s :: l in
  let a := si s in let b := sj (last l s) in
  isclosed p = Ok (iscontinuous p && pt_eqb a b) /\
  isopen p = Ok (negb (iscontinuous p && pt_eqb a b)) /\
  (isclosed p = Ok true -> close p = Ok p) /\
  (isclosed p = Ok false -> close p = Ok (p ++ [LineSegment b a])) /\
  closed_copy p = close p /\
  (iscontinuous p = true -> forall p', close p = Ok p' -> isclosed p' = Ok true /\ close p' = Ok p').
Proof.
  intros s l p a b.
  assert (isclosed p = Ok (iscontinuous p && pt_eqb a b)) as C.
  { unfold isclosed. destruct (iscontinuous p); reflexivity. }
  assert (isopen p = Ok (negb (iscontinuous p && pt_eqb a b))) as O by (unfold isopen; rewrite C; reflexivity).
  assert (isclosed p = Ok true -> close p = Ok p) as C1.
  { intros H. unfold close. rewrite O. rewrite C in H. injection H as ->. reflexivity. }
  assert (isclosed p = Ok false -> close p = Ok (p ++ [LineSegment b a])) as C2.
  { intros H. unfold close. rewrite O. rewrite C in H. injection H as ->. reflexivity. }
  assert (forall q, isclosed q = Ok true -> close q = Ok q) as C3.
  { intros q H. unfold close, isopen. rewrite H. reflexivity. }
  assert (iscontinuous p = true -> isclosed (p ++ [LineSegment b a]) = Ok true) as C4.
  { intros H. unfold isclosed. pose proof (iscontinuous_app1 _ l s (LineSegment b a)) as Q.
    fold p in Q. rewrite Q, H, continuous_same by reflexivity. simpl.
    unfold last_point, last_segment. simpl. rewrite last_last. simpl. rewrite pt_eqb_refl. reflexivity. }
  repeat split; auto.
  - unfold closed_copy. destruct (iscontinuous p && pt_eqb a b) eqn:E; rewrite C; simpl; auto.
    symmetry. apply C1. exact C.
  - destruct (iscontinuous p && pt_eqb a b) eqn:E.
    + rewrite (C1 C) in H0. injection H0 as <-. exact C.
    + rewrite (C2 C) in H0. injection H0 as <-.
      exact (C4 H).
  - apply C3. destruct (iscontinuous p && pt_eqb a b) eqn:E.
    + rewrite (C1 C) in H0. injection H0 as <-. exact C.
    + rewrite (C2 C) in H0. injection H0 as <-.
      exact (C4 H).
Qed.

(*@ C25_discontinuous_refuted *)
(** C25, finding: a discontinuous line can never be closed; every call of close() appends one
    more segment.  On a polygon without segments even the question fails. *)
Lemma close_discontinuous : forall (A : Arith) (s : seg A) (l : list (seg A)),
  iscontinuous (s :: l) = false ->
  (exists c, close (s :: l) = Ok ((s :: l) ++ [c]) /\ isclosed ((s :: l) ++ [c]) = Ok false /\
             iscontinuous ((s :: l) ++ [c]) = false) /\
  @isclosed A [] = Err IndexError.
Proof.
  intros A s l H. split; [|reflexivity].
  exists (LineSegment (sj (last l s)) (si s)).
  assert (iscontinuous ((s :: l) ++ [LineSegment (sj (last l s)) (si s)]) = false) as D
    by (rewrite iscontinuous_app1, H; reflexivity).
  repeat split; auto.
  - unfold close, isopen, isclosed. rewrite H. reflexivity.
  - unfold isclosed. rewrite D. reflexivity.
Qed.

(*@ C33_append *)
(** C33: appending a Point at either end. *)
Lemma append_spec : forall (s : seg RA) (l : list (seg RA)) (p : pt RA),
  (exists c, append_point_at_end (s :: l) p = Ok ((s :: l) ++ [c]) /\
     si c = sj (last l s) /\ sj c = p /\ last_point ((s :: l) ++ [c]) = Ok p /\
     iscontinuous ((s :: l) ++ [c]) = iscontinuous (s :: l)) /\
  (exists c, append_point_at_beginning (s :: l) p = Ok (c :: s :: l) /\
     si c = p /\ sj c = si s /\ first_point (c :: s :: l) = Ok p /\
     iscontinuous (c :: s :: l) = iscontinuous (s :: l)).
Proof.
  intros s l p. split.
  - exists (LineSegment (sj (last l s)) p). repeat split.
    + unfold last_point, last_segment. simpl. rewrite last_last. reflexivity.
    + rewrite iscontinuous_app1, continuous_same by reflexivity. apply andb_true_r.
  - exists (LineSegment p (si s)). repeat split.
    unfold iscontinuous at 1. simpl. rewrite continuous_same by reflexivity. reflexivity.
Qed.

(*@ C26_discontinuity *)
(** C26: the breaks, any arithmetic: the k-th segment after a segment it does not continue, in
    order; empty exactly for a continuous line. *)
Lemma discontinuity_spec : forall (A : Arith) (l : list (seg A)) (d : seg A),
  discontinuity l =
    map (fun k => nth (S k) l d)
        (filter (fun k => negb (continuous (nth k l d) (nth (S k) l d))) (seq 0 (length l - 1))) /\
  (discontinuity l = [] <->
   forall k s t, nth_error l k = Some s -> nth_error l (S k) = Some t -> continuous s t = true) /\
  (discontinuity l = [] <-> iscontinuous l = true).
Proof.
  intros A l d.
  assert (discontinuity l = [] <-> iscontinuous l = true) as E.
  { unfold discontinuity, iscontinuous. induction (pairs l) as [|[x y] ps IH]; simpl; [tauto|].
    destruct (continuous x y); simpl; [exact IH|]. split; discriminate. }
  split; [|split; [rewrite E; apply iscontinuous_iff|exact E]].
  clear E. unfold discontinuity.
  destruct l as [|x l]; [reflexivity|]. replace (length (x :: l) - 1)%nat with (length l) by (simpl; lia).
  revert x. induction l as [|y l IH]; intros x; [reflexivity|].
  change (pairs (x :: y :: l)) with ((x, y) :: pairs (y :: l)).
  simpl length. rewrite <- cons_seq. rewrite <- seq_shift.
  assert (forall (f : nat -> bool) ks, filter f (map S ks) = map S (filter (fun k => f (S k)) ks)) as F.
  { intros f ks. induction ks as [|k ks IK]; [reflexivity|]. simpl. rewrite IK. destruct (f (S k)); reflexivity. }
  set (g := fun k => negb (continuous (nth k (x :: y :: l) d) (nth (S k) (x :: y :: l) d))).
  change (filter g (0%nat :: map S (seq 0 (length l)))) with
    (if negb (continuous x y) then 0%nat :: filter g (map S (seq 0 (length l))) else filter g (map S (seq 0 (length l)))).
  change (filter (fun '(x0, y0) => negb (continuous x0 y0)) ((x, y) :: pairs (y :: l))) with
    (if negb (continuous x y) then (x, y) :: filter (fun '(x0, y0) => negb (continuous x0 y0)) (pairs (y :: l))
     else filter (fun '(x0, y0) => negb (continuous x0 y0)) (pairs (y :: l))).
  rewrite F. clear F.
  destruct (negb (continuous x y)); rewrite ?map_cons; [f_equal|]; rewrite map_map; apply IH.
Qed.

(** * C43 *)
Lemma separated_eqb : forall l, separated l -> forall p q, In p l -> In q l -> pt_eqb p q = true -> p = q.
Proof. intros l S p q Ip Iq H. apply pt_eqb_iff in H as [H1 H2]. apply S; auto; lra. Qed.

Lemma filter_one_length : forall X (f : X -> bool) (l : list X) p k,
  nth_error l k = Some p -> f p = true ->
  length (filter f l) <> 1%nat <-> exists k' q, k' <> k /\ nth_error l k' = Some q /\ f q = true.
Proof.
  intros X f l p k H F. split.
  - intros N. destruct (filter f l) as [|a [|b r]] eqn:E; try (simpl in N; congruence).
    + assert (In p (filter f l)) as I by (apply filter_In; split; auto; eapply nth_error_In; eauto).
      rewrite E in I. destruct I.
    + clear N. revert k p H F a b r E. induction l as [|x l IH]; intros k p H F a b r E; [destruct k; discriminate|].
      destruct k as [|k].
      * simpl in H. injection H as ->. simpl in E. rewrite F in E. injection E as <- E.
        assert (In b (filter f l)) as I by (rewrite E; simpl; auto).
        apply filter_In in I as [I FB]. apply In_nth_error in I as [k' I].
        exists (S k'), b. repeat split; auto.
      * simpl in H. simpl in E. destruct (f x) eqn:FX.
        -- exists 0%nat, x. repeat split; auto.
        -- destruct (IH k p H F a b r E) as (k' & q & N & I & FQ). exists (S k'), q. repeat split; auto.
  - intros (k' & q & N & I & FQ) L.
    assert (exists l1 l2 x y, f x = true /\ f y = true /\ filter f l = l1 ++ x :: l2 /\ In y (l1 ++ l2)) as D.
    { revert k k' H I N L. clear -F FQ. induction l as [|x l IH]; intros k k' H I N L; [destruct k; discriminate|].
      destruct k as [|k], k' as [|k']; simpl in H, I.
      - congruence.
      - injection H as ->. exists [], (filter f l), p, q. simpl. rewrite F. repeat split; auto.
        apply filter_In. split; auto. eapply nth_error_In; eauto.
      - injection I as ->. exists [], (filter f l), q, p. simpl. rewrite FQ. repeat split; auto.
        apply filter_In. split; auto. eapply nth_error_In; eauto.
      - simpl in L. simpl. destruct (f x) eqn:FX.
        + simpl in L. injection L as L. destruct (filter f l) eqn:E; [|discriminate].
          assert (In p (filter f l)) as J by (apply filter_In; split; auto; eapply nth_error_In; eauto).
          rewrite E in J. destruct J.
        + apply (IH k k'); auto. }
    destruct D as (l1 & l2 & x & y & _ & _ & E & J). rewrite E in L. rewrite app_length in L. simpl in L.
    assert (length (l1 ++ l2) = 0)%nat as Z by (rewrite app_length; lia).
    apply length_zero_iff_nil in Z. rewrite Z in J. destruct J.
Qed.

Lemma all_points_In : forall (A : Arith) (l : list (seg A)) p, In p (all_points l) <-> In p (flat_map ij l).
Proof.
  intros. unfold all_points. split; apply Permutation_in; [|apply Permutation_sym]; apply sort_by_perm.
Qed.

Lemma filter_perm_length : forall X (f : X -> bool) l l', Permutation l l' -> length (filter f l) = length (filter f l').
Proof.
  intros X f l l' P. induction P; simpl; auto; try congruence.
  - destruct (f x); simpl; auto.
  - destruct (f x), (f y); reflexivity.
Qed.

(*@ C43_remove_outliers *)
(** C43: the result is a sub-list; for end points that are identical or further apart than the
    tolerance a segment is kept exactly if each of its two end points occurs at another end too. *)
Lemma remove_outliers_spec : forall l : list (seg RA),
  (exists f, remove_outlier_segments l = filter f l) /\
  (separated (flat_map ij l) ->
   forall s, In s (remove_outlier_segments l) <->
     In s l /\ forall p, In p (ij s) -> occurs_twice p (flat_map ij l)).
Proof.
  intros l. split; [eexists; reflexivity|]. intros SEP0 s. pose proof (separated_eqb _ SEP0) as SEP. clear SEP0.
  unfold remove_outlier_segments. rewrite filter_In, negb_true_iff.
  set (ap := all_points l).
  assert (In s l -> forall p, In p (ij s) ->
    (existsb (fun q => pt_eqb q p) (filter (fun x => Nat.eqb (length (filter (fun y => pt_eqb y x) ap)) 1) ap) = false
     <-> occurs_twice p (flat_map ij l))) as K.
  { intros Is p Ip.
    assert (In p (flat_map ij l)) as IP by (apply in_flat_map; eauto).
    assert (existsb (fun q => pt_eqb q p) (filter (fun x => Nat.eqb (length (filter (fun y => pt_eqb y x) ap)) 1) ap) = true
      <-> length (filter (fun y => pt_eqb y p) (flat_map ij l)) = 1%nat) as E.
    { rewrite existsb_exists. split.
      - intros (q & Iq & Q). apply filter_In in Iq as [Iq L].
        assert (q = p) as -> by (apply SEP; auto; apply all_points_In; exact Iq).
        apply Nat.eqb_eq in L. rewrite <- L. apply filter_perm_length. apply Permutation_sym, sort_by_perm.
      - intros L. exists p. split; [|apply pt_eqb_refl]. apply filter_In. split; [apply all_points_In; exact IP|].
        apply Nat.eqb_eq. rewrite <- L. apply filter_perm_length. apply sort_by_perm. }
    rewrite <- not_true_iff_false, E.
    destruct (In_nth_error _ _ IP) as [k Hk].
    rewrite (filter_one_length _ (fun y => pt_eqb y p) (flat_map ij l) p k Hk (pt_eqb_refl p)).
    split.
    - intros (k' & q & N & Hq & Q). assert (q = p) as -> by (apply SEP; auto; eapply nth_error_In; eauto).
      exists k, k'. auto.
    - intros (a & b & N & Ha & Hb).
      destruct (Nat.eq_dec a k) as [->|NE].
      + exists b, p. repeat split; auto. apply pt_eqb_refl.
      + exists a, p. repeat split; auto. apply pt_eqb_refl. }
  split.
  - intros [Is H]. split; auto. intros p Ip. apply K; auto.
    simpl in H. apply orb_false_iff in H as [H1 H2]. rewrite orb_false_r in H2.
    destruct Ip as [<-|[<-|[]]]; assumption.
  - intros [Is H]. split; auto. simpl.
    rewrite orb_false_r. apply orb_false_iff. split; apply K; simpl; auto; apply H; simpl; auto.
Qed.


Definition cnt (p : pt RA) (l : list (pt RA)) : nat := length (filter (fun q => pt_sameb q p) l).

Lemma cnt_perm : forall p l l', Permutation l l' -> cnt p l = cnt p l'.
Proof. intros. apply filter_perm_length; auto. Qed.
Lemma cnt_app : forall p l l', cnt p (l ++ l') = (cnt p l + cnt p l')%nat.
Proof. intros. unfold cnt. rewrite filter_app, app_length. reflexivity. Qed.
Lemma cnt_In : forall p l, In p l -> (1 <= cnt p l)%nat.
Proof.
  intros p l I. unfold cnt. assert (In p (filter (fun q => pt_sameb q p) l)) as J by (apply filter_In; split; auto; apply pt_sameb_refl).
  destruct (filter _ l); [destruct J|simpl; lia].
Qed.
Lemma cnt_twice : forall p l, (2 <= cnt p l)%nat -> occurs_twice p l.
Proof.
  intros p l H. unfold cnt in H.
  assert (exists q, In q l /\ pt_sameb q p = true) as (q & I & Q).
  { destruct (filter (fun q => pt_sameb q p) l) as [|q r] eqn:E; simpl in H; [lia|].
    exists q. apply filter_In with (f := fun q => pt_sameb q p). rewrite E. simpl; auto. }
  apply pt_sameb_iff in Q. subst q. apply In_nth_error in I as [k I].
  destruct (filter_one_length _ (fun q => pt_sameb q p) l p k I (pt_sameb_refl p)) as [F _].
  destruct F as (k' & q & N & J & Q); [lia|]. apply pt_sameb_iff in Q. subst q. exists k, k'. auto.
Qed.

Lemma flat_map_perm : forall X Y (f : X -> list Y) l l', Permutation l l' -> Permutation (flat_map f l) (flat_map f l').
Proof.
  intros X Y f l l' P. induction P; simpl; auto.
  - apply Permutation_app_head; auto.
  - rewrite !app_assoc. apply Permutation_app_tail, Permutation_app_comm.
  - eapply perm_trans; eauto.
Qed.

Lemma combine_flat_perm : forall X (a b : list X), length a = length b ->
  Permutation (flat_map (fun e => [fst e; snd e]) (combine a b)) (a ++ b).
Proof.
  induction a as [|x a IH]; intros [|y b] L; try discriminate; simpl; auto.
  apply perm_skip. eapply perm_trans; [apply perm_skip, IH; injection L; auto|].
  apply Permutation_middle.
Qed.

Lemma cycle_edges_perm : forall X (vs : list X),
  Permutation (flat_map (fun e => [fst e; snd e]) (cycle_edges vs)) (vs ++ vs).
Proof.
  intros X [|v r]; simpl; auto.
  eapply perm_trans; [apply (combine_flat_perm _ (v :: r) (r ++ [v])); rewrite app_length; simpl; lia|].
  change (v :: r ++ v :: r) with ((v :: r) ++ v :: r). apply Permutation_app_head.
  apply Permutation_sym. change (v :: r) with ([v] ++ r). apply Permutation_app_comm.
Qed.

Lemma joins_perm : forall E (cyc : list (seg RA)), Forall2 joins E cyc ->
  Permutation (flat_map (fun e => [fst e; snd e]) E) (flat_map ij cyc).
Proof.
  intros E cyc F. induction F as [|e s E cyc J F IH]; simpl; auto.
  destruct J as [[<- <-]|[<- <-]]; [do 2 apply perm_skip; auto|].
  eapply perm_trans; [apply perm_swap|]. do 2 apply perm_skip; auto.
Qed.

(*@ C43_cycles_kept *)
(** C43: the segments of a closed cycle - in any order, any directions, among any others - are kept. *)
Lemma cycles_kept : forall (l cyc rest : list (seg RA)) (vs : list (pt RA)),
  Permutation l (cyc ++ rest) -> Forall2 joins (cycle_edges vs) cyc -> separated (flat_map ij l) ->
  forall s, In s cyc -> In s (remove_outlier_segments l).
Proof.
  intros l cyc rest vs P J SEP s Is.
  apply (remove_outliers_spec l); auto. split.
  - apply Permutation_sym in P. eapply Permutation_in; [exact P|]. apply in_or_app; auto.
  - intros p Ip. apply cnt_twice.
    rewrite (cnt_perm p _ _ (flat_map_perm _ _ _ _ _ P)), flat_map_app, cnt_app.
    rewrite <- (cnt_perm p _ _ (joins_perm _ _ J)), (cnt_perm p _ _ (cycle_edges_perm _ vs)), cnt_app.
    assert (In p vs) as IV.
    { assert (In p (vs ++ vs)) as K; [|apply in_app_or in K; tauto].
      eapply Permutation_in; [apply cycle_edges_perm|].
      eapply Permutation_in; [apply Permutation_sym, joins_perm; exact J|].
      apply in_flat_map. eauto. }
    pose proof (cnt_In _ _ IV). lia.
Qed.

(*@ C43_chain_refuted *)
(** C43, finding (binary64): one pass leaves new outliers on a dangling chain of two segments. *)
Lemma chain_refuted : forall L : Libm, exists l : list (seg (FA L)),
  length (remove_outlier_segments l) = 4%nat /\
  length (remove_outlier_segments (remove_outlier_segments l)) = 3%nat.
Proof.
  intros L. exists (cycle_poly (zpts (FA L) [(0,0);(10,0);(5,5)]%Z)
    ++ map (fun '(p, q) => LineSegment p q) (pairs (zpts (FA L) [(5,5);(5,9);(5,12)]%Z))).
  split; vm_compute; reflexivity.
Qed.

(** * C36 *)
(*@ C36_on_boundary_refuted *)
(** C36, finding: with the same draws for both inside tests is_on_boundary is never True; and it is
    False for every vertex and for every point whatever the draws unless the two inside tests
    disagree (any arithmetic). *)
Lemma on_boundary_spec : forall (A : Arith) (l : list (seg A)) (p : pt A) (d d1 d2 : nat -> num * num) (fuel : nat),
  (forall r, is_on_boundary l p d d fuel = Ok (Some r) -> r = false) /\
  (existsb (fun q => pt_eqb q p) (point_set l) = true -> is_on_boundary l p d1 d2 fuel = Ok (Some false)) /\
  (is_on_boundary l p d1 d2 fuel = Ok (Some true) ->
   poly_is_internal_point l p d1 fuel = Ok (Some false) /\ poly_is_internal_point l p d2 fuel = Ok (Some true)).
Proof.
  intros A l p d d1 d2 fuel. repeat split.
  - intros r. unfold is_on_boundary, poly_is_external_point.
    destruct (poly_is_internal_point l p d fuel) as [[[|]|]|e]; simpl; congruence.
  - intros H. unfold is_on_boundary, poly_is_external_point, poly_is_internal_point. rewrite H. reflexivity.
  - revert H. unfold is_on_boundary, poly_is_external_point.
    destruct (poly_is_internal_point l p d1 fuel) as [[[|]|]|e]; simpl; congruence.
  - revert H. unfold is_on_boundary, poly_is_external_point.
    destruct (poly_is_internal_point l p d1 fuel) as [[[|]|]|e]; simpl; try congruence.
    destruct (poly_is_internal_point l p d2 fuel) as [[[|]|]|e]; simpl; congruence.
Qed.

(** * C40 *)
(*@ C40_polygon_from_nodes *)
(** C40: one segment per consecutive node pair, through the rounded nodes. *)
Lemma from_nodes_spec : forall (A : Arith) (nodes : list (num * num)),
  length (polygon_from_nodes nodes false) = (length nodes - 1)%nat /\
  (forall k a b, nth_error nodes k = Some a -> nth_error nodes (S k) = Some b ->
     nth_error (polygon_from_nodes nodes false) k =
       Some (LineSegment (Point_new (fst a) (snd a)) (Point_new (fst b) (snd b)))).
Proof.
  intros A nodes. unfold polygon_from_nodes. split.
  - rewrite map_length, pairs_length, map_length. reflexivity.
  - intros k [a1 a2] [b1 b2] Ha Hb. rewrite nth_error_map.
    assert (nth_error (pairs (map (fun '(x, y) => Point_new x y) nodes)) k = Some (Point_new a1 a2, Point_new b1 b2)) as E.
    { apply pairs_nth. rewrite !nth_error_map, Ha, Hb. auto. }
    rewrite E. reflexivity.
Qed.

(*@ C40_cw *)
(** C40: cw=True visits the first node, then the others backwards; doing it twice is the identity. *)
Lemma cw_nodes_spec : forall (A : Arith) (n : num * num) (r : list (num * num)),
  polygon_from_nodes (n :: r) true = polygon_from_nodes (n :: rev r) false /\
  polygon_from_nodes (n :: rev r) true = polygon_from_nodes (n :: r) false.
Proof.
  intros A n r.
  assert (forall r, @cw_nodes (num * num) (n :: r) = n :: rev r) as E.
  { intros r'. unfold cw_nodes. simpl. rewrite removelast_last. reflexivity. }
  unfold polygon_from_nodes. rewrite !E, rev_involutive. auto.
Qed.

(** * C44 *)
(*@ C44_add *)
(** C44: add succeeds only for valid operands not all closed; the result is valid and has the
    segments of all operands in order, and the first operand has become equal to the result. *)
Lemma add_spec : forall (A : Arith) (l : list (seg A)) (os : list (list (seg A))) l' sum,
  poly_add l os = Ok (l', sum) ->
  sum = l ++ concat os /\ l' = sum /\ poly_isvalid sum = Ok true /\ poly_isvalid l = Ok true /\
  (forall o, In o os -> poly_isvalid o = Ok true) /\
  (isclosed l = Ok false \/ exists o, In o os /\ isclosed o = Ok false).
Proof.
  intros A l os l' sum H. unfold poly_add in H.
  destruct (poly_isvalid l) as [[|]|] eqn:V; simpl in H; try discriminate.
  destruct (mapM poly_isvalid os) as [vs|] eqn:VS; simpl in H; try discriminate.
  destruct (forallb (fun b => b) vs) eqn:FV; simpl in H; try discriminate.
  destruct (isclosed l) as [c|] eqn:C; simpl in H; try discriminate.
  destruct (if c then mapM isclosed os else Ok []) as [cs|] eqn:CS; simpl in H; try discriminate.
  destruct (c && forallb (fun b => b) cs) eqn:FC; simpl in H; try discriminate.
  destruct (poly_isvalid (l ++ concat os)) as [[|]|] eqn:V2; simpl in H; try discriminate.
  injection H as <- <-. repeat split; auto.
  - clear -VS FV. revert vs VS FV. induction os as [|o os IH]; intros vs VS FV o' [].
    + subst o'. simpl in VS. destruct (poly_isvalid o) as [b|]; [|discriminate].
      simpl in VS. destruct (mapM poly_isvalid os); [|discriminate]. injection VS as <-.
      simpl in FV. apply andb_true_iff in FV as [-> _]. reflexivity.
    + simpl in VS. destruct (poly_isvalid o) as [b|]; [|discriminate].
      simpl in VS. destruct (mapM poly_isvalid os); [|discriminate]. injection VS as <-.
      simpl in FV. apply andb_true_iff in FV as [_ FV]. eapply IH; eauto.
  - destruct c; auto. right. simpl in FC. clear -CS FC.
    revert cs CS FC. induction os as [|o os IH]; intros cs CS FC; simpl in CS.
    + injection CS as <-. discriminate.
    + destruct (isclosed o) as [b|] eqn:E; [|discriminate]. simpl in CS.
      destruct (mapM isclosed os) as [bs|] eqn:E2; [|discriminate]. injection CS as <-. simpl in FC.
      destruct b; [|exists o; simpl; auto].
      destruct (IH bs eq_refl FC) as (o' & I & H). exists o'. simpl. auto.
Qed.

(** * C60 *)
(*@ C60_midpoint_refuted *)
(** C60, finding: LineSegment.midpoint is the point at one third of the segment, so it is halfway
    only for null segments; it changes when the segment is reversed. *)
Lemma midpoint_third : forall s : seg RA,
  seg_midpoint s = (px (along (si s) (sj s) (1/3)), py (along (si s) (sj s) (1/3))) /\
  (seg_midpoint s = (px (along (si s) (sj s) (1/2)), py (along (si s) (sj s) (1/2))) <-> si s = sj s) /\
  (seg_midpoint (seg_reverse s) = seg_midpoint s <-> si s = sj s).
Proof.
  intros s. assert (seg_midpoint s = (px (along (si s) (sj s) (1/3)), py (along (si s) (sj s) (1/3)))) as E.
  { unfold seg_midpoint, along, n2. simpl. apply f_equal2; rfield. }
  split; auto. split.
  - rewrite E. unfold along. simpl. split.
    + intros H. injection H as H1 H2. apply pt_ext; simpl in *; lra.
    + intros ->. apply f_equal2; rring.
  - rewrite E. unfold seg_midpoint, seg_reverse, along, n2. simpl. split.
    + intros H. injection H as H1 H2. apply pt_ext; simpl in *; lra.
    + intros ->. apply f_equal2; rfield.
Qed.
