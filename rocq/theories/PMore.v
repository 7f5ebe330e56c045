(** Further queries on segments and polygons: crossings at end points, neighbours, loose comparison. *)
From Coq Require Import Reals ZArith Lra Lia Bool List Psatz Permutation.
From Verif Require Import Base Arith ArithR MPoint MLine MPoly Spec PPoint PLine.
Import ListNotations.
Local Open Scope R_scope.
#[local] Existing Instance RA.

(** * C62 *)

(*@ C62_intersection_on_endpoint *)
(** C62: False for parallel segments; otherwise True exactly if the segments touch or the common point
    of the two lines, rounded to 8 decimals, is == to one of the four end points.  Symmetric,
    insensitive to direction, never an exception. *)
Lemma ioe_spec : forall s t : seg RA,
  (is_parallel s t = true -> intersection_on_endpoint s t = Ok false) /\
  (is_parallel s t = false -> exists q : pt RA,
     (forall q', on_line (si s) (sj s) q' /\ on_line (si t) (sj t) q' <-> q' = q) /\
     (intersection_on_endpoint s t = Ok true <->
        touch s t = true \/
        exists e, In e [si s; sj s; si t; sj t] /\
          Rabs (Rround8 (px q) - px e) < 1/10^5 /\ Rabs (Rround8 (py q) - py e) < 1/10^5)) /\
  intersection_on_endpoint s t = intersection_on_endpoint t s /\
  intersection_on_endpoint (seg_reverse s) t = intersection_on_endpoint s t /\
  (exists b, intersection_on_endpoint s t = Ok b).
Proof.
  intros s t. destruct (touch_spec s t) as (T1 & TS & _).
  assert (touch (seg_reverse s) t = touch s t) as TR.
  { apply eq_true_iff_eq. rewrite !(proj1 (touch_spec _ _)). simpl. tauto. }
  destruct (intersection_symmetric s t) as (I1 & I2 & _).
  unfold intersection_on_endpoint. rewrite TR, I2, <- TS, <- I1.
  split; [|split; [|split; [|split]]].
  - intros P. apply (proj1 (intersection_point_spec s t)) in P. rewrite P. reflexivity.
  - intros P. destruct (proj2 (intersection_point_spec s t) P) as (q & Q & A & B & U). exists q. split.
    { intros q'. split; [intros [X Y]; auto | intros ->; auto]. }
    rewrite Q. cbn [bind]. destruct (touch s t); [tauto|].
    assert (forall e, pt_eqb (Point_new (px q) (py q)) e = true <->
       Rabs (Rround8 (px q) - px e) < 1/10^5 /\ Rabs (Rround8 (py q) - py e) < 1/10^5) as EQ.
    { intros e. rewrite pt_eqb_iff. unfold Point_new; ra. cbn [px py]. replace (1/10^5) with (1/100000) by (simpl; lra). reflexivity. }
    split.
    + intros H. right. injection H as H. change (existsb (fun x => pt_eqb (Point_new (px q) (py q)) x) (ij s ++ ij t) = true) in H. apply existsb_exists in H. destruct H as (e & E & H). exists e. split; [exact E|]. apply EQ; auto.
    + intros [H|(e & E & H)]; [discriminate|]. f_equal. apply existsb_exists. exists e. split; [exact E|apply EQ; auto].
  - destruct (intersection_point s t) as [[p|]|]; simpl; auto. destruct (touch s t); auto. f_equal. rewrite !orb_false_r.
    destruct (pt_eqb p (si s)), (pt_eqb p (sj s)), (pt_eqb p (si t)), (pt_eqb p (sj t)); reflexivity.
  - destruct (intersection_point s t) as [[p|]|]; simpl; auto. destruct (touch s t); auto. f_equal.
    destruct (pt_eqb p (si s)), (pt_eqb p (sj s)); reflexivity.
  - destruct (is_parallel s t) eqn:P.
    + apply (proj1 (intersection_point_spec s t)) in P. rewrite P. simpl. eauto.
    + apply is_parallel_false in P. rewrite intersection_point_R by auto. simpl. destruct (touch s t); eauto.
Qed.

(*@ C62_disjoint_refuted *)
(** C62, finding: the answer can be True for segments without a common point. *)
Lemma ioe_disjoint_refuted : exists s t : seg RA,
  lattice 9 (si s) /\ lattice 9 (sj s) /\ lattice 9 (si t) /\ lattice 9 (sj t) /\
  intersection_on_endpoint s t = Ok true /\ forall q, ~ shared s t q.
Proof.
  exists (LineSegment (@mkpt RA 0 0) (@mkpt RA 1 0)), (LineSegment (@mkpt RA 0 5) (@mkpt RA 0 7)).
  assert (forall a b, (Z.abs a <= 9)%Z -> (Z.abs b <= 9)%Z -> lattice 9 (@mkpt RA (IZR a) (IZR b))) as L.
  { intros a b H1 H2. exists a, b. auto. }
  split; [apply L; lia|]. split; [apply L; lia|]. split; [apply L; lia|]. split; [apply L; lia|].
  assert (C : crossproduct (LineSegment (@mkpt RA 0 0) (@mkpt RA 1 0)) (LineSegment (@mkpt RA 0 5) (@mkpt RA 0 7)) = 2).
  { rewrite crossproduct_R; simpl; lra. }
  split.
  - destruct (ioe_spec (LineSegment (@mkpt RA 0 0) (@mkpt RA 1 0)) (LineSegment (@mkpt RA 0 5) (@mkpt RA 0 7))) as (_ & H & _).
    destruct H as (q & Q & H); [apply is_parallel_false; rewrite C; lra|].
    apply H. right. exists (@mkpt RA 0 0). split; [left; reflexivity|].
    assert (@mkpt RA 0 0 = q) as <-.
    { apply Q. split; [exists 0 | exists (-5/2)]; unfold along; simpl; f_equal; lra. }
    cbn [px py]. rewrite Rround8_id by (exists 0%Z; field). rewrite Rminus_0_r, Rabs_R0. simpl; lra.
  - intros q [(t & T & ->) (u & U & H)]. unfold along in H; simpl in H. injection H as H1 H2. lra.
Qed.

(** * C63 *)

Lemma neighbour_perm_aux : forall (l : list (seg RA)) p,
  find_segment_by_point l p WBoth = filter (fun s => existsb (pt_eqb p) (ij s)) l.
Proof.
  intros l p. unfold find_segment_by_point. induction l as [|s l IH]; [reflexivity|].
  cbn [filter]. destruct (existsb (pt_eqb p) (ij s)) eqn:E; [|exact IH]. cbn [filter]. rewrite E. f_equal. exact IH.
Qed.

(*@ C63_find_segment_by_point *)
(** C63: the segments that start in p / end in p / have p as an end, in the order of the polygon, up to
    the tolerance of ==. *)
Lemma find_segment_spec : forall (A : Arith) (l : list (seg A)) (p : pt A),
  find_segment_by_point l p WStart = filter (fun s => pt_eqb p (si s)) l /\
  find_segment_by_point l p WEnd = filter (fun s => pt_eqb p (sj s)) l /\
  find_segment_by_point l p WBoth = filter (fun s => pt_eqb p (si s) || pt_eqb p (sj s)) l.
Proof.
  intros A l p. unfold find_segment_by_point.
  assert (FF : forall f g : seg A -> bool, (forall s, g s = true -> f s = true) -> filter g (filter f l) = filter g l).
  { intros f g H. induction l as [|s l' IH]; [reflexivity|]. cbn [filter]. destruct (f s) eqn:E; cbn [filter]; rewrite IH; auto.
    destruct (g s) eqn:G; auto. apply H in G. congruence. }
  repeat split; rewrite FF.
  - reflexivity.
  - intros s H. cbn. rewrite H. reflexivity.
  - reflexivity.
  - intros s H. cbn. rewrite H, orb_true_r. reflexivity.
  - apply filter_ext. intros s. cbn. rewrite orb_false_r. reflexivity.
  - intros s H. cbn in *. rewrite orb_false_r in *. exact H.
Qed.

(*@ C63_neighbour *)
(** C63: on a polygon whose points are identical or separated and whose segments are not null, the
    neighbours of p are exactly the other ends of the segments at p, one per segment. *)
Lemma neighbour_spec : forall (l : list (seg RA)) (p : pt RA),
  separated (p :: flat_map ij l) -> (forall s, In s l -> si s <> sj s) ->
  (forall q, In q (neighbour l p) <-> exists s, In s l /\ joins (p, q) s) /\
  length (neighbour l p) = length (find_segment_by_point l p WBoth).
Proof.
  intros l p SEP NN.
  assert (EQ : forall s q, In s l -> In q (ij s) -> pt_eqb p q = true <-> q = p).
  { intros s q Hs Hq. rewrite pt_eqb_iff. split.
    - intros [H1 H2]. symmetry. apply SEP; [left; reflexivity | right; apply in_flat_map; eauto | |]; simpl; lra.
    - intros ->. rewrite !Rminus_eq_0, Rabs_R0. lra. }
  unfold neighbour. rewrite neighbour_perm_aux.
  set (ss := filter _ l).
  assert (SS : forall s, In s ss <-> In s l /\ (si s = p \/ sj s = p)).
  { intros s. unfold ss. rewrite filter_In. cbn. rewrite orb_false_r, orb_true_iff. split.
    - intros [H [E|E]]; (split; [exact H|]); apply (EQ s) in E; cbn; auto.
    - intros [H [E|E]]; (split; [exact H|]); [left|right]; apply (EQ s); cbn; auto. }
  assert (NE : forall s q, In s l -> In q (ij s) -> pt_neb q p = true <-> q <> p).
  { intros s q Hs Hq. unfold pt_neb. rewrite negb_true_iff, pt_eqb_sym. rewrite <- (EQ s q Hs Hq). destruct (pt_eqb p q); intuition congruence. }
  split.
  - intros q. rewrite in_app_iff, !filter_In, !in_map_iff. split.
    + intros [[(s & <- & Hs) N]|[(s & <- & Hs) N]]; apply SS in Hs; destruct Hs as [Hs E]; exists s; (split; [exact Hs|]);
      apply (NE s) in N; cbn; auto; unfold joins; cbn; intuition.
    + intros (s & Hs & [[E1 E2]|[E1 E2]]); cbn in E1, E2.
      * right. split; [exists s; split; auto; apply SS; auto|]. apply (NE s); cbn; auto. rewrite <- E1, <- E2. apply not_eq_sym, NN, Hs.
      * left. split; [exists s; split; auto; apply SS; auto|]. apply (NE s); cbn; auto. rewrite <- E1, <- E2. apply NN, Hs.
  - rewrite app_length.
    assert (G : forall ss', (forall s, In s ss' -> In s ss) ->
      (length (filter (fun x => pt_neb x p) (map si ss')) + length (filter (fun x => pt_neb x p) (map sj ss')) = length ss')%nat).
    { induction ss' as [|s ss' IH]; intros H; [reflexivity|].
      specialize (IH (fun x Hx => H x (or_intror Hx))). pose proof (H s (or_introl eq_refl)) as Hs. apply SS in Hs. destruct Hs as [Hl E].
      cbn [map filter]. pose proof (NE s (si s) Hl (or_introl eq_refl)) as N1. pose proof (NE s (sj s) Hl (or_intror (or_introl eq_refl))) as N2. pose proof (NN s Hl) as N3.
      destruct (pt_neb (si s) p), (pt_neb (sj s) p); cbn [length]; try lia; exfalso.
      - destruct E as [E|E]; [apply (proj1 N1 eq_refl E) | apply (proj1 N2 eq_refl E)].
      - destruct E as [E|E]; [assert (sj s <> p) as F by congruence; apply N2 in F | assert (si s <> p) as F by congruence; apply N1 in F]; discriminate. }
    apply G; auto.
Qed.

(** * C64: loose comparison of polygons *)

(*@ C64_loose_equal *)
(** C64: polygons of different length are not loosely equal; otherwise, for plain segments: every
    segment of the first polygon is a segment of the second one, in either direction.  Asking for the
    direction raises TypeError whenever the lengths agree. *)
Lemma loose_equal_spec : forall a b : list (seg RA),
  (length a <> length b -> forall d, poly_loose_equal a b d = Ok false) /\
  (length a = length b -> poly_loose_equal a b true = Err TypeError) /\
  (length a = length b -> (forall s, In s a \/ In s b -> sc s = CLineSegment) ->
   exists r, poly_loose_equal a b false = Ok r /\
     (r = true <-> forall s, In s a -> exists t, In t b /\ (t = s \/ t = seg_reverse s))).
Proof.
  intros a b. unfold poly_loose_equal. split; [|split].
  - intros N d. destruct (Nat.eqb_spec (length a) (length b)); [congruence|reflexivity].
  - intros E. rewrite E, Nat.eqb_refl. reflexivity.
  - intros E CL. rewrite E, Nat.eqb_refl. cbn [negb]. eexists. split; [reflexivity|].
    rewrite forallb_forall.
    assert (K : forall s t, In s a -> In t b -> (existsb (fun z => seg_loose_equal z s) [t; line_reversed t] = true <-> t = s \/ t = seg_reverse s)).
    { intros s t Hs Ht. assert (C1 : sc s = CLineSegment) by auto. assert (C2 : sc t = CLineSegment) by auto.
      cbn. rewrite orb_false_r, orb_true_iff, !loose_equal_iff. destruct s as [c i j], t as [c' i' j']. cbn in *. subst.
      unfold seg_reverse; cbn. split.
      - intros [[_ [[-> ->]|[-> ->]]]|[_ [[-> ->]|[-> ->]]]]; auto.
      - intros [H|H]; injection H as -> ->; left; auto. }
    split.
    + intros H s Hs. specialize (H s Hs). apply existsb_exists in H. destruct H as (t & Ht & H). exists t. split; auto. apply (K s t); auto.
    + intros H s Hs. destruct (H s Hs) as (t & Ht & X). apply existsb_exists. exists t. split; auto. apply (K s t); auto.
Qed.

(*@ C64_loose_equal_asymmetric_refuted *)
(** C64, finding: the relation is not symmetric. *)
Lemma loose_equal_asym_refuted : exists a b : list (seg RA),
  poly_loose_equal a b false = Ok true /\ poly_loose_equal b a false = Ok false.
Proof.
  set (s := LineSegment (@mkpt RA 0 0) (@mkpt RA 1 0)). set (t := LineSegment (@mkpt RA 1 0) (@mkpt RA 1 1)).
  exists [s; s], [s; t].
  assert (CL : forall x, In x [s; s] \/ In x [s; t] -> sc x = CLineSegment) by (cbn; intuition subst; auto).
  split.
  - destruct (proj2 (proj2 (loose_equal_spec [s; s] [s; t])) eq_refl CL) as (r & -> & H). f_equal. apply H.
    intros x [<-|[<-|[]]]; exists s; cbn; auto.
  - destruct (proj2 (proj2 (loose_equal_spec [s; t] [s; s])) eq_refl) as (r & -> & H); [intuition|].
    destruct r; [|reflexivity]. exfalso. destruct (proj1 H eq_refl t) as (x & [<-|[<-|[]]] & [E|E]); cbn; auto;
    unfold s, t, seg_reverse in E; cbn in E; injection E; intros; lra.
Qed.

(*@ C64_loose_subset *)
(** C64: loose_subset compares end points only, by exact coordinates. *)
Lemma loose_subset_spec : forall a b : list (seg RA),
  loose_subset a b = true <-> incl (flat_map ij b) (flat_map ij a).
Proof.
  intros a b. unfold loose_subset. rewrite forallb_forall. unfold incl. split.
  - intros H p Hp. apply (memb_In _ pt_sameb pt_sameb_iff). apply H. apply (dedup_In _ pt_sameb pt_sameb_iff). exact Hp.
  - intros H p Hp. apply (memb_In _ pt_sameb pt_sameb_iff). apply H. apply (proj1 (dedup_In _ pt_sameb pt_sameb_iff _ _) Hp).
Qed.

(** * C65 *)
Lemma nsum_R : forall l : list R, nsum (A := RA) l = fold_right Rplus 0 l.
Proof.
  intros l. unfold nsum, n0. ra.
  assert (G : forall a, fold_left Rplus l a = a + fold_right Rplus 0 l).
  { induction l as [|x l IH]; intros a; cbn; [lra|]. rewrite IH. lra. }
  rewrite G. lra.
Qed.
Lemma sum_perm : forall l l' : list R, Permutation l l' -> fold_right Rplus 0 l = fold_right Rplus 0 l'.
Proof. induction 1; cbn; lra. Qed.
Lemma point_set_spec : forall l : list (seg RA),
  NoDup (point_set l) /\ forall p, In p (point_set l) <-> In p (flat_map ij l).
Proof.
  intros l. unfold point_set, all_points. split.
  - eapply Permutation_NoDup; [apply Permutation_sym, sort_by_perm|]. apply dedup_NoDup, pt_sameb_iff.
  - intros p. set (l1 := sort_by lex_ltb (flat_map ij l)).
    assert (P1 : Permutation l1 (flat_map ij l)) by apply sort_by_perm.
    assert (P2 : Permutation (sort_by lex_ltb (dedup pt_sameb l1)) (dedup pt_sameb l1)) by apply sort_by_perm.
    split; intros H.
    + eapply Permutation_in in H; [|exact P2]. apply (proj1 (dedup_In _ pt_sameb pt_sameb_iff _ _)) in H. eapply Permutation_in; eauto.
    + eapply Permutation_in; [apply Permutation_sym, P2|]. apply (dedup_In _ pt_sameb pt_sameb_iff). eapply Permutation_in; [apply Permutation_sym, P1|auto].
Qed.

(*@ C65_midpoint *)
(** C65: the midpoint is the mean of the distinct vertices vs (rounded), however they are listed; the
    empty polygon raises ZeroDivisionError. *)
Lemma midpoint_spec : forall (l : list (seg RA)) (vs : list (pt RA)),
  NoDup vs -> (forall p, In p vs <-> exists s, In s l /\ (p = si s \/ p = sj s)) ->
  (l = [] -> poly_midpoint l = Err ZeroDivisionError) /\
  (l <> [] -> poly_midpoint l =
     Ok (Point_new (fold_right Rplus 0 (map (fun p : pt RA => px p) vs) / INR (length vs))
                   (fold_right Rplus 0 (map (fun p : pt RA => py p) vs) / INR (length vs)))).
Proof.
  intros l vs ND V. destruct (point_set_spec l) as [N1 P1].
  assert (PE : Permutation (point_set l) vs).
  { apply NoDup_Permutation; auto. intros p. rewrite P1, V, in_flat_map. split.
    - intros (s & Hs & [<-|[<-|[]]]); eauto.
    - intros (s & Hs & [->| ->]); exists s; cbn; auto. }
  unfold poly_midpoint, pdiv. rewrite !nsum_R, (Permutation_length PE).
  rewrite (sum_perm _ _ (Permutation_map (@px RA) PE)), (sum_perm _ _ (Permutation_map (@py RA) PE)).
  unfold n0. ra. rewrite <- INR_IZR_INZ. split.
  - intros ->. assert (vs = []) as ->. { destruct vs as [|v r]; auto. exfalso. destruct (proj1 (V v) (or_introl eq_refl)) as (s & [] & _). }
    cbn. unfold Reqb. destruct (Req_EM_T 0 0); [reflexivity|lra].
  - intros NE. assert (vs <> []). { destruct l as [|s l]; [congruence|]. intros E. assert (In (si s) vs) as X by (apply V; exists s; cbn; auto). rewrite E in X. destruct X. }
    assert (INR (length vs) <> 0). { apply not_0_INR. destruct vs; cbn; congruence. }
    unfold Reqb. destruct (Req_EM_T _ _); [congruence|]. reflexivity.
Qed.

(** * C66 *)
Lemma isclosed_cyclic : forall (A : Arith) (l : list (seg A)), isclosed l = Ok true -> l <> [].
Proof. intros A [|s l] H E; [cbn in H|]; discriminate. Qed.

(*@ C66_next_segment *)
(** C66, any arithmetic: next_segment raises AssertionError unless the polygon is closed; otherwise it
    is the first segment of the list that starts where the given one ends, whether or not it is the
    following one, and Exception if there is none. *)
Lemma next_segment_spec : forall (A : Arith) (l : list (seg A)) (s : seg A),
  (isclosed l = Ok false -> next_segment l s = Err AssertionError) /\
  (isclosed l = Ok true ->
    (forall t, next_segment l s = Ok t <->
       exists a b, l = a ++ t :: b /\ pt_eqb (si t) (sj s) = true /\ forall u, In u a -> pt_eqb (si u) (sj s) = false) /\
    (next_segment l s = Err OtherException <-> forall u, In u l -> pt_eqb (si u) (sj s) = false)).
Proof.
  intros A l s. unfold next_segment. split; intros H; rewrite H; [reflexivity|]. cbn [bind assert_].
  clear H. split.
  - intros t. induction l as [|x l IH]; cbn [filter].
    + split; [discriminate|]. intros (a & b & E & _). destruct a; discriminate.
    + destruct (pt_eqb (si x) (sj s)) eqn:E.
      * split.
        { intros [= ->]. exists [], l. cbn. intuition. }
        { intros (a & b & L & E' & N). destruct a as [|y a]; cbn in L; injection L as -> L; [reflexivity|].
          rewrite (N y (or_introl eq_refl)) in E. discriminate. }
      * rewrite IH. split.
        { intros (a & b & -> & E' & N). exists (x :: a), b. split; [reflexivity|]. split; auto. intros u [<-|Hu]; auto. }
        { intros (a & b & L & E' & N). destruct a as [|y a]; cbn in L; injection L as -> L; [congruence|].
          exists a, b. split; auto. split; auto. intros u Hu. apply N. right; auto. }
  - induction l as [|x l IH]; cbn [filter].
    + split; [intros _ u []|reflexivity].
    + destruct (pt_eqb (si x) (sj s)) eqn:E.
      * split; [discriminate|]. intros H. rewrite (H x (or_introl eq_refl)) in E. discriminate.
      * rewrite IH. split; intros H u; [intros [<-|Hu]; auto | intros Hu; apply H; right; auto].
Qed.
