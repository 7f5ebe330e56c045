(** The even-odd rule and is_internal_point for convex polygons; further facts about is_internal_point. *)
From Coq Require Import Reals ZArith Lra Lia Bool List Psatz Permutation.
From Verif Require Import Base Arith ArithR ArithF MPoint MLine MPoly Spec SpecInside PPoint PLine PShape PPoly PCommon PConvex PInside.
Import ListNotations.
Local Open Scope R_scope.
#[local] Existing Instance RA.

(** * At most one edge goes up and one goes down through a row *)
Lemma row_point : forall (a b : pt RA) (y : R), py a <= y < py b ->
  exists t, 0 <= t < 1 /\ py (along a b t) = y /\
    forall p, py p = y -> orient a b p = (py b - py a) * (px (along a b t) - px p).
Proof.
  intros a b y [H1 H2]. exists ((y - py a) / (py b - py a)).
  assert (E : forall x, x / (py b - py a) * (py b - py a) = x) by (intros; field; lra).
  split; [|split].
  - split; [apply Rmult_le_pos; [lra|left; apply Rinv_0_lt_compat; lra]|].
    apply (Rmult_lt_reg_r (py b - py a)); [lra|]. rewrite E. lra.
  - simpl. rewrite E. lra.
  - intros p <-. unfold orient. simpl.
    replace ((py b - py a) * (px a + (py p - py a) / (py b - py a) * (px b - px a) - px p))
      with ((py b - py a) * (px a - px p) + ((py p - py a) / (py b - py a) * (py b - py a)) * (px b - px a)) by ring.
    rewrite E. ring.
Qed.

Definition lowb (p v : pt RA) : bool := if Rle_lt_dec (py v) (py p) then true else false.
Lemma lowb_true : forall p v, lowb p v = true <-> py v <= py p.
Proof. intros. unfold lowb. destruct (Rle_lt_dec _ _); split; auto; try discriminate; lra. Qed.
Lemma lowb_false : forall p v, lowb p v = false <-> py p < py v.
Proof. intros. unfold lowb. destruct (Rle_lt_dec _ _); split; auto; try discriminate; lra. Qed.
Definition upb (p : pt RA) (e : pt RA * pt RA) : bool := lowb p (fst e) && negb (lowb p (snd e)).
Definition dnb (p : pt RA) (e : pt RA * pt RA) : bool := negb (lowb p (fst e)) && lowb p (snd e).
Lemma upb_true : forall p a b, upb p (a, b) = true <-> py a <= py p < py b.
Proof. intros. unfold upb. simpl. rewrite andb_true_iff, negb_true_iff, lowb_true, lowb_false. tauto. Qed.
Lemma dnb_true : forall p a b, dnb p (a, b) = true <-> py b <= py p < py a.
Proof. intros. unfold dnb. simpl. rewrite andb_true_iff, negb_true_iff, lowb_true, lowb_false. tauto. Qed.

Lemma row_split : forall p a b, right_of_row p a b =
  xorb (upb p (a, b) && Rltb 0 (orient a b p)) (dnb p (a, b) && Rltb (orient a b p) 0).
Proof.
  intros p a b. unfold right_of_row, upb, dnb, lowb. cbn [fst snd]. rewrite !Rltb_dec.
  destruct (Rle_lt_dec (py a) (py p)), (Rle_lt_dec (py b) (py p)); cbn [andb negb]; destruct (Rltb 0 (orient a b p)), (Rltb (orient a b p) 0); reflexivity.
Qed.

Lemma parity_and : forall X (f g : X -> bool) l, parity (map (fun e => f e && g e) l) = parity (map g (filter f l)).
Proof.
  intros X f g l. induction l as [|x l IH]; [reflexivity|].
  change (parity (map (fun e => f e && g e) (x :: l))) with (xorb (f x && g x) (parity (map (fun e => f e && g e) l))).
  rewrite IH. cbn [filter]. destruct (f x); [reflexivity|]. cbn [andb]. apply xorb_false_l.
Qed.

Lemma filter_unique : forall X (f : X -> bool) l, NoDup l ->
  (forall x y, In x l -> In y l -> f x = true -> f y = true -> x = y) -> filter f l = [] \/ exists x, filter f l = [x].
Proof.
  intros X f l N U. destruct (filter f l) as [|x [|y r]] eqn:E; eauto. exfalso.
  assert (In x (filter f l)) as I1 by (rewrite E; simpl; auto). assert (In y (filter f l)) as I2 by (rewrite E; simpl; auto).
  apply filter_In in I1, I2. assert (x = y) by (apply U; tauto). subst.
  pose proof (NoDup_filter f N) as N'. rewrite E in N'. inversion N' as [|? ? K]. apply K. simpl; auto.
Qed.

Lemma fst_unique : forall X Y (E : list (X * Y)) a b b', NoDup (map fst E) -> In (a, b) E -> In (a, b') E -> b = b'.
Proof.
  induction E as [|[x y] E IH]; intros a b b' N I I'; [destruct I|]. inversion N as [|? ? K N']; subst.
  destruct I as [I|I], I' as [I'|I'].
  - congruence.
  - exfalso. injection I as E1 E2. subst. apply K. apply (in_map fst) in I'. exact I'.
  - exfalso. injection I' as E1 E2. subst. apply K. apply (in_map fst) in I. exact I.
  - eapply IH; eauto.
Qed.
Lemma snd_unique : forall X Y (E : list (X * Y)) a a' b, NoDup (map snd E) -> In (a, b) E -> In (a', b) E -> a = a'.
Proof.
  induction E as [|[x y] E IH]; intros a a' b N I I'; [destruct I|]. inversion N as [|? ? K N']; subst.
  destruct I as [I|I], I' as [I'|I'].
  - congruence.
  - exfalso. injection I as E1 E2. subst. apply K. apply (in_map snd) in I'. exact I'.
  - exfalso. injection I' as E1 E2. subst. apply K. apply (in_map snd) in I. exact I.
  - eapply IH; eauto.
Qed.

Definition strictly_convex (vs : list (pt RA)) : Prop :=
  forall a b v, In (a, b) (cycle_edges vs) -> In v vs -> v <> a -> v <> b -> 0 < orient a b v.

Lemma pt_dec : forall a b : pt RA, {a = b} + {a <> b}.
Proof.
  intros a b. destruct (pt_sameb a b) eqn:E; [left; apply pt_sameb_iff; auto|right]. intros F.
  apply pt_sameb_iff in F. congruence.
Qed.

Lemma convex_weak : forall vs a b v, strictly_convex vs -> In (a, b) (cycle_edges vs) -> In v vs -> 0 <= orient a b v.
Proof.
  intros vs a b v S I V. destruct (pt_dec v a) as [->|N]; [right; unfold orient; ring|].
  destruct (pt_dec v b) as [->|N']; [right; unfold orient; ring|]. left. eapply S; eauto.
Qed.
Lemma convex_zero : forall vs a b v, strictly_convex vs -> In (a, b) (cycle_edges vs) -> In v vs -> orient a b v = 0 -> v = a \/ v = b.
Proof.
  intros vs a b v S I V Z. destruct (pt_dec v a) as [|N1]; auto. destruct (pt_dec v b) as [|N2]; auto.
  exfalso. pose proof (S a b v I V N1 N2). lra.
Qed.
Lemma convex_weak_along : forall vs a b c d t, strictly_convex vs -> In (a, b) (cycle_edges vs) -> In (c, d) (cycle_edges vs) ->
  0 <= t <= 1 -> 0 <= orient a b (along c d t).
Proof.
  intros vs a b c d t S I J T. rewrite orient_along. destruct (cycle_edges_In _ _ _ _ J) as [C D].
  pose proof (convex_weak vs a b c S I C). pose proof (convex_weak vs a b d S I D). nra.
Qed.

Lemma one_up : forall vs p, NoDup vs -> strictly_convex vs ->
  forall e e', In e (cycle_edges vs) -> In e' (cycle_edges vs) -> upb p e = true -> upb p e' = true -> e = e'.
Proof.
  intros vs p N S [a b] [c d] I J U V. apply upb_true in U, V.
  destruct (row_point a b (py p) U) as (t & T & RT & OT). destruct (row_point c d (py p) V) as (u & W & RU & OU).
  pose proof (convex_weak_along vs a b c d u S I J ltac:(lra)) as K1.
  pose proof (convex_weak_along vs c d a b t S J I ltac:(lra)) as K2.
  rewrite (OT _ RU) in K1. rewrite (OU _ RT) in K2.
  assert (E : px (along a b t) = px (along c d u)) by nra.
  assert (Z : orient c d (along a b t) = 0) by (rewrite (OU _ RT), E; ring).
  rewrite orient_along in Z. destruct (cycle_edges_In _ _ _ _ I) as [A B].
  pose proof (convex_weak vs c d a S J A). pose proof (convex_weak vs c d b S J B).
  assert (Z' : orient c d a = 0) by nra. destruct (convex_zero vs c d a S J A Z') as [->| ->].
  - f_equal. destruct (cycle_fst_snd _ vs) as [F _]. eapply fst_unique; eauto. rewrite F; auto.
  - lra.
Qed.
Lemma orient_flip : forall a b c : pt RA, orient b a c = - orient a b c.
Proof. intros. unfold orient. ring. Qed.
Lemma along_flip : forall a b t, along b a t = along a b (1 - t).
Proof. intros. unfold along. apply pt_ext; simpl; rring. Qed.
Lemma one_down : forall vs p, NoDup vs -> strictly_convex vs ->
  forall e e', In e (cycle_edges vs) -> In e' (cycle_edges vs) -> dnb p e = true -> dnb p e' = true -> e = e'.
Proof.
  intros vs p N S [a b] [c d] I J U V. apply dnb_true in U, V.
  destruct (row_point b a (py p) U) as (t & T & RT & OT). destruct (row_point d c (py p) V) as (u & W & RU & OU).
  pose proof (convex_weak_along vs a b c d (1 - u) S I J ltac:(lra)) as K1.
  pose proof (convex_weak_along vs c d a b (1 - t) S J I ltac:(lra)) as K2.
  rewrite <- along_flip, orient_flip in K1, K2. rewrite (OT _ RU) in K1. rewrite (OU _ RT) in K2.
  assert (E : px (along b a t) = px (along d c u)) by nra.
  assert (Z : orient d c (along b a t) = 0) by (rewrite (OU _ RT), E; ring).
  rewrite orient_along, !(orient_flip c d) in Z. destruct (cycle_edges_In _ _ _ _ I) as [A B].
  pose proof (convex_weak vs c d a S J A). pose proof (convex_weak vs c d b S J B).
  assert (Z' : orient c d b = 0) by nra. destruct (convex_zero vs c d b S J B Z') as [->| ->].
  - lra.
  - f_equal. destruct (cycle_fst_snd _ vs) as [_ F]. eapply snd_unique; eauto.
    eapply Permutation_NoDup; [apply Permutation_sym; eauto|auto].
Qed.

Lemma NoDup_edges : forall X (vs : list X), NoDup vs -> NoDup (cycle_edges vs).
Proof. intros X vs N. apply (NoDup_map_inv fst). destruct (cycle_fst_snd _ vs) as [-> _]. auto. Qed.

Lemma even_odd_split : forall vs p, even_odd vs p =
  xorb (parity (map (fun e => Rltb 0 (orient (fst e) (snd e) p)) (filter (upb p) (cycle_edges vs))))
       (parity (map (fun e => Rltb (orient (fst e) (snd e) p) 0) (filter (dnb p) (cycle_edges vs)))).
Proof.
  intros vs p. unfold even_odd. rewrite odd_filter, <- !parity_and, <- parity_xor. f_equal.
  apply map_ext. intros [a b]. apply row_split.
Qed.

Lemma up_down : forall vs p, parity (map (upb p) (cycle_edges vs)) = parity (map (dnb p) (cycle_edges vs)).
Proof.
  intros vs p. apply xorb_eq. rewrite <- parity_xor, <- (parity_cycle _ (lowb p) vs). f_equal.
  apply map_ext. intros [a b]. unfold upb, dnb. cbn [fst snd]. destruct (lowb p a), (lowb p b); reflexivity.
Qed.

Lemma row_cases : forall vs p, NoDup vs -> strictly_convex vs ->
  (filter (upb p) (cycle_edges vs) = [] /\ filter (dnb p) (cycle_edges vs) = []) \/
  (exists e f, filter (upb p) (cycle_edges vs) = [e] /\ filter (dnb p) (cycle_edges vs) = [f]).
Proof.
  intros vs p N S. pose proof (up_down vs p) as E. rewrite <- !odd_filter in E.
  destruct (filter_unique _ (upb p) (cycle_edges vs) (NoDup_edges _ _ N) (one_up vs p N S)) as [U|(e & U)],
    (filter_unique _ (dnb p) (cycle_edges vs) (NoDup_edges _ _ N) (one_down vs p N S)) as [D|(f & D)];
  rewrite U, D in *; try discriminate E; eauto.
Qed.

(** * Inside *)
Lemma arg_max : forall X (g : X -> R) (l : list X), l <> [] -> exists x, In x l /\ forall y, In y l -> g y <= g x.
Proof.
  induction l as [|x l IH]; intros H; [contradiction|]. destruct l as [|y l].
  - exists x. split; simpl; auto. intros y [->|[]]; lra.
  - destruct IH as (z & Z & M); [discriminate|]. destruct (Rle_dec (g x) (g z)).
    + exists z. split; [simpl in *; tauto|]. intros w [->|W]; auto.
    + exists x. split; [simpl; auto|]. intros w [->|W]; [lra|]. specialize (M w W). lra.
Qed.

Lemma cone : forall ux uy wx wy qx qy : R, 0 < qx * uy - qy * ux -> 0 < wx * qy - wy * qx -> 0 < wx * uy - wy * ux ->
  (uy <= 0 -> wy <= 0 -> 0 <= qy -> False) /\ (0 <= uy -> 0 <= wy -> qy < 0 -> False).
Proof.
  intros ux uy wx wy qx qy H1 H2 H3.
  assert (E : (wx * uy - wy * ux) * qy = (wx * qy - wy * qx) * uy + (qx * uy - qy * ux) * wy) by ring.
  split; intros U W Q.
  - assert (uy = 0 \/ uy < 0) as [->|U'] by lra.
    + assert (wy = 0 \/ wy < 0) as [->|W'] by lra; nra.
    + nra.
  - nra.
Qed.

Lemma inside_rows : forall vs p, strictly_convex vs -> vs <> [] ->
  (forall a b, In (a, b) (cycle_edges vs) -> 0 < orient a b p) ->
  (exists v, In v vs /\ py v <= py p) /\ (exists v, In v vs /\ py p < py v).
Proof.
  intros vs p S NE IN. destruct (cycle_fst_snd _ vs) as [F1 F2].
  assert (NB : forall v, In v vs -> exists u w, In (u, v) (cycle_edges vs) /\ In (v, w) (cycle_edges vs) /\
    In u vs /\ In w vs /\ 0 < orient u v w).
  { intros v V. pose proof V as V1. rewrite <- F1 in V1. apply in_map_iff in V1 as ([v1 w] & E1 & I1).
    pose proof (Permutation_in _ (Permutation_sym F2) V) as V2. apply in_map_iff in V2 as ([u v2] & E2 & I2).
    simpl in *. subst v1 v2. exists u, w. destruct (cycle_edges_In _ _ _ _ I1), (cycle_edges_In _ _ _ _ I2).
    repeat split; auto. eapply S; eauto; intros ->; pose proof (IN _ _ I1) as K1; pose proof (IN _ _ I2) as K2.
    - rewrite orient_flip in K1. lra.
    - unfold orient in K1. lra. }
  split.
  - destruct (arg_max (pt RA) (fun v => - py v) vs NE) as (v & V & M).
    destruct (Rle_lt_dec (py v) (py p)) as [|L]; [eauto|exfalso].
    destruct (NB v V) as (u & w & I1 & I2 & U & W & O). pose proof (IN _ _ I1) as K1. pose proof (IN _ _ I2) as K2.
    pose proof (M _ U). pose proof (M _ W). unfold orient in *.
    destruct (cone (px u - px v) (py u - py v) (px w - px v) (py w - py v) (px p - px v) (py p - py v)) as [_ C]; try lra.
  - destruct (arg_max (pt RA) (fun v => py v) vs NE) as (v & V & M).
    destruct (Rle_lt_dec (py v) (py p)) as [L|]; [exfalso|eauto].
    destruct (NB v V) as (u & w & I1 & I2 & U & W & O). pose proof (IN _ _ I1) as K1. pose proof (IN _ _ I2) as K2.
    pose proof (M _ U). pose proof (M _ W). unfold orient in *.
    destruct (cone (px u - px v) (py u - py v) (px w - px v) (py w - py v) (px p - px v) (py p - py v)) as [C _]; try lra.
Qed.

Lemma chain_same : forall X (g : X -> bool) (l : list X) x, (forall a b, In (a, b) (pairs (x :: l)) -> g a = g b) ->
  forall y, In y (x :: l) -> g y = g x.
Proof.
  intros X g l. induction l as [|z l IH]; intros x H y I.
  - destruct I as [->|[]]; auto.
  - destruct I as [->|I]; auto. rewrite (IH z); auto.
    + symmetry. apply H. simpl; auto.
    + intros a b K. apply H. simpl. auto.
Qed.

(*@ C35_even_odd_convex *)
(** The even-odd rule of the specification is the obvious notion for a convex polygon with
    counterclockwise vertices: inside is strictly to the left of every edge. *)
Lemma even_odd_convex : forall (vs : list (pt RA)) (p : pt RA), vs <> [] -> NoDup vs ->
  (forall a b v, In (a, b) (cycle_edges vs) -> In v vs -> v <> a -> v <> b -> 0 < orient a b v) ->
  ((forall a b, In (a, b) (cycle_edges vs) -> 0 < orient a b p) -> even_odd vs p = true) /\
  ((exists a b, In (a, b) (cycle_edges vs) /\ orient a b p < 0) -> even_odd vs p = false).
Proof.
  intros vs p NE N S. change (strictly_convex vs) in S. rewrite even_odd_split.
  destruct (row_cases vs p N S) as [[U D]|([a b] & [c d] & U & D)]; rewrite U, D; cbn [map parity fold_right fst snd].
  - split; [|reflexivity]. intros IN. exfalso. destruct (inside_rows vs p S NE IN) as ((v & V & L) & (w & W & H)).
    destruct vs as [|x vs]; [contradiction|].
    assert (K : forall y, In y (x :: vs) -> lowb p y = lowb p x).
    { intros y Y. apply (chain_same _ (lowb p) (vs ++ [x])); [|simpl in *; rewrite in_app_iff; tauto].
      intros a b I. rewrite <- cycle_edges_pairs in I.
      destruct (lowb p a) eqn:A, (lowb p b) eqn:B; auto; exfalso.
      - assert (In (a, b) (filter (upb p) (cycle_edges (x :: vs)))) as J; [|rewrite U in J; destruct J].
        apply filter_In. split; auto. unfold upb. simpl. rewrite A, B. reflexivity.
      - assert (In (a, b) (filter (dnb p) (cycle_edges (x :: vs)))) as J; [|rewrite D in J; destruct J].
        apply filter_In. split; auto. unfold dnb. simpl. rewrite A, B. reflexivity. }
    apply lowb_true in L. apply lowb_false in H. rewrite (K v V) in L. rewrite (K w W) in H. congruence.
  - assert (In (a, b) (cycle_edges vs) /\ upb p (a, b) = true) as [I HU] by (apply filter_In; rewrite U; simpl; auto).
    assert (In (c, d) (cycle_edges vs) /\ dnb p (c, d) = true) as [J HD] by (apply filter_In; rewrite D; simpl; auto).
    apply upb_true in HU. apply dnb_true in HD. split.
    + intros IN. pose proof (IN _ _ I). pose proof (IN _ _ J).
      destruct (Rltb 0 (orient a b p)) eqn:E, (Rltb (orient c d p) 0) eqn:F; rb; auto; lra.
    + intros (e & f & K & O).
      destruct (row_point a b (py p) HU) as (t & T & RT & OT). destruct (row_point d c (py p) HD) as (u & W & RU & OU).
      pose proof (OT p eq_refl) as OP. pose proof (OU p eq_refl) as OQ. rewrite orient_flip in OQ.
      set (R := along a b t) in *. set (L := along d c u) in *.
      assert (XLR : px L <= px R).
      { pose proof (convex_weak_along vs a b c d (1 - u) S I J ltac:(lra)) as K1. rewrite <- along_flip in K1.
        fold L in K1. rewrite (OT L RU) in K1. nra. }
      destruct (Rltb 0 (orient a b p)) eqn:E, (Rltb (orient c d p) 0) eqn:F; rb; auto; exfalso.
      * assert (X1 : px p < px R) by nra. assert (X2 : px L <= px p) by nra.
        pose proof (convex_weak_along vs e f a b t S K I ltac:(lra)) as K1. fold R in K1.
        pose proof (convex_weak_along vs e f c d (1 - u) S K J ltac:(lra)) as K2. rewrite <- along_flip in K2. fold L in K2.
        clearbody L R. unfold orient in K1, K2, O. rewrite RT in K1. rewrite RU in K2.
        assert (0 <= (px R - px p) * ((px f - px e) * (py p - py e) - (py f - py e) * (px L - px e))
                + (px p - px L) * ((px f - px e) * (py p - py e) - (py f - py e) * (px R - px e))) as Z by nra.
        assert ((px R - px L) * ((px f - px e) * (py p - py e) - (py f - py e) * (px p - px e)) < 0) as Z2 by nra.
        lra.
      * assert (px R <= px p) by nra. assert (px p < px L) by nra. lra.
Qed.

(** * Vertices, order of the segments *)
Lemma vertex_not_internal_gen : forall (A : Arith) (l : list (seg A)) (s : seg A) (p : pt A) (draws : nat -> num * num) (fuel : nat),
  (forall a b : pt A, pt_sameb a b = true -> pt_eqb a p = pt_eqb b p) ->
  In s l -> pt_eqb (si s) p = true \/ pt_eqb (sj s) p = true ->
  poly_is_internal_point l p draws fuel = Ok (Some false).
Proof.
  intros A l s p draws fuel EQ I H. unfold poly_is_internal_point.
  assert (K : forall (ps acc : list (pt A)), existsb (fun q => pt_eqb q p) (dedup_acc pt_sameb ps acc) =
    existsb (fun q => pt_eqb q p) (acc ++ ps)).
  { induction ps as [|q ps IH]; intros acc; simpl; [rewrite app_nil_r; auto|].
    destruct (memb pt_sameb q acc) eqn:M; rewrite IH, !existsb_app.
    - simpl. destruct (existsb (fun q0 => pt_eqb q0 p) acc) eqn:E1; auto. simpl.
      destruct (pt_eqb q p) eqn:E2; auto. exfalso.
      clear - EQ M E1 E2. induction acc as [|x acc IH]; [discriminate|]. simpl in *.
      apply orb_false_iff in E1 as [E1 E3]. apply orb_true_iff in M as [M|M]; auto.
      apply EQ in M. congruence.
    - simpl. rewrite orb_false_r, <- orb_assoc. auto. }
  assert (PM : forall a b : list (pt A), Permutation a b -> existsb (fun q => pt_eqb q p) a = existsb (fun q => pt_eqb q p) b).
  { induction 1; simpl; auto; try congruence. rewrite !orb_assoc, (orb_comm (pt_eqb y p)). auto. }
  unfold point_set. rewrite (PM _ _ (sort_by_perm _ _ _)). unfold dedup. rewrite K. simpl. unfold all_points.
  rewrite (PM _ _ (sort_by_perm _ _ _)).
  replace (existsb _ (flat_map ij l)) with true; [reflexivity|]. symmetry. apply existsb_exists.
  destruct H as [H|H]; [exists (si s)|exists (sj s)]; (split; [apply in_flat_map; exists s; simpl; auto|auto]).
Qed.

(*@ C35_vertex *)
(** C35: a point that is == one of the vertices is never internal, whatever the draws. *)
Lemma vertex_not_internal : forall (l : list (seg RA)) (s : seg RA) (p : pt RA) (draws : nat -> R * R) (fuel : nat),
  In s l -> pt_eqb (si s) p = true \/ pt_eqb (sj s) p = true ->
  poly_is_internal_point l p draws fuel = Ok (Some false).
Proof.
  intros l s p draws fuel. apply vertex_not_internal_gen. intros a b E. apply pt_sameb_iff in E. subst. auto.
Qed.

Lemma fold_left_perm : forall X Y (f : Y -> X -> Y) l l', (forall y a b, f (f y a) b = f (f y b) a) -> Permutation l l' ->
  forall y, fold_left f l y = fold_left f l' y.
Proof. intros X Y f l l' C P. induction P; intros z; simpl; auto; congruence. Qed.

Lemma bounding_box_perm : forall l l' : list (seg RA), Permutation l l' -> bounding_box l = bounding_box l'.
Proof.
  intros l l' P. unfold bounding_box. apply fold_left_perm; auto.
  intros [[x1 x2] [y1 y2]] a b. unfold bb_step. rewrite !nmin_R, !nmax_R.
  assert (MI : forall u v w : R, Rmin (Rmin u v) w = Rmin (Rmin u w) v).
  { intros. rewrite !Rmin_assoc || rewrite <- !Rmin_assoc. f_equal. apply Rmin_comm. }
  assert (MA : forall u v w : R, Rmax (Rmax u v) w = Rmax (Rmax u w) v).
  { intros. rewrite <- !Rmax_assoc. f_equal. apply Rmax_comm. }
  f_equal; f_equal; auto.
Qed.

(*@ C35_permutation *)
(** C35: the order of the segments does not matter. *)
Lemma internal_permutation : forall (l l' : list (seg RA)) (p : pt RA) (draws : nat -> R * R) (fuel : nat),
  Permutation l l' -> poly_is_internal_point l p draws fuel = poly_is_internal_point l' p draws fuel.
Proof.
  intros l l' p draws fuel P. unfold poly_is_internal_point.
  assert (PS : point_set l = point_set l' \/ forall q, In q (point_set l) <-> In q (point_set l')).
  { right. intros q.
    assert (K : forall l : list (seg RA), In q (point_set l) <-> In q (flat_map ij l)).
    { intros k. unfold point_set, all_points. split; intros I.
      - apply (Permutation_in _ (sort_by_perm _ _ _)) in I. apply (proj1 (dedup_In _ _ pt_sameb_iff _ _)) in I.
        apply (Permutation_in _ (sort_by_perm _ _ _)) in I. auto.
      - apply (Permutation_in _ (Permutation_sym (sort_by_perm _ _ _))). apply (dedup_In _ _ pt_sameb_iff).
        apply (Permutation_in _ (Permutation_sym (sort_by_perm _ _ _))). auto. }
    rewrite !K. split; apply Permutation_in; [|apply Permutation_sym]; apply Permutation_flat_map; auto. }
  replace (existsb (fun q => pt_eqb q p) (point_set l')) with (existsb (fun q => pt_eqb q p) (point_set l)).
  2:{ destruct PS as [->|PS]; auto. apply eq_true_iff_eq. rewrite !existsb_exists.
      split; intros (q & Q & E); exists q; split; auto; apply PS; auto. }
  destruct (existsb _ _); auto.
  assert (RC : forall d, ray_count l p d = ray_count l' p d).
  { intros d. unfold ray_count. replace (ray_end l' d) with (ray_end l d) by (unfold ray_end; rewrite (bounding_box_perm _ _ P); auto).
    set (r := LineSegment p (ray_end l d)).
    set (g := fun s => match intersection_on_segment r s with Ok b => b | Err _ => false end).
    assert (G : forall s, intersection_on_segment r s = Ok (g s)).
    { intros s. unfold g. destruct (ios_total r s) as [b ->]. auto. }
    rewrite !(filterM_filter _ _ g) by auto. cbn [bind]. f_equal.
    assert (D : Permutation (dedup seg_sameb l) (dedup seg_sameb l')).
    { apply NoDup_Permutation; try apply dedup_NoDup, seg_sameb_iff. intros s.
      rewrite !(dedup_In _ _ seg_sameb_iff). split; apply Permutation_in; auto using Permutation_sym. }
    assert (FP : forall a b, Permutation a b -> length (filter g a) = length (filter g b)).
    { induction 1; simpl; auto; try congruence; repeat destruct (g _); simpl; auto. }
    apply FP; auto. }
  generalize 0%nat. induction fuel as [|f IH]; intros k; simpl; auto. rewrite !RC. 
  destruct (ray_count l' p (draws k)); auto. cbn [bind].
  destruct (ray_count l' p (draws (S k))); auto. cbn [bind].
  destruct (ray_count l' p (draws (S (S k)))); auto. cbn [bind]. rewrite IH. auto.
Qed.

(** * Examples and the finding *)
(** Segments on one side of a line, some distance away from it. *)
Lemma away : forall (a b q q' : pt RA) (M : R), 0 < M ->
  (px b - px a)^2 + (py b - py a)^2 <= M^2 -> M * / 10^7 < orient a b q - orient a b q' -> / 10^7 < dist q q'.
Proof.
  intros a b q q' M M0 H O. unfold dist. unfold orient in O.
  set (ux := px b - px a) in *. set (uy := py b - py a) in *. set (vx := px q - px q') in *. set (vy := py q - py q') in *.
  assert (E : ux * vy - uy * vx = ux * (py q - py a) - uy * (px q - px a) - (ux * (py q' - py a) - uy * (px q' - px a)))
    by (unfold vx, vy; ring).
  ra_simpl. rewrite <- E in O.
  assert (CS : (ux * vy - uy * vx)^2 <= M^2 * (vx^2 + vy^2)).
  { apply Rle_trans with ((ux^2 + uy^2) * (vx^2 + vy^2)).
    - assert (0 <= (ux * vx + uy * vy)^2) by apply pow2_ge_0. nra.
    - apply Rmult_le_compat_r; auto. pose proof (pow2_ge_0 vx). pose proof (pow2_ge_0 vy). lra. }
  assert (K : 0 < / 10^7) by (apply Rinv_0_lt_compat; lra).
  set (e := / 10^7) in *. clearbody e.
  apply Rlt_le_trans with (sqrt (vx^2 + vy^2)); [|right; reflexivity].
  rewrite <- (sqrt_pow2 e) by lra. apply sqrt_lt_1_alt. split; [apply pow2_ge_0|].
  assert (P1 : 0 < M * e) by nra. assert (P2 : (M * e)^2 < (ux * vy - uy * vx)^2) by nra.
  apply (Rmult_lt_reg_l (M^2)); [nra|]. nra.
Qed.

Lemma apart_side : forall (p P a b : pt RA) (M : R), 0 < M ->
  (px P - px p)^2 + (py P - py p)^2 <= M^2 -> M * / 10^7 < orient p P a -> M * / 10^7 < orient p P b -> apart p P a b.
Proof.
  intros p P a b M M0 H A B q q' (t & T & ->) (u & U & ->).
  replace (dist (along p P t) (along a b u)) with (dist (along a b u) (along p P t)) by (unfold dist; f_equal; ring).
  apply (away p P _ _ M M0 H). rewrite !orient_along.
  replace (orient p P p) with 0 by (unfold orient; ring). replace (orient p P P) with 0 by (unfold orient; ring).
  set (c := M * / 10^7) in *. clearbody c. destruct (Rle_dec (orient p P a) (orient p P b)); nra.
Qed.
Lemma apart_sym : forall p P a b, apart a b p P -> apart p P a b.
Proof.
  intros p P a b H q q' Q Q'. replace (dist q q') with (dist q' q) by (unfold dist; f_equal; ring). apply H; auto.
Qed.
Lemma apart_rev2 : forall p P a b, apart P p a b -> apart p P a b.
Proof. intros p P a b H q q' Q Q'. apply H; auto. apply on_segment_sym; auto. Qed.

Lemma dist_ge : forall (p q : pt RA), / 10^8 <= Rabs (px p - px q) \/ / 10^8 <= Rabs (py p - py q) -> / 10^8 <= dist p q.
Proof.
  intros p q H. unfold dist. assert (K : 0 < / 10^8) by (apply Rinv_0_lt_compat; lra).
  rewrite <- (sqrt_pow2 (/ 10^8)) by lra. apply sqrt_le_1_alt.
  rewrite <- (pow2_abs (px p - px q)), <- (pow2_abs (py p - py q)).
  pose proof (pow2_ge_0 (Rabs (px p - px q))). pose proof (pow2_ge_0 (Rabs (py p - py q))).
  destruct H as [H|H]; nra.
Qed.

(** An L-shaped polygon: the point (3/2, 3) is inside it, (1/2, 5/2) is outside to its left and its rays cross two edges. *)
Definition ell : list (pt RA) := map (fun q => @mkpt RA (fst q) (snd q)) [(1, 1); (5, 1); (5, 2); (2, 2); (2, 5); (1, 5)].
Definition ell_draw : nat -> R * R := fun _ => (4/2495, 1/145).

Ltac abs_ge := unfold Rabs; destruct (Rcase_abs _); lra.
Ltac edge_apart := right; first
  [ apply (apart_side _ _ _ _ 10); unfold orient; cbn; lra
  | apply apart_rev2, (apart_side _ _ _ _ 10); unfold orient; cbn; lra
  | apply apart_sym, (apart_side _ _ _ _ 10); unfold orient; cbn; lra ].
Ltac edge_cross := left; split; [unfold orient; cbn; lra|split; [unfold orient; cbn; lra|]];
  let q := fresh in let v := fresh in intros q v [<-|[<-|[]]] [<-|[<-|[]]]; apply dist_ge; cbn; right; abs_ge.
Ltac edges I := repeat (destruct I as [I|I]; [injection I as <- <-; (edge_apart || edge_cross)|]); destruct I.

(*@ex C35_example *)
(** The hypotheses of C35_even_odd can be met: a polygon that is not convex, a point inside and one outside. *)
Lemma internal_example :
  even_odd ell (@mkpt RA (3/2) 3) = true /\ even_odd ell (@mkpt RA (1/2) (5/2)) = false /\
  poly_is_internal_point (cycle_poly ell) (@mkpt RA (3/2) 3) ell_draw 1 = Ok (Some true) /\
  poly_is_internal_point (rev (cycle_poly ell)) (@mkpt RA (1/2) (5/2)) ell_draw 1 = Ok (Some false).
Proof.
  assert (E1 : even_odd ell (@mkpt RA (3/2) 3) = true).
  { unfold even_odd. rewrite odd_filter. cbn [ell map cycle_edges combine app fst snd parity fold_right].
    unfold right_of_row, orient. cbn [px py].
    repeat (destruct (Rle_lt_dec _ _) || destruct (Rlt_dec _ _)); cbn; auto; exfalso; lra. }
  assert (E2 : even_odd ell (@mkpt RA (1/2) (5/2)) = false).
  { unfold even_odd. rewrite odd_filter. cbn [ell map cycle_edges combine app fst snd parity fold_right].
    unfold right_of_row, orient. cbn [px py].
    repeat (destruct (Rle_lt_dec _ _) || destruct (Rlt_dec _ _)); cbn; auto; exfalso; lra. }
  split; [exact E1|]. split; [exact E2|].
  assert (JJ : Forall2 joins (cycle_edges ell) (cycle_poly ell)).
  { unfold cycle_poly. induction (cycle_edges ell) as [|e E IH]; simpl; constructor; auto. left; auto. }
  assert (ND : NoDup (cycle_poly ell)).
  { unfold ell, cycle_poly. cbn. repeat constructor; cbn; intros H; repeat destruct H as [H|H]; try (injection H; intros; lra); auto. }
  assert (PP : far 5 5 (4/2495, 1/145) = @mkpt RA 9 6).
  { unfold far. cbn [fst snd]. replace (5 + 499 * 5 * (4 / 2495)) with (IZR 9) by lra.
    replace (5 + 29 * 5 * (1 / 145)) with (IZR 6) by lra. rewrite !Rround8_id by auto with grid. reflexivity. }
  assert (BD : forall v, In v ell -> Rabs (px v) <= 10^11 /\ Rabs (py v) <= 10^11).
  { intros v V. repeat destruct V as [<-|V]; try destruct V; cbn; split; apply Rabs_le; lra. }
  assert (XM : forall v, In v ell -> px v <= 5) by (intros v V; repeat destruct V as [<-|V]; try destruct V; cbn; lra).
  assert (YM : forall v, In v ell -> py v <= 5) by (intros v V; repeat destruct V as [<-|V]; try destruct V; cbn; lra).
  split.
  - rewrite <- E1. apply (internal_even_odd ell (cycle_poly ell) _ 5 5); auto.
    + exists (cycle_poly ell). split; auto.
    + discriminate.
    + exists (@mkpt RA 5 1). cbn. auto.
    + exists (@mkpt RA 1 5). cbn. auto 8.
    + intros v V. repeat destruct V as [<-|V]; try destruct V; cbn; right; abs_ge.
    + intros k _. cbn zeta. fold (far 5 5 (ell_draw k)). unfold ell_draw. rewrite PP. split; [cbn; lra|].
      intros a b I. cbn in I. edges I.
  - rewrite <- E2. apply (internal_even_odd ell (rev (cycle_poly ell)) _ 5 5); auto.
    + exists (cycle_poly ell). split; auto. apply Permutation_sym, Permutation_rev.
    + apply NoDup_rev; auto.
    + discriminate.
    + exists (@mkpt RA 5 1). cbn. auto.
    + exists (@mkpt RA 1 5). cbn. auto 8.
    + intros v V. repeat destruct V as [<-|V]; try destruct V; cbn; right; abs_ge.
    + intros k _. cbn zeta. fold (far 5 5 (ell_draw k)). unfold ell_draw. rewrite PP. split; [cbn; lra|].
      intros a b I. cbn in I. edges I.
Qed.

(** The square with the corners (-1000, -1000) and (-1, -1). *)
Definition neg_square : list (pt RA) := map (fun q => @mkpt RA (fst q) (snd q)) [(-1000, -1000); (-1, -1000); (-1, -1); (-1000, -1)].

(*@ C35_negative_refuted *)
(** C35, finding: for a polygon on the negative side of the axes the rays end inside it, and an inner
    point is reported as not internal, whatever the draws. *)
Lemma negative_refuted : exists (vs : list (pt RA)) (p : pt RA),
  even_odd vs p = true /\
  forall (draws : nat -> R * R) (fuel : nat),
    (forall k, / 10^6 <= fst (draws k) <= 1 /\ / 10^6 <= snd (draws k) <= 1) ->
    poly_is_internal_point (cycle_poly vs) p draws (S fuel) = Ok (Some false).
Proof.
  exists neg_square, (@mkpt RA (-700) (-700)). split.
  { apply even_odd_convex; try discriminate.
    - unfold neg_square. cbn. repeat constructor; cbn; intros H; repeat destruct H as [H|H]; try (injection H; intros; lra); auto.
    - intros a b v I V N1 N2. cbn in I, V.
      repeat (destruct I as [I|I]; [injection I as <- <-; repeat (destruct V as [<-|V]; [try (exfalso; apply N1; reflexivity); try (exfalso; apply N2; reflexivity); unfold orient; cbn; lra|]); destruct V|]); destruct I.
    - intros a b I. cbn in I. repeat (destruct I as [I|I]; [injection I as <- <-; unfold orient; cbn; lra|]); destruct I. }
  intros draws fuel R. unfold poly_is_internal_point.
  set (p := @mkpt RA (-700) (-700)).
  assert (EN : forall v, In v (flat_map ij (cycle_poly neg_square)) -> In v neg_square).
  { intros v V. cbn in V |- *. tauto. }
  replace (existsb (fun q => pt_eqb q p) (point_set (cycle_poly neg_square))) with false.
  2:{ symmetry. apply not_true_is_false. intros E. apply existsb_exists in E as (v & V & E).
      unfold point_set in V. apply (Permutation_in _ (sort_by_perm _ _ _)) in V.
      apply (proj1 (dedup_In _ _ pt_sameb_iff _ _)) in V. apply pt_eqb_iff in E.
      unfold all_points in V. apply (Permutation_in _ (sort_by_perm _ _ _)) in V. apply EN in V.
      destruct E as [E1 E2]. apply Rabs_def2 in E1, E2. repeat destruct V as [<-|V]; try destruct V; cbn in E1, E2; lra. }
  destruct (box_max (cycle_poly neg_square) (-1) (-1)) as (x0 & y0 & BB).
  { discriminate. }
  { intros v V. apply EN in V. repeat destruct V as [<-|V]; try destruct V; cbn; split; apply Rabs_le; lra. }
  { exists (@mkpt RA (-1) (-1)). cbn. tauto. }
  { intros v V. apply EN in V. repeat destruct V as [<-|V]; try destruct V; cbn; lra. }
  { exists (@mkpt RA (-1) (-1)). cbn. tauto. }
  { intros v V. apply EN in V. repeat destruct V as [<-|V]; try destruct V; cbn; lra. }
  assert (RC : forall k, ray_count (cycle_poly neg_square) p (draws k) = Ok 0%nat).
  { intros k. unfold ray_count. rewrite (ray_end_far _ _ _ _ _ (draws k) BB). unfold far.
    destruct (R k) as [R1 R2]. set (dx := fst (draws k)) in *. set (dy := snd (draws k)) in *.
    pose proof (Rround8_err (-1 + 499 * -1 * dx)) as X. pose proof (Rround8_err (-1 + 29 * -1 * dy)) as Y.
    apply Rabs_le_inv in X, Y.
    set (qx := Rround8 _) in *. set (qy := Rround8 (-1 + 29 * -1 * dy)) in *.
    assert (QX : -501 <= qx <= -1 - 1/100000) by (simpl in *; lra).
    assert (QY : -31 <= qy <= -1 - 1/100000) by (simpl in *; lra).
    clearbody qx qy. clear - QX QY.
    rewrite (filterM_filter _ _ (fun _ => false)).
    - cbn [bind]. f_equal. induction (dedup seg_sameb (cycle_poly neg_square)); auto.
    - intros s HS. apply (proj1 (dedup_In _ _ seg_sameb_iff _ _)) in HS. apply ios_apart. cbn in HS.
      repeat destruct HS as [<-|HS]; try destruct HS; cbn [si sj LineSegment fst snd];
        apply apart_sym, (apart_side _ _ _ _ 999); unfold orient, p; cbn; lra. }
  cbn [ray_rounds]. rewrite !RC. reflexivity.
Qed.
