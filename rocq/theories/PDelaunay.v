(** Delaunay triangulation: bookkeeping and geometry of a flip. *)
From Coq Require Import Reals ZArith Lra Lia Bool List Psatz Permutation.
From Verif Require Import Base Arith ArithR MPoint MLine MPoly MDelaunay Spec SpecDelaunay PPoint PLine PTrig.
Import ListNotations.

Lemma edge_eqb_iff : forall e f, edge_eqb e f = true <-> e = f.
Proof.
  intros [a b] [c d]. unfold edge_eqb. cbn. rewrite andb_true_iff, !Nat.eqb_eq. split; [intros [-> ->]; auto|intros [= -> ->]; auto].
Qed.
Lemma edge_eqb_refl : forall e, edge_eqb e e = true.
Proof. intros. apply edge_eqb_iff. reflexivity. Qed.
Lemma edge_eqb_false : forall e f, edge_eqb e f = false <-> e <> f.
Proof. intros e f. rewrite <- (edge_eqb_iff e f). destruct (edge_eqb e f); intuition congruence. Qed.

(** * The dict *)
Lemma aget_aset : forall m e v f, aget (aset m e v) f = if edge_eqb e f then Some v else aget m f.
Proof.
  induction m as [|[k w] m IH]; intros e v f; cbn; [reflexivity|].
  destruct (edge_eqb k e) eqn:E.
  - apply edge_eqb_iff in E. subst k. cbn. destruct (edge_eqb e f); reflexivity.
  - cbn. rewrite IH. destruct (edge_eqb k f) eqn:F; [|reflexivity]. apply edge_eqb_iff in F. subst k.
    destruct (edge_eqb e f) eqn:G; [|reflexivity]. apply edge_eqb_iff in G. subst e. rewrite edge_eqb_refl in E. discriminate.
Qed.
Lemma aget_none : forall m e, aget m e = None <-> ~ In e (map fst m).
Proof.
  induction m as [|[k w] m IH]; intros e; cbn; [tauto|]. destruct (edge_eqb k e) eqn:E.
  - apply edge_eqb_iff in E. subst. split; [discriminate|]. intros H. exfalso; auto.
  - rewrite IH. apply edge_eqb_false in E. tauto.
Qed.
Lemma aget_adel : forall m e f, NoDup (map fst m) -> aget (adel m e) f = if edge_eqb e f then None else aget m f.
Proof.
  induction m as [|[k w] m IH]; intros e f N; cbn.
  - destruct (edge_eqb e f); reflexivity.
  - cbn in N. inversion N as [|? ? N1 N2]; subst. destruct (edge_eqb k e) eqn:E.
    + apply edge_eqb_iff in E. subst k. destruct (edge_eqb e f) eqn:F; [|reflexivity]. apply edge_eqb_iff in F. subst f. apply aget_none. exact N1.
    + cbn. rewrite IH by auto. destruct (edge_eqb k f) eqn:F; [|reflexivity]. apply edge_eqb_iff in F. subst k.
      destruct (edge_eqb e f) eqn:G; [|reflexivity]. apply edge_eqb_iff in G. subst e. rewrite edge_eqb_refl in E. discriminate.
Qed.
Lemma keys_aset : forall m e v, NoDup (map fst m) -> NoDup (map fst (aset m e v)) /\ forall f, In f (map fst (aset m e v)) <-> f = e \/ In f (map fst m).
Proof.
  induction m as [|[k w] m IH]; intros e v N; cbn.
  - split; [repeat constructor; auto|]. intros f. intuition.
  - cbn in N. inversion N as [|? ? N1 N2]; subst. destruct (edge_eqb k e) eqn:E; cbn.
    + apply edge_eqb_iff in E. subst k. split; [exact N|]. intros f. intuition.
    + destruct (IH e v N2) as [I1 I2]. split.
      * constructor; auto. rewrite I2. apply edge_eqb_false in E. intuition.
      * intros f. rewrite I2. intuition.
Qed.
Lemma keys_adel : forall m e, NoDup (map fst m) -> NoDup (map fst (adel m e)) /\ forall f, In f (map fst (adel m e)) -> In f (map fst m).
Proof.
  induction m as [|[k w] m IH]; intros e N; cbn; [auto|].
  cbn in N. inversion N as [|? ? N1 N2]; subst. destruct (edge_eqb k e) eqn:E; cbn; [split; auto|].
  destruct (IH e N2) as [I1 I2]. split; [constructor; auto|]. intros f [<-|H]; auto.
Qed.
Lemma aget_In : forall m e v, NoDup (map fst m) -> (aget m e = Some v <-> In (e, v) m).
Proof.
  induction m as [|[k w] m IH]; intros e v N; cbn; [intuition congruence|].
  cbn in N. inversion N as [|? ? N1 N2]; subst. destruct (edge_eqb k e) eqn:E.
  - apply edge_eqb_iff in E. subst k. split; [intros [= ->]; auto|]. intros [[= ->]|H]; auto.
    exfalso. apply N1. apply in_map_iff. exists (e, v). auto.
  - rewrite IH by auto. apply edge_eqb_false in E. split; [auto|]. intros [[= -> ->]|H]; [congruence|auto].
Qed.

(** * Keys *)
(*@ C45_makeKey *)
(** C45: the key of two different indices is the pair of them in ascending order; it does not depend on
    their order. *)
Lemma makeKey_spec : forall i j : nat,
  makeKey i j = makeKey j i /\ (fst (makeKey i j) <= snd (makeKey i j))%nat /\
  ((fst (makeKey i j) = i /\ snd (makeKey i j) = j) \/ (fst (makeKey i j) = j /\ snd (makeKey i j) = i)).
Proof.
  intros i j. unfold makeKey. destruct (Nat.ltb_spec j i), (Nat.ltb_spec i j); cbn; repeat split; try lia; auto.
  assert (i = j) by lia. congruence.
Qed.
Lemma key_iff : forall i j x y, (x < y)%nat -> (makeKey i j = (x, y) <-> (x = i /\ y = j) \/ (x = j /\ y = i)).
Proof.
  intros i j x y L. unfold makeKey. destruct (Nat.ltb_spec j i); split; intros H0.
  - injection H0 as -> ->. auto.
  - destruct H0 as [[-> ->]|[-> ->]]; [lia|reflexivity].
  - injection H0 as -> ->. auto.
  - destruct H0 as [[-> ->]|[-> ->]]; [reflexivity|lia].
Qed.

(** * Triangles *)
Lemma tset_nth : forall l k t j, nth_error (tset l k t) j = if Nat.eqb j k then (match nth_error l k with Some _ => Some t | None => None end) else nth_error l j.
Proof.
  induction l as [|x l IH]; intros k t j; cbn.
  - destruct k, j; cbn; try reflexivity. destruct (Nat.eqb j k); reflexivity.
  - destruct k as [|k], j as [|j]; cbn; try reflexivity. apply IH.
Qed.
Lemma tset_length : forall l k t, length (tset l k t) = length l.
Proof. induction l as [|x l IH]; intros [|k] t; cbn; auto. Qed.

Lemma opposite_spec : forall t a b o, NoDup (tri_list t) -> In a (tri_list t) -> In b (tri_list t) -> a <> b ->
  opposite t (a, b) = Some o -> o <> a /\ o <> b /\ forall v, In v (tri_list t) <-> v = a \/ v = b \/ v = o.
Proof.
  intros [[x y] z] a b o N Ha Hb AB H. unfold opposite in H. cbn [tri_list filter fst snd] in *.
  assert (XY : x <> y /\ x <> z /\ y <> z).
  { inversion N as [|? ? N1 N2]; subst. inversion N2 as [|? ? N3 N4]; subst. cbn in N1, N3. intuition. }
  destruct (Nat.eqb_spec x a), (Nat.eqb_spec x b), (Nat.eqb_spec y a), (Nat.eqb_spec y b), (Nat.eqb_spec z a), (Nat.eqb_spec z b); cbn in H; subst; try discriminate; try lia;
  cbn in Ha, Hb; try (exfalso; intuition congruence); injection H as <-; (split; [congruence|]; split; [congruence|]); intros v; cbn; intuition.
Qed.
Lemma opposite_some : forall t a b, NoDup (tri_list t) -> exists o, opposite t (a, b) = Some o.
Proof.
  intros [[x y] z] a b N. unfold opposite. cbn [tri_list filter fst snd] in *.
  assert (XY : x <> y /\ x <> z /\ y <> z).
  { inversion N as [|? ? N1 N2]; subst. inversion N2 as [|? ? N3 N4]; subst. cbn in N1, N3. intuition. }
  destruct (Nat.eqb_spec x a), (Nat.eqb_spec x b), (Nat.eqb_spec y a), (Nat.eqb_spec y b), (Nat.eqb_spec z a), (Nat.eqb_spec z b); cbn; subst; try lia; eauto.
Qed.

(** * The bookkeeping of a flip *)
Section Flip.
Context {A : Arith}.
Implicit Type st : dst A.

Lemma has_nth : forall st k t v, nth_error (dtris st) k = Some t -> (has st k v <-> In v (tri_list t)).
Proof. intros st k t v E. unfold has. split; [intros (t' & E' & I)|intros I; exists t; auto]. rewrite E in E'. injection E' as <-. exact I. Qed.

Lemma replace_all_In : forall v a b, a <> b -> ~ In b v -> forall x, In x (replace_all v a b) <-> (x = b /\ In a v) \/ (x <> a /\ In x v).
Proof.
  intros v a b AB Nb x. unfold replace_all. rewrite in_map_iff. split.
  - intros (y & E & I). destruct (Nat.eqb_spec y a); subst; auto.
  - intros [[-> I]|[NE I]]; [exists a|exists x]; (split; [|exact I]); [rewrite Nat.eqb_refl; auto|]. destruct (Nat.eqb_spec x a); congruence.
Qed.
Lemma replace_all_NoDup : forall v a b, ~ In b v -> NoDup v -> NoDup (replace_all v a b).
Proof.
  induction v as [|x v IH]; intros a b Nb N; cbn; [constructor|]. inversion N as [|? ? N1 N2]; subst. cbn in Nb. constructor; [|apply IH; auto].
  unfold replace_all. rewrite in_map_iff. intros (y & E & I). destruct (Nat.eqb_spec y a), (Nat.eqb_spec x a); subst; auto.
Qed.

Lemma cons_get : forall st a b ts, consistent st -> (aget (de2t st) (a, b) = Some ts <-> In ((a, b), ts) (de2t st)).
Proof. intros st a b ts C. apply aget_In. apply (cs_keys st C). Qed.

(** What a flip does to the state. *)
Lemma flip_inv : forall st e st' r, flipOneEdge st e = Ok (st', r) ->
  (st' = st /\ r = []) \/
  exists t1 t2 tri1 tri2 o1 o2 v1 v2,
    aget (de2t st) e = Some [t1; t2] /\ nth_error (dtris st) t1 = Some tri1 /\ nth_error (dtris st) t2 = Some tri2 /\
    opposite tri1 e = Some o1 /\ opposite tri2 e = Some o2 /\ delaunay_test (dpts st) o1 o2 e = Ok true /\
    let m2 := aset (adel (de2t st) e) (makeKey o1 o2) [t1; t2] in
    aget m2 (makeKey o1 (snd e)) = Some v1 /\
    let m3 := aset m2 (makeKey o1 (snd e)) (replace_all v1 t1 t2) in
    aget m3 (makeKey o2 (fst e)) = Some v2 /\
    st' = mkd (dpts st) (tset (tset (dtris st) t1 (o1, fst e, o2)) t2 (o1, o2, snd e))
              (aset m3 (makeKey o2 (fst e)) (replace_all v2 t2 t1)) (dbnd st) /\
    r = [makeKey o1 (snd e); makeKey o2 (fst e); makeKey o1 (fst e); makeKey o2 (snd e)].
Proof.
  intros st e st' r H. unfold flipOneEdge in H.
  destruct (aget (de2t st) e) as [[|t1 [|t2 [|]]]|] eqn:G; try (injection H as <- <-; auto); try discriminate.
  unfold get in H. destruct (nth_error (dtris st) t1) as [tri1|] eqn:E1; [|discriminate]. cbn [bind] in H.
  destruct (nth_error (dtris st) t2) as [tri2|] eqn:E2; [|discriminate]. cbn [bind] in H.
  destruct (opposite tri1 e) as [o1|] eqn:O1; [|discriminate]. destruct (opposite tri2 e) as [o2|] eqn:O2; [|discriminate].
  destruct (delaunay_test (dpts st) o1 o2 e) as [b|] eqn:D; [|discriminate]. cbn [bind] in H. destruct b; [|injection H as <- <-; auto].
  destruct (aget _ (makeKey o1 (snd e))) as [v1|] eqn:V1; [|discriminate]. destruct (aget _ (makeKey o2 (fst e))) as [v2|] eqn:V2; [|discriminate].
  injection H as <- <-. right. exists t1, t2, tri1, tri2, o1, o2, v1, v2. cbn zeta. auto 15.
Qed.
End Flip.

(*@ C45_flip_replaces *)
(** C45: a flip of the edge (a, b) needs an edge with two triangles; they have a, b and one other vertex
    each, o1 and o2.  If the edge is not flipped nothing changes.  Otherwise these two triangles, and no
    others, are replaced by (o1, a, o2) and (o1, o2, b), and the edges to look at again are the four
    sides of the quadrilateral. *)
Lemma flip_replaces : forall (A : Arith) (st st' : dst A) a b r, consistent st ->
  flipOneEdge st (a, b) = Ok (st', r) ->
  (st' = st /\ r = []) \/
  exists k1 k2 o1 o2,
    k1 <> k2 /\ In ((a, b), [k1; k2]) (de2t st) /\ o1 <> a /\ o1 <> b /\ o2 <> a /\ o2 <> b /\
    (forall v, has st k1 v <-> v = a \/ v = b \/ v = o1) /\ (forall v, has st k2 v <-> v = a \/ v = b \/ v = o2) /\
    dpts st' = dpts st /\ dbnd st' = dbnd st /\ length (dtris st') = length (dtris st) /\
    nth_error (dtris st') k1 = Some (o1, a, o2) /\ nth_error (dtris st') k2 = Some (o1, o2, b) /\
    (forall k, k <> k1 -> k <> k2 -> nth_error (dtris st') k = nth_error (dtris st) k) /\
    (forall x y, (x < y)%nat -> (In (x, y) r <-> ((x = o1 \/ x = o2) /\ (y = a \/ y = b)) \/ ((y = o1 \/ y = o2) /\ (x = a \/ x = b)))).
Proof.
  intros A st st' a b r C H. apply flip_inv in H. destruct H as [H|H]; [auto|right].
  destruct H as (t1 & t2 & tri1 & tri2 & o1 & o2 & v1 & v2 & G & E1 & E2 & O1 & O2 & D & V1 & V2 & -> & ->).
  pose proof (proj1 (cons_get st a b _ C) G) as I. destruct (cs_val st C _ _ _ I) as (AB & _ & N).
  pose proof (cs_edge st C _ _ _ I) as W.
  assert (T12 : t1 <> t2) by (inversion N; subst; cbn in *; intuition).
  assert (W1 : has st t1 a /\ has st t1 b) by (apply W; cbn; auto). assert (W2 : has st t2 a /\ has st t2 b) by (apply W; cbn; auto).
  rewrite !(has_nth st _ _ _ E1) in W1. rewrite !(has_nth st _ _ _ E2) in W2.
  destruct (opposite_spec tri1 a b o1 (proj1 (cs_tri st C _ _ E1)) (proj1 W1) (proj2 W1) ltac:(lia) O1) as (P1 & P2 & P3).
  destruct (opposite_spec tri2 a b o2 (proj1 (cs_tri st C _ _ E2)) (proj1 W2) (proj2 W2) ltac:(lia) O2) as (Q1 & Q2 & Q3).
  exists t1, t2, o1, o2. cbn [dpts dbnd dtris fst snd]. rewrite !tset_length, !tset_nth, E1, E2, Nat.eqb_refl.
  rewrite (proj2 (Nat.eqb_neq t1 t2)) by auto. rewrite (proj2 (Nat.eqb_neq t2 t1)) by auto. rewrite Nat.eqb_refl.
  split; [auto|]. split; [auto|]. do 4 (split; [auto|]). split; [intros v; rewrite (has_nth st _ _ _ E1); apply P3|].
  split; [intros v; rewrite (has_nth st _ _ _ E2); apply Q3|]. do 5 (split; [reflexivity|]). split.
  - intros k K1 K2. rewrite !tset_nth. rewrite (proj2 (Nat.eqb_neq k t1)) by auto. rewrite (proj2 (Nat.eqb_neq k t2)) by auto. reflexivity.
  - intros x y XY. cbn [In fst snd]. rewrite !key_iff by auto. intuition.
Qed.

Lemma aget_m4 : forall m a b o1 o2 t1 t2 v1 v2 x y, NoDup (map fst m) -> (a < b)%nat -> (x < y)%nat ->
  o1 <> a -> o1 <> b -> o2 <> a -> o2 <> b -> o1 <> o2 ->
  let m2 := aset (adel m (a, b)) (makeKey o1 o2) [t1; t2] in
  let m3 := aset m2 (makeKey o1 b) (replace_all v1 t1 t2) in
  let m4 := aset m3 (makeKey o2 a) (replace_all v2 t2 t1) in
  (((x = o1 /\ y = o2) \/ (x = o2 /\ y = o1)) /\ aget m4 (x, y) = Some [t1; t2]) \/
  (((x = o1 /\ y = b) \/ (x = b /\ y = o1)) /\ aget m4 (x, y) = Some (replace_all v1 t1 t2) /\ aget m2 (x, y) = aget m (x, y)) \/
  (((x = o2 /\ y = a) \/ (x = a /\ y = o2)) /\ aget m4 (x, y) = Some (replace_all v2 t2 t1) /\ aget m3 (x, y) = aget m (x, y)) \/
  (x = a /\ y = b /\ aget m4 (x, y) = None) \/
  (~ ((x = o1 /\ y = o2) \/ (x = o2 /\ y = o1)) /\ ~ ((x = o1 /\ y = b) \/ (x = b /\ y = o1)) /\
   ~ ((x = o2 /\ y = a) \/ (x = a /\ y = o2)) /\ ~ (x = a /\ y = b) /\ aget m4 (x, y) = aget m (x, y)).
Proof.
  intros m a b o1 o2 t1 t2 v1 v2 x y N AB XY H1 H2 H3 H4 H5 m2 m3 m4. unfold m4, m3, m2. rewrite !aget_aset, aget_adel by auto.
  assert (K : forall i j, edge_eqb (makeKey i j) (x, y) = true <-> (x = i /\ y = j) \/ (x = j /\ y = i)) by (intros; rewrite edge_eqb_iff; apply key_iff; auto).
  assert (K0 : edge_eqb (a, b) (x, y) = true <-> x = a /\ y = b) by (rewrite edge_eqb_iff; split; [intros [= -> ->]; auto|intros [-> ->]; auto]).
  pose proof (K o1 o2) as Ka. pose proof (K o1 b) as Kb. pose proof (K o2 a) as Kc. clear K.
  clear - Ka Kb Kc K0 H1 H2 H3 H4 H5 AB XY.
  destruct (edge_eqb (makeKey o2 a) (x, y)) eqn:B3.
  { pose proof (proj1 Kc eq_refl) as E. right; right; left. split; [exact E|]. split; [reflexivity|].
    destruct (edge_eqb (makeKey o1 b) (x, y)); [pose proof (proj1 Kb eq_refl); exfalso; lia|].
    destruct (edge_eqb (makeKey o1 o2) (x, y)); [pose proof (proj1 Ka eq_refl); exfalso; lia|].
    destruct (edge_eqb (a, b) (x, y)); [pose proof (proj1 K0 eq_refl); exfalso; lia|reflexivity]. }
  destruct (edge_eqb (makeKey o1 b) (x, y)) eqn:B2.
  { pose proof (proj1 Kb eq_refl) as E. right; left. split; [exact E|]. split; [reflexivity|].
    destruct (edge_eqb (makeKey o1 o2) (x, y)); [pose proof (proj1 Ka eq_refl); exfalso; lia|].
    destruct (edge_eqb (a, b) (x, y)); [pose proof (proj1 K0 eq_refl); exfalso; lia|reflexivity]. }
  destruct (edge_eqb (makeKey o1 o2) (x, y)) eqn:B1.
  { left. split; [exact (proj1 Ka eq_refl)|reflexivity]. }
  destruct (edge_eqb (a, b) (x, y)) eqn:B0.
  { right; right; right; left. destruct (proj1 K0 eq_refl) as [-> ->]. auto. }
  right; right; right; right. repeat split; auto; intros E; (apply Ka in E || apply Kb in E || apply Kc in E || apply K0 in E); discriminate.
Qed.

Lemma has_tset : forall (A : Arith) (st : dst A) ps m bd t1 t2 T1 T2 tri1 tri2 k v, t1 <> t2 ->
  nth_error (dtris st) t1 = Some tri1 -> nth_error (dtris st) t2 = Some tri2 ->
  (has (mkd ps (tset (tset (dtris st) t1 T1) t2 T2) m bd) k v <->
   (k = t1 /\ In v (tri_list T1)) \/ (k = t2 /\ In v (tri_list T2)) \/ (k <> t1 /\ k <> t2 /\ has st k v)).
Proof.
  intros A st ps m bd t1 t2 T1 T2 tri1 tri2 k v D E1 E2. unfold has. cbn [dtris]. rewrite !tset_nth, E1.
  rewrite (proj2 (Nat.eqb_neq t2 t1)) by auto. rewrite E2.
  destruct (Nat.eqb_spec k t2) as [->|K2]; [|destruct (Nat.eqb_spec k t1) as [->|K1]].
  - split; [intros (t & [= <-] & I); auto|]. intros [[E _]|[[_ I]|(_ & E & _)]]; try congruence. exists T2; auto.
  - split; [intros (t & [= <-] & I); auto|]. intros [[_ I]|[[E _]|(E & _ & _)]]; try congruence. exists T1; auto.
  - split; [intros (t & E & I); right; right; eauto 6|]. intros [[E _]|[[E _]|(_ & _ & I)]]; try congruence.
Qed.

(*@ C45_flip_consistent *)
(** C45: a flip keeps the triangulation consistent: provided the two opposite vertices are different and
    not yet joined by an edge, the dict lists for every edge exactly the triangles which have it, also
    after the flip, and the flipped edge has been replaced by the other diagonal. *)
Lemma flip_consistent : forall (A : Arith) (st st' : dst A) a b r, consistent st ->
  flipOneEdge st (a, b) = Ok (st', r) ->
  (forall k1 k2 v w, k1 <> k2 -> has st k1 a -> has st k1 b -> has st k1 v -> has st k2 a -> has st k2 b -> has st k2 w ->
     v <> a -> v <> b -> w <> a -> w <> b -> v <> w /\ forall k, ~ (has st k v /\ has st k w)) ->
  consistent st' /\
  (r <> [] -> (forall ts, ~ In ((a, b), ts) (de2t st')) /\
     exists k1 k2 o1 o2, (o1 <> o2 /\ has st k1 o1 /\ has st k2 o2 /\ In ((a, b), [k1; k2]) (de2t st)) /\
       In ((Nat.min o1 o2, Nat.max o1 o2), [k1; k2]) (de2t st')).
Proof.
  intros A st st' a b r C H Hd. apply flip_inv in H. destruct H as [[-> ->]|H]; [split; [exact C|congruence]|].
  destruct H as (t1 & t2 & tri1 & tri2 & o1 & o2 & v1 & v2 & G & E1 & E2 & O1 & O2 & D & V1 & V2 & -> & ->).
  pose proof (proj1 (cons_get st a b _ C) G) as I. destruct (cs_val st C _ _ _ I) as (AB & _ & N).
  pose proof (cs_edge st C _ _ _ I) as W.
  assert (T12 : t1 <> t2) by (inversion N; subst; cbn in *; intuition).
  assert (W1 : has st t1 a /\ has st t1 b) by (apply W; cbn; auto). assert (W2 : has st t2 a /\ has st t2 b) by (apply W; cbn; auto).
  pose proof W1 as W1'. pose proof W2 as W2'.
  rewrite !(has_nth st _ _ _ E1) in W1'. rewrite !(has_nth st _ _ _ E2) in W2'.
  destruct (cs_tri st C _ _ E1) as [ND1 RG1]. destruct (cs_tri st C _ _ E2) as [ND2 RG2].
  destruct (opposite_spec tri1 a b o1 ND1 (proj1 W1') (proj2 W1') ltac:(lia) O1) as (P1 & P2 & P3).
  destruct (opposite_spec tri2 a b o2 ND2 (proj1 W2') (proj2 W2') ltac:(lia) O2) as (Q1 & Q2 & Q3).
  assert (H1 : forall v, has st t1 v <-> v = a \/ v = b \/ v = o1) by (intros v; rewrite (has_nth st _ _ _ E1); apply P3).
  assert (H2 : forall v, has st t2 v <-> v = a \/ v = b \/ v = o2) by (intros v; rewrite (has_nth st _ _ _ E2); apply Q3).
  destruct (Hd t1 t2 o1 o2) as [O12 NK]; auto; try (apply W1 || apply W2 || (apply H1; auto) || (apply H2; auto)).
  cbn [fst snd] in *.
  set (m2 := aset (adel (de2t st) (a, b)) (makeKey o1 o2) [t1; t2]) in *. set (m3 := aset m2 (makeKey o1 b) (replace_all v1 t1 t2)) in *.
  set (m4 := aset m3 (makeKey o2 a) (replace_all v2 t2 t1)) in *.
  pose proof (cs_keys st C) as NK0.
  assert (NK4 : NoDup (map fst m4)).
  { unfold m4, m3, m2. apply keys_aset, keys_aset, keys_aset, keys_adel. exact NK0. }
  assert (L : forall x y, (x < y)%nat -> _) by (intros x y XY; exact (aget_m4 (de2t st) a b o1 o2 t1 t2 v1 v2 x y NK0 AB XY P1 P2 Q1 Q2 O12)).
  cbn zeta in L. fold m2 in L. fold m3 in L. fold m4 in L.
  assert (HS : forall k v, _) by (intros k v; exact (has_tset A st (dpts st) m4 (dbnd st) t1 t2 (o1, a, o2) (o1, o2, b) tri1 tri2 k v T12 E1 E2)).
  set (st' := mkd (dpts st) (tset (tset (dtris st) t1 (o1, a, o2)) t2 (o1, o2, b)) m4 (dbnd st)) in *.
  cbn [tri_list In] in HS.
  (* the old values of the two changed keys *)
  assert (KO : forall i j, i <> j -> exists x y, (x < y)%nat /\ makeKey i j = (x, y) /\ ((x = i /\ y = j) \/ (x = j /\ y = i))).
  { intros i j NE. unfold makeKey. destruct (Nat.ltb_spec j i); [exists j, i|exists i, j]; intuition lia. }
  assert (OV1 : forall x y, (x < y)%nat -> (x = o1 /\ y = b) \/ (x = b /\ y = o1) -> In ((x, y), v1) (de2t st)).
  { intros x y XY E. apply cons_get; auto. rewrite (proj2 (key_iff o1 b x y XY) ltac:(tauto)) in V1.
    destruct (L x y XY) as [[E' _]|[(_ & _ & <-)|[(E' & _)|[(E' & E'' & _)|(_ & E' & _)]]]]; [exfalso; intuition (try congruence; lia)|exact V1| | |]; exfalso; intuition (try congruence; lia). }
  assert (OV2 : forall x y, (x < y)%nat -> (x = o2 /\ y = a) \/ (x = a /\ y = o2) -> In ((x, y), v2) (de2t st)).
  { intros x y XY E. apply cons_get; auto. rewrite (proj2 (key_iff o2 a x y XY) ltac:(tauto)) in V2.
    destruct (L x y XY) as [[E' _]|[(E' & _ & _)|[(_ & _ & <-)|[(E' & E'' & _)|(_ & _ & E' & _)]]]]; [| |exact V2| |]; exfalso; intuition (try congruence; lia). }
  assert (H1n : forall v, ~ has st t1 v <-> v <> a /\ v <> b /\ v <> o1) by (intros v; rewrite H1; tauto).
  assert (MI : forall x y ts, aget m4 (x, y) = Some ts <-> In ((x, y), ts) m4) by (intros; apply aget_In; auto).
  assert (KX : forall x y ts, In ((x, y), ts) m4 -> (x < y)%nat).
  { intros x y ts J. assert (J' : In (x, y) (map fst m4)) by (apply in_map_iff; exists ((x, y), ts); auto).
    assert (S : In (x, y) (map fst m4) -> (x, y) = makeKey o2 a \/ (x, y) = makeKey o1 b \/ (x, y) = makeKey o1 o2 \/ In (x, y) (map fst (de2t st))).
    { unfold m4, m3, m2. pose proof (keys_adel (de2t st) (a, b) NK0) as [Z1 Z2].
      pose proof (keys_aset (adel (de2t st) (a, b)) (makeKey o1 o2) [t1; t2] Z1) as [Y1 Y2].
      pose proof (keys_aset _ (makeKey o1 b) (replace_all v1 t1 t2) Y1) as [X1 X2].
      pose proof (keys_aset _ (makeKey o2 a) (replace_all v2 t2 t1) X1) as [U1 U2].
      rewrite U2, X2, Y2. intuition. }
    destruct (S J') as [E|[E|[E|E]]].
    - destruct (KO o2 a Q1) as (x' & y' & X & E' & _). congruence.
    - destruct (KO o1 b P2) as (x' & y' & X & E' & _). congruence.
    - destruct (KO o1 o2 O12) as (x' & y' & X & E' & _). congruence.
    - apply in_map_iff in E. destruct E as ([e0 w] & E & J0). cbn in E. subst e0. apply (cs_val st C _ _ _ J0). }
  assert (NV1 : forall x y, (x < y)%nat -> (x = o1 /\ y = b) \/ (x = b /\ y = o1) -> In t1 v1 /\ ~ In t2 v1).
  { intros x y XY E. rewrite !(cs_edge st C _ _ _ (OV1 x y XY E)), !H1, !H2. intuition (try congruence; lia). }
  assert (NV2 : forall x y, (x < y)%nat -> (x = o2 /\ y = a) \/ (x = a /\ y = o2) -> In t2 v2 /\ ~ In t1 v2).
  { intros x y XY E. rewrite !(cs_edge st C _ _ _ (OV2 x y XY E)), !H1, !H2. intuition (try congruence; lia). }
  assert (CS : consistent st').
  { constructor.
    - intros k t E. unfold st' in E. cbn [dtris] in E. rewrite !tset_nth, E1, (proj2 (Nat.eqb_neq t2 t1)), E2 in E by auto.
      assert (RO : (a < length (dpts st) /\ b < length (dpts st) /\ o1 < length (dpts st) /\ o2 < length (dpts st))%nat).
      { repeat split; [apply RG1|apply RG1|apply RG1|apply RG2]; (apply P3 || apply Q3); auto. }
      assert (N3 : forall x y z : nat, x <> y -> x <> z -> y <> z -> NoDup [x; y; z]).
      { intros x y z X Y Z. constructor; [cbn; intuition|]. constructor; [cbn; intuition|]. constructor; [cbn; intuition|constructor]. }
      destruct (Nat.eqb_spec k t2); [|destruct (Nat.eqb_spec k t1)].
      + injection E as <-. cbn [tri_list dpts]. split; [apply N3; auto|]. cbn. intuition (subst; auto).
      + injection E as <-. cbn [tri_list dpts]. split; [apply N3; auto|]. cbn. intuition (subst; auto).
      + apply (cs_tri st C _ _ E).
    - exact NK4.
    - intros x y ts J. pose proof (KX _ _ _ J) as XY. split; [exact XY|]. apply MI in J.
      destruct (L x y XY) as [[_ Z]|[(E & Z & _)|[(E & Z & _)|[(_ & _ & Z)|(_ & _ & _ & _ & Z)]]]]; rewrite Z in J.
      + injection J as <-. split; [discriminate|]. exact N.
      + injection J as <-. destruct (cs_val st C _ _ _ (OV1 x y XY E)) as (_ & U & V). destruct (NV1 x y XY E) as [Y1 Y2].
        split; [|apply replace_all_NoDup; auto]. destruct v1; [congruence|discriminate].
      + injection J as <-. destruct (cs_val st C _ _ _ (OV2 x y XY E)) as (_ & U & V). destruct (NV2 x y XY E) as [Y1 Y2].
        split; [|apply replace_all_NoDup; auto]. destruct v2; [congruence|discriminate].
      + discriminate.
      + apply cons_get in J; auto. destruct (cs_val st C _ _ _ J) as (_ & U & V). auto.
    - intros x y ts J k. pose proof (KX _ _ _ J) as XY. apply MI in J.
      destruct (L x y XY) as [[E Z]|[(E & Z & _)|[(E & Z & _)|[(_ & _ & Z)|(X1 & X2 & X3 & X4 & Z)]]]]; rewrite Z in J.
      + injection J as <-. rewrite !HS. cbn [In]. pose proof (NK k) as NKk.
        assert (NKk' : ~ (has st k x /\ has st k y)) by (destruct E as [[-> ->]|[-> ->]]; tauto). clear - NKk' E T12 O12.
        intuition (subst; auto).
      + injection J as <-. destruct (NV1 x y XY E) as [Y1 Y2]. rewrite (replace_all_In v1 t1 t2 T12 Y2).
        rewrite !(cs_edge st C _ _ _ (OV1 x y XY E)), !HS, !H1. clear Y1 Y2 NV1 NV2 OV1 OV2 L HS.
        assert (K2 : has st t2 x /\ has st t2 y -> False) by (rewrite !H2; intuition (try congruence; lia)).
        destruct (Nat.eq_dec k t1) as [->|K1']; [|destruct (Nat.eq_dec k t2) as [->|K2']].
        * intuition (subst; try congruence; try lia).
        * intuition (subst; try congruence; try lia).
        * intuition (subst; try congruence; try lia).
      + injection J as <-. destruct (NV2 x y XY E) as [Y1 Y2]. rewrite (replace_all_In v2 t2 t1 ltac:(auto) Y2).
        rewrite !(cs_edge st C _ _ _ (OV2 x y XY E)), !HS, !H2. clear Y1 Y2 NV1 NV2 OV1 OV2 L HS.
        destruct (Nat.eq_dec k t1) as [->|K1']; [|destruct (Nat.eq_dec k t2) as [->|K2']].
        * intuition (subst; try congruence; try lia).
        * intuition (subst; try congruence; try lia).
        * intuition (subst; try congruence; try lia).
      + discriminate.
      + apply cons_get in J; auto. rewrite (cs_edge st C _ _ _ J k), !HS. clear NV1 NV2 OV1 OV2 L HS MI KX KO.
        destruct (Nat.eq_dec k t1) as [->|K1']; [|destruct (Nat.eq_dec k t2) as [->|K2']].
        * rewrite !H1. clear - X1 X2 X3 X4 XY T12 AB P1 P2 Q1 Q2 O12. intuition (subst; try congruence; try lia).
        * rewrite !H2. clear - X1 X2 X3 X4 XY T12 AB P1 P2 Q1 Q2 O12. intuition (subst; try congruence; try lia).
        * clear - K1' K2'. tauto.
    - intros k x y XY Hx Hy. rewrite HS in Hx, Hy.
      destruct (L x y XY) as [[E Z]|[(E & Z & _)|[(E & Z & _)|[(X1 & X2 & Z)|(X1 & X2 & X3 & X4 & Z)]]]].
      + eexists. apply MI. exact Z.
      + eexists. apply MI. exact Z.
      + eexists. apply MI. exact Z.
      + exfalso. subst x y. assert (K : In k [t1; t2] -> k = t1 \/ k = t2) by (cbn; intuition).
        pose proof (W k) as Wk. clear - Hx Hy K Wk P1 P2 Q1 Q2 AB O12 T12. intuition (try congruence; lia).
      + assert (J : exists k0, has st k0 x /\ has st k0 y).
        { destruct Hx as [[-> Hx]|[[-> Hx]|(K1 & K2 & Hx)]].
          - exists t1. rewrite !H1. clear - Hx Hy X1 X2 X3 X4 XY T12 AB P1 P2 Q1 Q2 O12. intuition (subst; try congruence; try lia).
          - exists t2. rewrite !H2. clear - Hx Hy X1 X2 X3 X4 XY T12 AB P1 P2 Q1 Q2 O12. intuition (subst; try congruence; try lia).
          - exists k. clear - K1 K2 Hx Hy. intuition. }
        destruct J as (k0 & J1 & J2). destruct (cs_all st C k0 x y XY J1 J2) as [ts J]. exists ts. apply MI. rewrite Z. apply cons_get; auto. }
  split; [exact CS|]. intros _. split.
  - intros ts J. apply MI in J. destruct (L a b AB) as [[E Z]|[(E & Z & _)|[(E & Z & _)|[(X1 & X2 & Z)|(X1 & X2 & X3 & X4 & Z)]]]]; try (clear - E P1 P2 Q1 Q2; intuition congruence).
    + congruence.
    + tauto.
  - exists t1, t2, o1, o2. split; [split; [auto|]; split; [apply H1; auto|]; split; [apply H2; auto|exact I]|].
    apply MI. assert (XY : (Nat.min o1 o2 < Nat.max o1 o2)%nat) by lia.
    destruct (L _ _ XY) as [[E Z]|[(E & Z & _)|[(E & Z & _)|[(X1 & X2 & Z)|(X1 & X2 & X3 & X4 & Z)]]]]; [exact Z| | | |]; exfalso.
    + clear - E P1 P2 Q1 Q2 O12. lia.
    + clear - E P1 P2 Q1 Q2 O12. lia.
    + clear - X1 X2 P1 P2 Q1 Q2 O12. lia.
    + clear - X1. lia.
Qed.

Lemma get_ok : forall X (l : list X) k x, nth_error l k = Some x -> get l k = Ok x.
Proof. intros. unfold get. rewrite H. reflexivity. Qed.
Lemma test_ok : forall (A : Arith) (ps : list (pt A)) o1 o2 a b, (o1 < length ps)%nat -> (o2 < length ps)%nat -> (a < length ps)%nat -> (b < length ps)%nat ->
  exists v, delaunay_test ps o1 o2 (a, b) = Ok v.
Proof.
  intros A ps o1 o2 a b L1 L2 La Lb.
  assert (G : forall k, (k < length ps)%nat -> exists p, get ps k = Ok p).
  { intros k L. unfold get. destruct (nth_error ps k) eqn:E; [eauto|]. apply nth_error_None in E. lia. }
  destruct (G _ L1) as [p1 P1], (G _ L2) as [p2 P2], (G _ La) as [pa Pa], (G _ Lb) as [pb Pb].
  unfold delaunay_test, getArea, opp_angle. cbn [fst snd]. rewrite P1, P2, Pa, Pb. cbn [bind]. eauto.
Qed.
Lemma flip_eval : forall (A : Arith) (st : dst A) a b k1 k2 u w, consistent st -> In ((a, b), [k1; k2]) (de2t st) ->
  has st k1 u -> u <> a -> u <> b -> has st k2 w -> w <> a -> w <> b ->
  exists v st', delaunay_test (dpts st) u w (a, b) = Ok v /\ flipOneEdge st (a, b) =
    Ok (if v then (st', [makeKey u b; makeKey w a; makeKey u a; makeKey w b]) else (st, [])).
Proof.
  intros A st a b k1 k2 u w C I Hu Ua Ub Hw Wa Wb.
  destruct (cs_val st C _ _ _ I) as (AB & _ & N). pose proof (cs_edge st C _ _ _ I) as W.
  assert (W1 : has st k1 a /\ has st k1 b) by (apply W; cbn; auto). assert (W2 : has st k2 a /\ has st k2 b) by (apply W; cbn; auto).
  pose proof Hu as (tri1 & E1 & _). pose proof Hw as (tri2 & E2 & _).
  assert (T12 : k1 <> k2) by (inversion N; subst; cbn in *; intuition).
  destruct (cs_tri st C _ _ E1) as [ND1 RG1]. destruct (cs_tri st C _ _ E2) as [ND2 RG2].
  pose proof W1 as W1'. pose proof W2 as W2'. rewrite !(has_nth st _ _ _ E1) in W1'. rewrite !(has_nth st _ _ _ E2) in W2'.
  destruct (opposite_some tri1 a b ND1) as [o1 O1]. destruct (opposite_some tri2 a b ND2) as [o2 O2].
  destruct (opposite_spec tri1 a b o1 ND1 (proj1 W1') (proj2 W1') ltac:(lia) O1) as (P1 & P2 & P3).
  destruct (opposite_spec tri2 a b o2 ND2 (proj1 W2') (proj2 W2') ltac:(lia) O2) as (Q1 & Q2 & Q3).
  assert (o1 = u) by (apply (has_nth st _ _ _ E1) in Hu; apply P3 in Hu; intuition congruence).
  assert (o2 = w) by (apply (has_nth st _ _ _ E2) in Hw; apply Q3 in Hw; intuition congruence). subst o1 o2.
  destruct (test_ok A (dpts st) u w a b) as [v V]; try (apply RG1, P3; auto; fail); try (apply RG2, Q3; auto; fail).
  exists v. unfold flipOneEdge. rewrite (proj2 (cons_get st a b _ C) I). rewrite (get_ok _ _ _ _ E1), (get_ok _ _ _ _ E2). cbn [bind]. rewrite O1, O2, V. cbn [bind fst snd].
  destruct v; [|exists st; auto].
  pose proof (cs_keys st C) as NK0.
  assert (KS : forall i j k, has st k i -> has st k j -> i <> j -> makeKey i j <> (a, b) -> forall m0 : list nat, forall kk, exists v, aget (aset (adel (de2t st) (a, b)) kk m0) (makeKey i j) = Some v).
  { intros i j k Hi Hj IJ NE m0 kk. rewrite aget_aset, aget_adel by auto. destruct (edge_eqb kk (makeKey i j)); [eauto|].
    destruct (edge_eqb (a, b) (makeKey i j)) eqn:Z; [apply edge_eqb_iff in Z; congruence|].
    unfold makeKey. destruct (Nat.ltb_spec j i).
    - destruct (cs_all st C k j i) as [ts T]; auto. exists ts. apply cons_get; auto.
    - destruct (cs_all st C k i j) as [ts T]; auto; try lia. exists ts. apply cons_get; auto. }
  destruct (KS u b k1 Hu (proj2 W1) Ub ltac:(rewrite key_iff by auto; intuition) [k1; k2] (makeKey u w)) as [v1 V1]. rewrite V1.
  rewrite aget_aset. destruct (edge_eqb (makeKey u b) (makeKey w a)).
  - eexists. split; reflexivity.
  - destruct (KS w a k2 Hw (proj1 W2) Wa ltac:(rewrite key_iff by auto; intuition) [k1; k2] (makeKey u w)) as [v2 V2]. rewrite V2. eexists. split; reflexivity.
Qed.

(*@ C45_flip_total *)
(** C45: in a consistent triangulation flipping an edge never fails, unless more than two triangles
    share the edge (ValueError). *)
Lemma flip_total : forall (A : Arith) (st : dst A) a b, consistent st ->
  ((forall ts, In ((a, b), ts) (de2t st) -> (length ts <= 2)%nat) -> exists st' r, flipOneEdge st (a, b) = Ok (st', r)) /\
  (forall ts, In ((a, b), ts) (de2t st) -> (2 < length ts)%nat -> flipOneEdge st (a, b) = Err ValueError).
Proof.
  intros A st a b C. split.
  - intros H. destruct (aget (de2t st) (a, b)) as [ts|] eqn:G; [|unfold flipOneEdge; rewrite G; eauto].
    pose proof (proj1 (cons_get st a b ts C) G) as I. pose proof (H ts I) as L.
    destruct ts as [|k1 [|k2 [|]]]; [unfold flipOneEdge; rewrite G; eauto|unfold flipOneEdge; rewrite G; eauto| |cbn in L; lia].
    destruct (cs_val st C _ _ _ I) as (AB & _ & _). pose proof (cs_edge st C _ _ _ I) as W.
    assert (O : forall k, In k [k1; k2] -> exists u, has st k u /\ u <> a /\ u <> b).
    { intros k K. apply W in K. destruct K as [Ka Kb]. pose proof Ka as (t & E & _). destruct (cs_tri st C _ _ E) as [ND _].
      destruct (opposite_some t a b ND) as [o O]. apply (has_nth st _ _ a E) in Ka. apply (has_nth st _ _ b E) in Kb.
      destruct (opposite_spec t a b o ND Ka Kb ltac:(lia) O) as (P1 & P2 & P3). exists o. split; [|auto]. apply (has_nth st _ _ _ E), P3. auto. }
    destruct (O k1 ltac:(cbn; auto)) as (u & U1 & U2 & U3). destruct (O k2 ltac:(cbn; auto)) as (w & W1 & W2 & W3).
    destruct (flip_eval A st a b k1 k2 u w) as (v & st' & _ & F); auto. rewrite F. destruct v; eauto.
  - intros ts I L. apply (cons_get st a b ts C) in I. unfold flipOneEdge. rewrite I. destruct ts as [|? [|? [|? ?]]]; cbn in L; try lia. reflexivity.
Qed.
