(** In-place transformations of polygons: purge, move, mirror, rotate. *)
From Coq Require Import Reals ZArith Lra Lia Bool List Psatz Permutation Arith.
From Verif Require Import Base Arith ArithR ArithF MPoint MLine MPoly MHeap Spec SpecHeap PPoint PLine PTrig PShape PConvex PTri POrder.
Import ListNotations.
#[local] Existing Instance RA.

(** ** Lists *)
Lemma map_dedup_acc : forall X Y (k : X -> Y) (e : Y -> Y -> bool) l acc,
  map k (dedup_acc (fun a b => e (k a) (k b)) l acc) = dedup_acc e (map k l) (map k acc).
Proof.
  induction l as [|x l IH]; intros acc; simpl; auto.
  assert (M : memb (fun a b => e (k a) (k b)) x acc = memb e (k x) (map k acc)) by (induction acc; simpl; congruence).
  rewrite M. destruct (memb e (k x) (map k acc)); rewrite IH; auto. rewrite map_app. reflexivity.
Qed.
Lemma map_dedup : forall X Y (k : X -> Y) (e : Y -> Y -> bool) l,
  map k (dedup (fun a b => e (k a) (k b)) l) = dedup e (map k l).
Proof. intros. unfold dedup. rewrite map_dedup_acc. reflexivity. Qed.
Lemma dedup_acc_incl : forall X (e : X -> X -> bool) l acc x, In x (dedup_acc e l acc) -> In x l \/ In x acc.
Proof.
  induction l as [|y l IH]; intros acc x; simpl; auto. destruct (memb e y acc); intros H; apply IH in H.
  - tauto.
  - rewrite in_app_iff in H. simpl in H. tauto.
Qed.

Lemma In_objects : forall l o, In o (objects l) <-> exists s, In s l /\ (o = hi s \/ o = hj s).
Proof.
  intros l o. unfold objects. rewrite in_flat_map. split; intros (s & I & H); exists s; split; auto; simpl in *; intuition.
Qed.

Lemma hall_perm : forall (h : heap RA) l, Permutation (hall_points h l) (objects l).
Proof. intros. apply sort_by_perm. Qed.

Lemma hpoint_set_spec : forall (h : heap RA) l,
  (forall o, In o (hpoint_set h l) -> In o (objects l)) /\
  (forall o, In o (objects l) -> exists o', In o' (hpoint_set h l) /\ h o' = h o) /\
  NoDup (map h (hpoint_set h l)).
Proof.
  intros h l. unfold hpoint_set. pose proof (hall_perm h l) as P.
  set (D := dedup (fun a b => pt_sameb (h a) (h b)) (hall_points h l)).
  pose proof (sort_by_perm _ (fun a b => lex_ltb (h a) (h b)) D) as Q.
  assert (M : map h D = dedup pt_sameb (map h (hall_points h l))) by apply (map_dedup _ _ h).
  split; [|split].
  - intros o I. apply (Permutation_in _ Q) in I. apply dedup_acc_incl in I as [I|[]]. apply (Permutation_in _ P I).
  - intros o I. apply (Permutation_in _ (Permutation_sym P)) in I.
    assert (In (h o) (map h D)) as J by (rewrite M; apply dedup_In; [apply pt_sameb_iff|apply in_map; auto]).
    apply in_map_iff in J as (o' & E & J). exists o'. split; auto. apply (Permutation_in _ (Permutation_sym Q) J).
  - apply (Permutation_NoDup (Permutation_sym (Permutation_map h Q))). rewrite M. apply dedup_NoDup, pt_sameb_iff.
Qed.

Lemma fold_hset : forall (f : pt RA -> pt RA) os (h : heap RA), NoDup os ->
  forall o, (In o os -> fold_left (fun h o => hset h o (f (h o))) os h o = f (h o)) /\
            (~ In o os -> fold_left (fun h o => hset h o (f (h o))) os h o = h o).
Proof.
  intros f os. induction os as [|a os IH]; intros h N o; simpl; [tauto|].
  inversion N; subst. destruct (IH (hset h a (f (h a))) H2 o) as [I1 I2]. unfold hset in *.
  destruct (Nat.eqb_spec o a) as [->|Ne].
  - split; [intros _; rewrite I2 by auto; reflexivity|intros C; exfalso; apply C; auto].
  - split; [intros [C|C]; [congruence|auto]|intros C; apply I2; tauto].
Qed.

(** One pass over the points moves every end point once and nothing else. *)
Lemma transform_spec : forall (f : pt RA -> pt RA) (h : heap RA) (P : hpoly),
  one_object_per_place h (hsegs (purge h P)) ->
  let '(h', P') := transform f h P in
  P' = purge h P /\
  (forall o, In o (objects (hsegs P')) -> h' o = f (h o)) /\
  (forall o, ~ In o (objects (hsegs P')) -> h' o = h o).
Proof.
  intros f h P S. unfold transform. destruct (hpoint_set_spec h (hsegs (purge h P))) as (I1 & I2 & N).
  apply NoDup_map_inv in N. split; [reflexivity|]. split; intros o H.
  - apply fold_hset; auto. destruct (I2 o H) as (o' & J & E). rewrite <- (S o' o (I1 _ J) H E). exact J.
  - apply fold_hset; auto.
Qed.

(** ** purge *)
Definition hsep (h : heap RA) (l : list hseg) : Prop := separated (map h (objects l)).

Lemma ends_view : forall (h : heap RA) l, flat_map ij (view h l) = map h (objects l).
Proof. induction l as [|s l IH]; simpl; auto. unfold objects in *. simpl. rewrite IH. reflexivity. Qed.

Lemma hsep_eqb : forall h l, hsep h l -> forall a b, In a (objects l) -> In b (objects l) -> (pt_eqb (h a) (h b) = true <-> h a = h b).
Proof.
  intros h l S a b Ia Ib. split; [|intros ->; apply pt_eqb_refl].
  apply (separated_eqb _ S); apply in_map; auto.
Qed.

(** The pass replaces exactly the end points at the place of x by f. *)
Definition subst_end (h : heap RA) (c : pt RA) (f : nat) (s : hseg) (s' : hseg) : Prop :=
  hc s' = hc s /\ (h (hi s) = c -> hi s' = f) /\ (h (hi s) <> c -> hi s' = hi s) /\
  (h (hj s) = c -> hj s' = f) /\ (h (hj s) <> c -> hj s' = hj s).

Lemma purge_pass_spec : forall (h : heap RA) x f l cur,
  (forall a, In a (objects l) -> (pt_eqb (h a) (h x) = true <-> h a = h x)) -> proper h l ->
  h f = h x -> h cur = h x -> Forall2 (subst_end h (h x) f) l (purge_pass h x f cur l).
Proof.
  induction l as [|s l IH]; intros cur E N F C; simpl; [constructor|].
  assert (EL : forall a, In a (objects l) -> (pt_eqb (h a) (h x) = true <-> h a = h x)) by (intros a I; apply E; unfold objects; simpl; auto).
  assert (NL : proper h l) by (intros s' I; apply N; right; auto).
  assert (Ei : pt_eqb (h (hi s)) (h x) = true <-> h (hi s) = h x) by (apply E; unfold objects; simpl; auto).
  assert (Ej : pt_eqb (h (hj s)) (h x) = true <-> h (hj s) = h x) by (apply E; unfold objects; simpl; auto).
  specialize (N s (or_introl eq_refl)). rewrite C.
  destruct (pt_eqb (h (hi s)) (h x)) eqn:Q1.
  - assert (h (hi s) = h x) as K by (apply Ei; auto). rewrite orb_true_r. simpl. constructor; [|apply IH; auto].
    split; [reflexivity|]. simpl. split; [auto|]. split; [congruence|]. split; [intros; exfalso; congruence|auto].
  - assert (h (hi s) <> h x) as K by (intros K; apply Ei in K; congruence).
    destruct (Nat.eqb_spec (hi s) x) as [Ex|Nx]; [exfalso; apply K; rewrite Ex; reflexivity|].
    destruct (pt_eqb (h (hj s)) (h x)) eqn:Q2.
    + assert (h (hj s) = h x) as K2 by (apply Ej; auto). rewrite orb_true_r. simpl. constructor; [|apply IH; auto].
      split; [reflexivity|]. simpl. split; [congruence|]. split; [auto|]. split; [auto|congruence].
    + assert (h (hj s) <> h x) as K2 by (intros K2; apply Ej in K2; congruence).
      destruct (Nat.eqb_spec (hj s) x) as [Ex|Ny]; [exfalso; apply K2; rewrite Ex; reflexivity|]. simpl. constructor; [|apply IH; auto].
      repeat split; auto; congruence.
Qed.

Lemma subst_view : forall h c f l l', h f = c -> Forall2 (subst_end h c f) l l' -> view h l' = view h l.
Proof.
  intros h c f l l' F. induction 1 as [|s s' l l' (H1 & H2 & H3 & H4 & H5) _ IH]; simpl; auto. rewrite IH. f_equal.
  unfold seg_view. rewrite H1. f_equal.
  - destruct (pt_sameb (h (hi s)) c) eqn:E; [apply pt_sameb_iff in E|apply pt_sameb_false in E].
    + rewrite H2; congruence.
    + rewrite H3; auto.
  - destruct (pt_sameb (h (hj s)) c) eqn:E; [apply pt_sameb_iff in E|apply pt_sameb_false in E].
    + rewrite H4; congruence.
    + rewrite H5; auto.
Qed.

Lemma subst_ends : forall h c f l l', h f = c -> Forall2 (subst_end h c f) l l' ->
  forall o, In o (objects l') -> (o = f /\ exists o', In o' (objects l) /\ h o' = c) \/ (In o (objects l) /\ h o <> c).
Proof.
  intros h c f l l' F. induction 1 as [|s s' l l' (H1 & H2 & H3 & H4 & H5) _ IH]; intros o I; [destruct I|].
  unfold objects in *. simpl in *.
  assert (D : forall x, h x = c \/ h x <> c).
  { intros x. destruct (pt_sameb (h x) c) eqn:E; [apply pt_sameb_iff in E|apply pt_sameb_false in E]; auto. }
  destruct I as [I|[I|I]].
  - destruct (D (hi s)) as [K|K]; [left; rewrite H2 in I by auto|right; rewrite H3 in I by auto].
    + split; auto. exists (hi s). auto.
    + subst; auto.
  - destruct (D (hj s)) as [K|K]; [left; rewrite H4 in I by auto|right; rewrite H5 in I by auto].
    + split; auto. exists (hj s). auto.
    + subst; auto.
  - destruct (IH o I) as [[? (o' & ? & ?)]|[? ?]]; [left; split; auto; exists o'; auto|right; auto].
Qed.

Definition cnt (h : heap RA) (c : pt RA) (l : list nat) : nat := length (filter (fun o => pt_sameb (h o) c) l).
Lemma cnt_app : forall h c a b, cnt h c (a ++ b) = (cnt h c a + cnt h c b)%nat.
Proof. intros. unfold cnt. rewrite filter_app, app_length. reflexivity. Qed.
Lemma cnt_perm : forall h c a b, Permutation a b -> cnt h c a = cnt h c b.
Proof. intros h c a b P. unfold cnt. apply filter_perm_length. exact P. Qed.

Lemma view_ends_coords : forall (h : heap RA) l l', view h l' = view h l -> map h (objects l') = map h (objects l).
Proof. intros h l l' E. rewrite <- !ends_view, E. reflexivity. Qed.

Definition PInv (h : heap RA) (l0 : list hseg) (D : list nat) (st : list nat * list hseg) : Prop :=
  view h (snd st) = view h l0 /\ incl (objects (snd st)) (objects l0) /\ incl (fst st) (objects l0) /\
  (forall c, (1 <= cnt h c D)%nat <-> In c (map h (fst st))) /\ NoDup (map h (fst st)) /\
  (forall c, (2 <= cnt h c D)%nat -> exists y, In y (fst st) /\ h y = c /\ forall o, In o (objects (snd st)) -> h o = c -> o = y).

Lemma nonnull_view : forall h l l', view h l' = view h l -> proper h l -> proper h l'.
Proof.
  intros h l l' E N s I. assert (In (seg_view h s) (view h l)) as J by (rewrite <- E; apply in_map; auto).
  apply in_map_iff in J as (s0 & E0 & J). specialize (N s0 J). unfold seg_view in E0. injection E0 as _ E1 E2. congruence.
Qed.

Lemma purge_step_inv : forall h l0 D st x, hsep h l0 -> proper h l0 -> In x (objects l0) ->
  PInv h l0 D st -> PInv h l0 (D ++ [x]) (purge_step h st x).
Proof.
  intros h l0 D [seen l] x SP NN IX (V & EI & SI & C1 & ND & C2). simpl fst in *. simpl snd in *.
  assert (C1x : forall c, cnt h c [x] = if pt_sameb (h x) c then 1%nat else 0%nat).
  { intros c. unfold cnt. simpl. destruct (pt_sameb (h x) c); reflexivity. }
  unfold purge_step.
  assert (FS : forall y, In y (filter (fun y => pt_eqb (h x) (h y)) seen) <-> In y seen /\ h y = h x).
  { intros y. rewrite filter_In. split; intros [I E]; split; auto.
    - symmetry. apply (hsep_eqb h l0 SP x y IX (SI _ I)). exact E.
    - apply (hsep_eqb h l0 SP x y IX (SI _ I)). auto. }
  destruct (filter (fun y => pt_eqb (h x) (h y)) seen) as [|f r] eqn:EF.
  - assert (Z : cnt h (h x) D = 0%nat).
    { destruct (cnt h (h x) D) eqn:E; auto. exfalso. assert (In (h x) (map h seen)) as J by (apply C1; lia).
      apply in_map_iff in J as (y & E1 & J). apply (proj2 (FS y)); auto. }
    assert (NI : ~ In (h x) (map h seen)) by (intros J; apply C1 in J; lia).
    split; [|split; [|split; [|split; [|split]]]]; simpl; auto.
    + intros o I. apply in_app_iff in I as [I|[<-|[]]]; auto.
    + intros c. rewrite cnt_app, C1x, map_app, in_app_iff, <- C1. simpl.
      destruct (pt_sameb (h x) c) eqn:E; [apply pt_sameb_iff in E|apply pt_sameb_false in E].
      * split; auto. lia.
      * split; [left; lia|intros [?|[?|[]]]; [lia|congruence]].
    + rewrite map_app. apply NoDup_Add with (l := map h seen) (a := h x).
      * pose proof (Add_app (h x) (map h seen) []) as Q. rewrite app_nil_r in Q. exact Q.
      * auto.
    + intros c. rewrite cnt_app, C1x. destruct (pt_sameb (h x) c) eqn:E; [apply pt_sameb_iff in E; subst; lia|].
      intros L. destruct (C2 c ltac:(lia)) as (y & Iy & Ey & U). exists y. split; [apply in_app_iff; auto|auto].
  - assert (IF : In f seen /\ h f = h x) by (apply FS; left; auto). destruct IF as [IF EFx].
    assert (PP : Forall2 (subst_end h (h x) f) l (purge_pass h x f x l)).
    { apply purge_pass_spec; auto.
      - intros a Ia. apply (hsep_eqb h l0 SP); auto.
      - eapply nonnull_view; eauto. }
    split; [|split; [|split; [|split; [|split]]]]; simpl; auto.
    + rewrite (subst_view h (h x) f l _ EFx PP). exact V.
    + intros o I. destruct (subst_ends h (h x) f l _ EFx PP o I) as [[-> _]|[I' _]]; auto.
    + intros c. rewrite cnt_app, C1x, <- C1. destruct (pt_sameb (h x) c) eqn:E; [apply pt_sameb_iff in E|apply pt_sameb_false in E]; [|rewrite Nat.add_0_r; tauto].
      split; [intros _|lia]. apply C1. subst c. rewrite <- EFx. apply in_map. auto.
    + intros c L. rewrite cnt_app, C1x in L. destruct (pt_sameb (h x) c) eqn:E; [apply pt_sameb_iff in E|apply pt_sameb_false in E].
      * subst c. exists f. split; auto. split; auto. intros o I Eo.
        destruct (subst_ends h (h x) f l _ EFx PP o I) as [[-> _]|[_ K]]; auto. congruence.
      * destruct (C2 c ltac:(lia)) as (y & Iy & Ey & U). exists y. split; auto. split; auto.
        intros o I Eo. destruct (subst_ends h (h x) f l _ EFx PP o I) as [[-> _]|[I' _]]; [congruence|auto].
Qed.

Lemma purge_loop_inv : forall h l0 R D st, hsep h l0 -> proper h l0 -> incl R (objects l0) ->
  PInv h l0 D st -> PInv h l0 (D ++ R) (fold_left (purge_step h) R st).
Proof.
  intros h l0 R. induction R as [|x R IH]; intros D st SP NN I P; simpl; [rewrite app_nil_r; auto|].
  replace (D ++ x :: R) with ((D ++ [x]) ++ R) by (rewrite <- app_assoc; reflexivity).
  apply IH; auto; [intros y Iy; apply I; right; auto|]. apply purge_step_inv; auto. apply I. left; auto.
Qed.

(** Slots with the same coordinates: two different positions count twice. *)
Lemma two_slots : forall h l a b, In a l -> In b l -> h a = h b -> a <> b -> (2 <= cnt h (h a) l)%nat.
Proof.
  intros h l a b Ia Ib E N. apply in_split in Ia as (l1 & l2 & ->).
  assert (In b (l1 ++ l2)) as J. { apply in_app_iff in Ib as [?|[?|?]]; [apply in_app_iff; auto|congruence|apply in_app_iff; auto]. }
  rewrite (cnt_perm h (h a) _ (a :: l1 ++ l2) (Permutation_sym (Permutation_middle _ _ _))).
  unfold cnt. simpl. rewrite pt_sameb_refl. simpl.
  assert (In b (filter (fun o => pt_sameb (h o) (h a)) (l1 ++ l2))) as K by (apply filter_In; split; auto; rewrite <- E; apply pt_sameb_refl).
  destruct (filter _ (l1 ++ l2)); [destruct K|simpl; lia].
Qed.

Lemma purge_spec : forall h P, hsep h (hsegs P) -> proper h (hsegs P) -> (hpurged P = true -> one_object_per_place h (hsegs P)) ->
  let P' := purge h P in
  view h (hsegs P') = view h (hsegs P) /\ incl (objects (hsegs P')) (objects (hsegs P)) /\
  hpurged P' = true /\ one_object_per_place h (hsegs P').
Proof.
  intros h [l b] SP NN PS. unfold purge. simpl in *. destruct b.
  - simpl. repeat split; auto. apply incl_refl.
  - destruct (Nat.eqb_spec (length (hpoint_set h l)) (length (hall_points h l))) as [E|E]; simpl.
    + repeat split; auto; [apply incl_refl|]. 
      assert (ND : NoDup (map h (objects l))).
      { unfold hpoint_set in E. rewrite (Permutation_length (sort_by_perm _ _ _)) in E.
        apply (Permutation_NoDup (Permutation_map h (hall_perm h l))).
        eapply NoDup_incl_NoDup; [apply (dedup_NoDup _ pt_sameb pt_sameb_iff (map h (hall_points h l)))| |].
        - rewrite <- (map_dedup _ _ h), !map_length. lia.
        - intros c I. apply dedup_In in I; [auto|apply pt_sameb_iff]. }
      intros a c Ia Ic Eq. destruct (Nat.eq_dec a c) as [|Ne]; auto. exfalso.
      pose proof (two_slots h (objects l) a c Ia Ic Eq Ne) as T. unfold cnt in T.
      assert (L : forall m, NoDup (map h m) -> (length (filter (fun o => pt_sameb (h o) (h a)) m) <= 1)%nat).
      { induction m as [|x m IH]; simpl; auto. intros Nm. inversion Nm; subst.
        destruct (pt_sameb (h x) (h a)) eqn:Q; [|auto]. apply pt_sameb_iff in Q. simpl.
        destruct (filter (fun o => pt_sameb (h o) (h a)) m) as [|y r] eqn:EF; [simpl; lia|].
        exfalso. assert (In y (filter (fun o => pt_sameb (h o) (h a)) m)) as J by (rewrite EF; left; auto).
        apply filter_In in J as [J1 J2]. apply pt_sameb_iff in J2. apply H1. rewrite Q, <- J2. apply in_map; auto. }
      specialize (L (objects l) ND). lia.
    + assert (I0 : PInv h l [] ([], l)).
      { split; [reflexivity|]. split; [apply incl_refl|]. split; [apply incl_nil_l|]. unfold cnt. simpl.
        split; [intros c; split; [lia|intros []]|]. split; [constructor|]. intros c; lia. }
      pose proof (purge_loop_inv h l (hall_points h l) [] ([], l) SP NN) as Q.
      specialize (Q (fun o I => Permutation_in _ (hall_perm h l) I) I0).
      destruct Q as (V & EI & SI & C1 & ND & C2). simpl app in *.
      split; [exact V|]. split; [exact EI|]. split; [reflexivity|].
      intros a c Ia Ic Eq. destruct (Nat.eq_dec a c) as [|Ne]; auto. exfalso.
      set (l' := snd (fold_left (purge_step h) (hall_points h l) ([], l))) in *.
      assert (T : (2 <= cnt h (h a) (hall_points h l))%nat).
      { rewrite (cnt_perm _ _ _ _ (hall_perm h l)).
        assert (EC : map h (objects l') = map h (objects l)) by (apply view_ends_coords; auto).
        assert (CC : forall m m', map h m = map h m' -> cnt h (h a) m = cnt h (h a) m').
        { unfold cnt. induction m as [|x m IH]; intros [|y m'] Em; simpl in *; try discriminate; auto.
          injection Em as E1 E2. rewrite E1. destruct (pt_sameb (h y) (h a)); simpl; rewrite (IH m' E2); reflexivity. }
        rewrite <- (CC _ _ EC). apply (two_slots h (objects l') a c); auto. }
      destruct (C2 _ T) as (y & _ & _ & U). apply Ne. rewrite (U a Ia eq_refl), (U c Ic (eq_sym Eq)). reflexivity.
Qed.

(** ** Transformations on sound polygons *)
Lemma sound_purge : forall h P, sound h P -> sound h (purge h P).
Proof.
  intros h P (S & N & B). destruct (purge_spec h P S N B) as (V & I & _ & O). split; [|split; auto].
  - rewrite (view_ends_coords _ _ _ V). exact S.
  - eapply nonnull_view; eauto.
Qed.

Lemma transform_view : forall f h P, sound h P ->
  let '(h', P') := transform f h P in
  view h' (hsegs P') = map (seg_image f) (view h (hsegs P)) /\
  incl (objects (hsegs P')) (objects (hsegs P)) /\ hpurged P' = true /\
  (forall o, ~ In o (objects (hsegs P)) -> h' o = h o) /\
  one_object_per_place h (hsegs P') /\
  (forall o, In o (objects (hsegs P')) -> h' o = f (h o)).
Proof.
  intros f h P (S & N & B). destruct (purge_spec h P S N B) as (V & I & HP & O).
  pose proof (transform_spec f h P O) as T. destruct (transform f h P) as [h' P']. destruct T as (-> & T1 & T2).
  split; [|repeat split; auto].
  rewrite <- V. unfold view. rewrite map_map. apply map_ext_in. intros s Is. unfold seg_view, seg_image. simpl.
  rewrite !T1; auto; apply In_objects; exists s; auto.
Qed.

(** The image of a sound polygon is sound if f keeps coordinate differences. *)
Lemma transform_sound : forall f h P, sound h P ->
  (forall p q, In p (map h (objects (hsegs P))) -> In q (map h (objects (hsegs P))) ->
     Rabs (px (f p) - px (f q)) = Rabs (px p - px q) /\ Rabs (py (f p) - py (f q)) = Rabs (py p - py q)) ->
  let '(h', P') := transform f h P in sound h' P'.
Proof.
  intros f h P SO F. pose proof (transform_view f h P SO) as T. destruct (transform f h P) as [h' P'].
  destruct T as (V & I & HP & _ & O & E). destruct SO as (S & N & B).
  assert (E' : forall o, In o (objects (hsegs P')) -> In (h o) (map h (objects (hsegs P)))) by (intros; apply in_map; auto).
  assert (J : forall a b, In a (objects (hsegs P')) -> In b (objects (hsegs P')) -> h' a = h' b -> h a = h b).
  { intros a b Ia Ib Q. rewrite !E in Q by auto. destruct (F (h a) (h b)) as [F1 F2]; auto.
    rewrite Q in F1, F2. apply S; auto; [rewrite <- F1|rewrite <- F2]; rewrite Rminus_diag_eq, Rabs_R0 by auto; lra. }
  split; [|split].
  - intros p q Ip Iq. apply in_map_iff in Ip as (a & <- & Ia). apply in_map_iff in Iq as (b & <- & Ib).
    rewrite !E by auto. destruct (F (h a) (h b)) as [-> ->]; auto. intros D1 D2. f_equal. apply S; auto.
  - intros s Is C. pose proof (J (hi s) (hj s)) as K.
    assert (In (hi s) (objects (hsegs P')) /\ In (hj s) (objects (hsegs P'))) as [K1 K2] by (split; apply In_objects; exists s; auto).
    specialize (K K1 K2 C). pose proof (O _ _ K1 K2 K) as K3.
    assert (In (seg_view h' s) (map (seg_image f) (view h (hsegs P)))) as X by (rewrite <- V; apply in_map; auto).
    apply in_map_iff in X as (sv & X1 & X2). apply in_map_iff in X2 as (s0 & <- & X3).
    assert (In (h (hi s0)) (map h (objects (hsegs P))) /\ In (h (hj s0)) (map h (objects (hsegs P)))) as [Y1 Y2]
      by (split; apply in_map, In_objects; exists s0; auto).
    destruct (F _ _ Y1 Y2) as [F1 F2]. unfold seg_view, seg_image in X1. simpl in X1. injection X1 as X4 X5 X6.
    rewrite X5, X6, C in F1, F2. apply (N s0 X3). apply S; auto; [rewrite <- F1|rewrite <- F2]; rewrite Rminus_diag_eq, Rabs_R0 by auto; lra.
  - intros _ a b Ia Ib Q. apply O; auto.
Qed.

(*@ C27_purge *)
(** C27: after purging coincident end points are one object, which was one of the objects before;
    the polygon looks as before (purge has no effect on the coordinates of any object), and purging
    again changes nothing. *)
Lemma purge_sound : forall (h : heap RA) (P : hpoly), sound h P ->
  let P' := purge h P in
  one_object_per_place h (hsegs P') /\ incl (objects (hsegs P')) (objects (hsegs P)) /\
  view h (hsegs P') = view h (hsegs P) /\ hpurged P' = true /\ sound h P' /\ purge h P' = P'.
Proof.
  intros h P SO P'. pose proof (sound_purge h P SO). destruct SO as (S & N & B). destruct (purge_spec h P S N B) as (V & I & HP & O).
  repeat split; auto; try apply H. unfold purge. fold P'. change (hpurged P' = true) in HP. rewrite HP. reflexivity.
Qed.

Lemma stored_grid : forall p : pt RA, stored p <-> grid_pt p.
Proof.
  intros p. unfold stored, grid_pt, on_grid. split; intros [[k K] [l L]]; split.
  - exists k. rewrite K. lra.
  - exists l. rewrite L. lra.
  - exists k. rewrite K. lra.
  - exists l. rewrite L. lra.
Qed.
Lemma decimal8_grid : forall x, decimal8 x <-> on_grid x.
Proof. intros x. unfold decimal8, on_grid. split; intros [k K]; exists k; rewrite K; lra. Qed.

Lemma move_pt_exact : forall u v p, decimal8 u -> decimal8 v -> stored p -> move_pt u v p = translate u v p.
Proof.
  intros u v p U V S. apply decimal8_grid in U, V. apply stored_grid in S as [S1 S2]. unfold move_pt, translate. rewrite Point_new_id; auto.
  - apply grid_plus; auto.
  - apply grid_plus; auto.
Qed.
Lemma mirror_pt_exact : forall x0 p, decimal8 x0 -> stored p -> mirror_pt x0 p = mirror x0 p.
Proof.
  intros u p U S. apply decimal8_grid in U. apply stored_grid in S as [S1 S2]. unfold mirror_pt, mirror, n2. ra_simpl. rewrite Point_new_id; auto.
  - f_equal. ring.
  - apply grid_minus; auto. apply (grid_mulZ 2). apply grid_minus; auto.
Qed.

(** ** Views of images *)
Lemma pairs_map : forall X Y (f : X -> Y) l, pairs (map f l) = map (fun '(a, b) => (f a, f b)) (pairs l).
Proof. intros X Y f l. unfold pairs. induction l as [|x [|y l] IH]; simpl in *; auto. f_equal; auto. Qed.
Lemma last_opt_map : forall X Y (f : X -> Y) l, last_opt (map f l) = option_map f (last_opt l).
Proof.
  intros X Y f [|x l]; simpl; auto. f_equal. revert x. induction l as [|y l IH]; intros x; simpl in *; auto. destruct l; simpl in *; auto.
Qed.

Definition rigid (f : pt RA -> pt RA) : Prop :=
  forall p q : pt RA, pt_eqb (f p) (f q) = pt_eqb p q /\ pt_distance (f p) (f q) = pt_distance p q.
Lemma image_continuous : forall f l, rigid f ->
  iscontinuous (map (seg_image f) l) = iscontinuous l /\ isclosed (map (seg_image f) l) = isclosed l.
Proof.
  intros f l F.
  assert (T : forall s t, touch (seg_image f s) (seg_image f t) = touch s t).
  { intros s t. apply eq_true_iff_eq. rewrite !touch_near. simpl.
    split; intros (a & b & I & J & K).
    - assert (exists a0, In a0 (ij s) /\ a = f a0) as (a0 & A1 & ->) by (unfold ij in *; simpl in *; intuition eauto).
      assert (exists b0, In b0 (ij t) /\ b = f b0) as (b0 & B1 & ->) by (unfold ij in *; simpl in *; intuition eauto).
      rewrite (proj2 (F a0 b0)) in K. exists a0, b0. auto.
    - exists (f a), (f b). rewrite (proj2 (F a b)). split; [|split; auto]; unfold ij in *; simpl in *; intuition congruence. }
  assert (C : iscontinuous (map (seg_image f) l) = iscontinuous l).
  { unfold iscontinuous. rewrite pairs_map. induction (pairs l) as [|[a b] r IH]; simpl; auto. rewrite IH.
    unfold continuous. rewrite T. simpl. rewrite !(proj1 (F _ _)). reflexivity. }
  split; auto. unfold isclosed, first_point, last_point, first_segment, last_segment. rewrite C, last_opt_map.
  destruct (iscontinuous l); auto. destruct l; simpl; auto. rewrite (proj1 (F _ _)). reflexivity.
Qed.
Lemma translate_eqb : forall u v p q, pt_eqb (translate u v p) (translate u v q) = pt_eqb p q.
Proof.
  intros. apply eq_true_iff_eq. rewrite !pt_eqb_iff. unfold translate; simpl.
  replace (px p + u - (px q + u))%R with (px p - px q)%R by ring. replace (py p + v - (py q + v))%R with (py p - py q)%R by ring. tauto.
Qed.
Lemma mirror_eqb : forall x0 p q, pt_eqb (mirror x0 p) (mirror x0 q) = pt_eqb p q.
Proof.
  intros. apply eq_true_iff_eq. rewrite !pt_eqb_iff. unfold mirror; simpl.
  replace (2 * x0 - px p - (2 * x0 - px q))%R with (- (px p - px q))%R by ring. rewrite Rabs_Ropp. tauto.
Qed.

Lemma translate_back : forall u v p, translate (- u) (- v) (translate u v p) = p.
Proof. intros u v [x y]. unfold translate. simpl. f_equal; rring. Qed.
Lemma mirror_mirror : forall x0 p, mirror x0 (mirror x0 p) = p.
Proof. intros x0 [x y]. unfold mirror. simpl. f_equal; rring. Qed.
Lemma translate_rigid : forall u v, rigid (translate u v).
Proof.
  intros u v p q. split; [apply translate_eqb|]. rewrite !pt_distance_R. unfold translate; simpl. ra_simpl. f_equal. ring.
Qed.
Lemma mirror_rigid : forall x0, rigid (mirror x0).
Proof.
  intros x0 p q. split; [apply mirror_eqb|]. rewrite !pt_distance_R. unfold mirror; simpl. ra_simpl. f_equal. ring.
Qed.

Lemma transform_ext : forall f g h P, sound h P -> (forall p, In p (map h (objects (hsegs P))) -> f p = g p) ->
  let '(h', P') := transform f h P in
  view h' (hsegs P') = map (seg_image g) (view h (hsegs P)).
Proof.
  intros f g h P S E. pose proof (transform_view f h P S) as T. destruct (transform f h P) as [h' P'].
  destruct T as (T & _). rewrite T. unfold view. rewrite !map_map. apply map_ext_in. intros s I. unfold seg_image. simpl.
  f_equal; apply E; apply in_map, In_objects; exists s; auto.
Qed.

Lemma stored_translate : forall u v p, decimal8 u -> decimal8 v -> stored p -> stored (translate u v p).
Proof.
  intros u v p U V S. apply decimal8_grid in U, V. apply stored_grid in S as [S1 S2]. apply stored_grid. split; apply grid_plus; auto.
Qed.
Lemma stored_mirror : forall x0 p, decimal8 x0 -> stored p -> stored (mirror x0 p).
Proof.
  intros u p U S. apply decimal8_grid in U. apply stored_grid in S as [S1 S2]. apply stored_grid. split; auto. unfold mirror; simpl.
  apply grid_minus; auto. apply (grid_mulZ 2); auto.
Qed.

(** One step of a history. *)
Definition step_pt (t : step) : pt RA -> pt RA := match t with Shift u v => move_pt u v | Flip x0 => mirror_pt x0 end.
Lemma step_exact : forall t p, step_decimal8 t -> stored p -> step_pt t p = step_image t p.
Proof. intros [u v|x0] p D S; simpl in *; [apply move_pt_exact; tauto|apply mirror_pt_exact; auto]. Qed.
Lemma step_stored : forall t p, step_decimal8 t -> stored p -> stored (step_image t p).
Proof. intros [u v|x0] p D S; simpl in *; [apply stored_translate; tauto|apply stored_mirror; auto]. Qed.
Lemma step_rigid : forall t p q,
  Rabs (px (step_image t p) - px (step_image t q)) = Rabs (px p - px q) /\
  Rabs (py (step_image t p) - py (step_image t q)) = Rabs (py p - py q).
Proof.
  intros [u v|x0] p q; simpl; unfold translate, mirror; simpl.
  - split; f_equal; ring.
  - split; auto. rewrite <- Rabs_Ropp. f_equal. ring.
Qed.

Lemma step_spec : forall t h P, sound h P -> all_stored h (hsegs P) -> step_decimal8 t ->
  let '(h', P') := transform (step_pt t) h P in
  view h' (hsegs P') = map (seg_image (step_image t)) (view h (hsegs P)) /\
  (forall o, ~ In o (objects (hsegs P)) -> h' o = h o) /\ incl (objects (hsegs P')) (objects (hsegs P)) /\
  hpurged P' = true /\ sound h' P' /\ all_stored h' (hsegs P').
Proof.
  intros t h P SO ST D.
  assert (E : forall p, In p (map h (objects (hsegs P))) -> step_pt t p = step_image t p).
  { intros p I. apply in_map_iff in I as (o & <- & I). apply step_exact; auto. }
  pose proof (transform_ext _ _ h P SO E) as T1. pose proof (transform_view (step_pt t) h P SO) as T2.
  assert (T3 := transform_sound (step_pt t) h P SO). 
  destruct (transform (step_pt t) h P) as [h' P']. destruct T2 as (_ & I & HP & F & _ & G).
  repeat split; auto; try apply T3.
  all: try (intros p q Ip Iq; rewrite !E by auto; apply step_rigid).
  - rewrite G, E by (auto; apply in_map; auto). apply step_stored; auto.
  - rewrite G, E by (auto; apply in_map; auto). apply step_stored; auto.
Qed.

Lemma run_steps_cons : forall t r h P, run_steps (t :: r) h P = let '(h', P') := transform (step_pt t) h P in run_steps r h' P'.
Proof. intros [u v|x0] r h P; reflexivity. Qed.

(*@ C28_move *)
(** C28: move translates every end point by exactly the offsets, once, however the Point objects are
    shared; no other Point object changes, and the polygon stays fit for further transformations. *)
Lemma move_exact : forall (h : heap RA) (P : hpoly) (u v : R),
  sound h P -> all_stored h (hsegs P) -> decimal8 u -> decimal8 v ->
  let '(h', P') := move u v h P in
  view h' (hsegs P') = map (seg_translate u v) (view h (hsegs P)) /\
  (forall o, ~ In o (objects (hsegs P)) -> h' o = h o) /\ incl (objects (hsegs P')) (objects (hsegs P)) /\
  hpurged P' = true /\ sound h' P' /\ all_stored h' (hsegs P').
Proof. intros h P u v S A U V. apply (step_spec (Shift u v)); simpl; auto. Qed.

(*@ C28_history *)
(** C28, C30: any history of moves and reflections is the composition of the translations and
    reflections applied to every end point. *)
Lemma history : forall (ts : list step) (h : heap RA) (P : hpoly),
  sound h P -> all_stored h (hsegs P) -> Forall step_decimal8 ts ->
  let '(h', P') := run_steps ts h P in
  view h' (hsegs P') = map (seg_image (fun p => fold_left (fun q t => step_image t q) ts p)) (view h (hsegs P)) /\
  (forall o, ~ In o (objects (hsegs P)) -> h' o = h o) /\ sound h' P' /\ all_stored h' (hsegs P').
Proof.
  induction ts as [|t r IH]; intros h P S A D.
  - simpl. repeat split; auto; try apply S; try apply A; auto. unfold view. rewrite map_map. apply map_ext. intros s. reflexivity.
  - inversion D; subst. rewrite run_steps_cons. pose proof (step_spec t h P S A H1) as T.
    destruct (transform (step_pt t) h P) as [h1 P1]. destruct T as (V1 & F1 & I1 & _ & S1 & A1).
    specialize (IH h1 P1 S1 A1 H2). destruct (run_steps r h1 P1) as [h2 P2]. destruct IH as (V2 & F2 & S2 & A2).
    split; [|split; auto].
    + rewrite V2, V1, map_map. apply map_ext. intros s. reflexivity.
    + intros o N. rewrite F2; auto.
Qed.

(*@ C28_move_back *)
(** C28: moving back restores the polygon. *)
Lemma move_back : forall (h : heap RA) (P : hpoly) (u v : R),
  sound h P -> all_stored h (hsegs P) -> decimal8 u -> decimal8 v ->
  let '(h1, P1) := move u v h P in let '(h2, P2) := move (A := RA) (- u)%R (- v)%R h1 P1 in
  view h2 (hsegs P2) = view h (hsegs P) /\ (forall o, ~ In o (objects (hsegs P)) -> h2 o = h o).
Proof.
  intros h P u v S A U V.
  assert (D : Forall step_decimal8 [Shift u v; Shift (- u) (- v)]).
  { repeat constructor; simpl; auto; apply decimal8_grid, grid_opp, decimal8_grid; auto. }
  pose proof (history _ h P S A D) as T. cbn [run_steps] in T. destruct (move (A := RA) u v h P) as [h1 P1].
  destruct (move (A := RA) (- u)%R (- v)%R h1 P1) as [h2 P2]. destruct T as (T & F & _). split; auto.
  rewrite T. rewrite <- (map_id (view h (hsegs P))) at 2. apply map_ext. intros [c i j].
  unfold seg_image. simpl. rewrite !translate_back. reflexivity.
Qed.

(*@ C28_invariants *)
(** C28: translation does not affect continuity, closedness, lengths and cross products. *)
Lemma move_invariants : forall (u v : R) (l : list (seg RA)),
  iscontinuous (map (seg_translate u v) l) = iscontinuous l /\
  isclosed (map (seg_translate u v) l) = isclosed l /\
  map norm (map (seg_translate u v) l) = map norm l /\
  cps (map (seg_translate u v) l) = cps l.
Proof.
  intros u v l. destruct (image_continuous (translate u v) l (translate_rigid u v)) as [C1 C2]. split; [exact C1|]. split; [exact C2|].
  assert (X : forall s t, crossproduct (seg_translate u v s) (seg_translate u v t) = crossproduct s t).
  { intros s t. rewrite !crossproduct_R. unfold seg_translate, translate; simpl. toR. ring. }
  split.
  - rewrite map_map. apply map_ext. intros s. apply (norm_unitvector s u v).
  - unfold cps. destruct l as [|s0 l]; auto. simpl get. simpl bind. f_equal. simpl tl.
    replace (map (seg_translate u v) l ++ [seg_translate u v s0]) with (map (seg_translate u v) (l ++ [s0])) by (rewrite map_app; reflexivity).
    change (map (seg_translate u v) (s0 :: l)) with (seg_translate u v s0 :: map (seg_translate u v) l).
    change (seg_translate u v s0 :: map (seg_translate u v) l) with (map (seg_translate u v) (s0 :: l)).
    assert (G : forall a b, map (fun '(x, y) => crossproduct x y) (combine (map (seg_translate u v) a) (map (seg_translate u v) b)) =
                            map (fun '(x, y) => crossproduct x y) (combine a b)).
    { induction a as [|x a IH]; intros [|y b]; simpl; auto. rewrite X, IH. reflexivity. }
    apply (G (s0 :: l) (l ++ [s0])).
Qed.

(*@ C28_appended_point *)
(** C28: a Point object q appended to a purged polygon at the place of an end point o that is another
    object: of these two coincident end points move translates at most one, so they come apart. *)
Lemma appended_point : forall (h : heap RA) (P : hpoly) (q o : nat) (u v : R) (P1 : hpoly),
  hpurged P = true -> In o (objects (hsegs P)) -> q <> o -> h q = h o -> stored (h o) -> decimal8 u -> decimal8 v -> (u <> 0 \/ v <> 0)%R ->
  happend_end P q = Ok P1 ->
  (forall a, In a (objects (hsegs P1)) -> h a = h o -> a = q \/ a = o) ->
  let '(h', P') := move u v h P1 in
  In q (objects (hsegs P')) /\ In o (objects (hsegs P')) /\ h' q <> h' o.
Proof.
  intros h P q o u v P1 HP Io Nq E ST U V NZ AP ON.
  unfold happend_end in AP. destruct (hlast (hsegs P)) as [a|] eqn:HL; simpl in AP; [|discriminate].
  injection AP as <-. rewrite HP in *. unfold move, transform. unfold purge. simpl hpurged. cbv iota.
  set (l1 := hsegs P ++ [mkh CLineSegment a q]) in *. simpl hsegs in *.
  assert (Iq : In q (objects l1)) by (apply In_objects; exists (mkh CLineSegment a q); split; [apply in_app_iff; right; left; auto|auto]).
  assert (Io1 : In o (objects l1)) by (apply In_objects in Io as (s & I1 & I2); apply In_objects; exists s; split; auto; apply in_app_iff; auto).
  split; auto. split; auto.
  destruct (hpoint_set_spec h l1) as (J1 & J2 & J3).
  assert (MV : move_pt u v (h o) = translate u v (h o)) by (apply move_pt_exact; auto).
  assert (NE : translate u v (h o) <> h o).
  { intros Q. unfold translate in Q. destruct (h o) as [x y]. simpl in Q. injection Q as Q1 Q2. ra_simpl. lra. }
  assert (NB : ~ (In q (hpoint_set h l1) /\ In o (hpoint_set h l1))).
  { intros [B1 B2]. apply Nq. clear - J3 B1 B2 E. induction (hpoint_set h l1) as [|x r IH]; [destruct B1|].
    simpl in J3. inversion J3; subst. destruct B1 as [<-|B1], B2 as [<-|B2]; auto.
    - exfalso. apply H1. rewrite E. apply in_map; auto.
    - exfalso. apply H1. rewrite <- E. apply in_map; auto. }
  assert (NS : In q (hpoint_set h l1) \/ In o (hpoint_set h l1)).
  { destruct (J2 o Io1) as (o' & K1 & K2). destruct (ON o') as [-> | ->]; auto. }
  apply NoDup_map_inv in J3.
  pose proof (fold_hset (move_pt u v) _ h J3 q) as [Fq1 Fq2]. pose proof (fold_hset (move_pt u v) _ h J3 o) as [Fo1 Fo2].
  destruct NS as [N1|N1].
  - rewrite Fq1, Fo2 by tauto. rewrite E, MV. auto.
  - rewrite Fq2, Fo1 by tauto. rewrite E, MV. auto.
Qed.

(** * C30 *)
(*@ C30_mirror *)
(** C30: every end point is reflected exactly; no other object changes. *)
Lemma mirror_exact : forall (h : heap RA) (P : hpoly) (x0 : R),
  sound h P -> all_stored h (hsegs P) -> decimal8 x0 ->
  let '(h', P') := mirror_vertical x0 h P in
  view h' (hsegs P') = map (seg_image (mirror x0)) (view h (hsegs P)) /\
  (forall o, ~ In o (objects (hsegs P)) -> h' o = h o) /\ incl (objects (hsegs P')) (objects (hsegs P)) /\
  hpurged P' = true /\ sound h' P' /\ all_stored h' (hsegs P').
Proof. intros h P x0 S A U. apply (step_spec (Flip x0)); simpl; auto. Qed.

(*@ C30_involution *)
(** C30: mirroring twice restores the polygon. *)
Lemma mirror_twice : forall (h : heap RA) (P : hpoly) (x0 : R),
  sound h P -> all_stored h (hsegs P) -> decimal8 x0 ->
  let '(h1, P1) := mirror_vertical x0 h P in let '(h2, P2) := mirror_vertical x0 h1 P1 in
  view h2 (hsegs P2) = view h (hsegs P) /\ (forall o, ~ In o (objects (hsegs P)) -> h2 o = h o).
Proof.
  intros h P x0 S A U.
  assert (D : Forall step_decimal8 [Flip x0; Flip x0]) by (repeat constructor; simpl; auto).
  pose proof (history _ h P S A D) as T. cbn [run_steps] in T. destruct (mirror_vertical (A := RA) x0 h P) as [h1 P1].
  destruct (mirror_vertical (A := RA) x0 h1 P1) as [h2 P2]. destruct T as (T & F & _). split; auto.
  rewrite T. rewrite <- (map_id (view h (hsegs P))) at 2. apply map_ext. intros [c i j].
  unfold seg_image. simpl. rewrite !mirror_mirror. reflexivity.
Qed.

(*@ C30_invariants *)
(** C30: continuity, closedness and lengths are as before, every cross product changes its sign. *)
Lemma mirror_invariants : forall (x0 : R) (l : list (seg RA)),
  iscontinuous (map (seg_image (mirror x0)) l) = iscontinuous l /\
  isclosed (map (seg_image (mirror x0)) l) = isclosed l /\
  map norm (map (seg_image (mirror x0)) l) = map norm l /\
  (forall s t : seg RA, crossproduct (seg_image (mirror x0) s) (seg_image (mirror x0) t) = - crossproduct s t)%R.
Proof.
  intros x0 l. destruct (image_continuous (mirror x0) l (mirror_rigid x0)) as [C1 C2]. split; [exact C1|]. split; [exact C2|].
  split.
  - rewrite map_map. apply map_ext. intros s. rewrite !norm_R. unfold seg_image, mirror; simpl. ra_simpl. f_equal. ring.
  - intros s t. rewrite !crossproduct_R. unfold seg_image, mirror; simpl. toR. ring.
Qed.

(** * C29 *)
Lemma rotate_pt_R : forall phi p, rotate_pt phi p = @mkpt RA (Rround8 (px (rotate phi p))) (Rround8 (py (rotate phi p))).
Proof.
  intros phi p. unfold rotate_pt, Point_new, rotate, nradians. ra_simpl. simpl px. simpl py. rewrite !Rround8_idem.
  replace (phi * (PI / 180))%R with (phi * PI / 180)%R by (unfold Rdiv; ring). reflexivity.
Qed.
Lemma rotate_within : forall phi p, within (5 / 10^9) (rotate_pt phi p) (rotate phi p) /\ stored (rotate_pt phi p).
Proof.
  intros phi p. rewrite rotate_pt_R. split; [split; simpl|].
  - pose proof (Rround8_err (px (rotate phi p))). simpl in *. lra.
  - pose proof (Rround8_err (py (rotate phi p))). simpl in *. lra.
  - apply stored_grid. split; apply grid_round8.
Qed.

Lemma rotate_dist : forall phi p q, dist (rotate phi p) (rotate phi q) = dist p q.
Proof.
  intros phi p q. unfold dist, rotate. simpl. f_equal. set (a := (phi * PI / 180)%R).
  pose proof (sin2_cos2 a) as E. unfold Rsqr in E.
  transitivity ((sin a * sin a + cos a * cos a) * ((px p - px q) ^ 2 + (py p - py q) ^ 2))%R; [ring|rewrite E; ring].
Qed.

(** Moving p and q by at most e per coordinate changes their distance by at most 3 e. *)
Lemma within_dist1 : forall (p q : pt RA) (r : R), (0 <= r)%R -> within r p q -> (dist p q <= 1.42 * r)%R.
Proof.
  intros p q r R0 [H1 H2]. unfold dist. apply Rsqr_incr_0_var; [|lra]. unfold Rsqr.
  rewrite sqrt_sqrt by (apply Rplus_le_le_0_compat; apply pow2_ge_0).
  apply Rabs_le_inv in H1, H2. generalize dependent (px p - px q)%R. generalize dependent (py p - py q)%R. intros y Hy x Hx.
  assert (x * x <= r * r)%R by nra. assert (y * y <= r * r)%R by nra. simpl. nra.
Qed.
Lemma dist_triangle : forall p q r : pt RA, (dist p r <= dist p q + dist q r)%R.
Proof. intros. rewrite !dist_distance. apply pt_distance_triangle. Qed.
Lemma within_dist : forall (p q p' q' : pt RA) e, (0 <= e)%R -> within e p p' -> within e q q' -> (Rabs (dist p q - dist p' q') <= 3 * e)%R.
Proof.
  intros p q p' q' e E Hp Hq.
  pose proof (within_dist1 p p' e E Hp). pose proof (within_dist1 q q' e E Hq).
  pose proof (dist_triangle p p' q). pose proof (dist_triangle p' q' q). pose proof (dist_triangle p' p q'). pose proof (dist_triangle p q q').
  rewrite (dist_sym q' q) in *. rewrite (dist_sym p' p) in *. apply Rabs_le. lra.
Qed.

Lemma transform_fit : forall f h P, hpurged P = true -> one_object_per_place h (hsegs P) ->
  let '(h', P') := transform f h P in
  P' = P /\ view h' (hsegs P) = map (seg_image f) (view h (hsegs P)) /\
  (forall o, In o (objects (hsegs P)) -> h' o = f (h o)) /\ (forall o, ~ In o (objects (hsegs P)) -> h' o = h o).
Proof.
  intros f h P HP O. assert (PE : purge h P = P) by (unfold purge; rewrite HP; reflexivity).
  pose proof (transform_spec f h P) as T. rewrite PE in T. specialize (T O). destruct (transform f h P) as [h' P'].
  destruct T as (-> & T1 & T2). repeat split; auto. unfold view. rewrite map_map. apply map_ext_in. intros s Is.
  unfold seg_view, seg_image. simpl. rewrite !T1; auto; apply In_objects; exists s; auto.
Qed.


Lemma rotate_injective : forall phi ps, separated ps -> forall p q, In p ps -> In q ps -> rotate_pt phi p = rotate_pt phi q -> p = q.
Proof.
  intros phi ps S p q Ip Iq E. destruct (rotate_within phi p) as [Wp _]. destruct (rotate_within phi q) as [Wq _].
  pose proof (within_dist _ _ _ _ (5 / 10^9) ltac:(lra) Wp Wq) as D. rewrite E, rotate_dist in D.
  assert (Z : dist (rotate_pt (A := RA) phi q) (rotate_pt (A := RA) phi q) = 0%R) by (rewrite dist_distance; apply pt_distance_zero; auto).
  rewrite Z in D. pose proof (dist_sq p q) as Q.
  assert (D2 : (0 <= dist p q <= 15 / 10^9)%R) by (split; [unfold dist; apply sqrt_pos|apply Rabs_le_inv in D; lra]).
  assert (G : forall x y d : R, (x * x + y * y = d * d -> 0 <= d -> - d <= x <= d)%R) by (intros; nra).
  pose proof (G _ _ _ (eq_sym Q) (proj1 D2)). rewrite Rplus_comm in Q. pose proof (G _ _ _ (eq_sym Q) (proj1 D2)).
  apply S; auto; apply Rabs_def1; lra.
Qed.

(*@ C29_rotate *)
(** C29: every end point goes within 5e-9 per coordinate of its true rotated position; its distance
    from the origin changes by at most 1.5e-8 and distances between end points as well.  Coincident end
    points stay coincident, no other object changes. *)
Lemma rotate_spec : forall (h : heap RA) (P : hpoly) (phi : R), sound h P ->
  let '(h', P') := rotate_about_origin phi h P in
  exists g : pt RA -> pt RA,
    view h' (hsegs P') = map (seg_image g) (view h (hsegs P)) /\
    (forall p, within (5 / 10^9) (g p) (rotate phi p) /\ stored (g p)) /\
    (forall p q, Rabs (dist (g p) (g q) - dist p q) <= 15 / 10^9)%R /\
    (forall p, Rabs (dist (g p) (@mkpt RA 0%R 0%R) - dist p (@mkpt RA 0%R 0%R)) <= 1 / 10^8)%R /\
    (forall o, ~ In o (objects (hsegs P)) -> h' o = h o) /\
    hpurged P' = true /\ one_object_per_place h' (hsegs P').
Proof.
  intros h P phi S. pose proof (transform_view (rotate_pt (A := RA) phi) h P S) as T.
  change (rotate_about_origin (A := RA) phi h P) with (transform (A := RA) (rotate_pt (A := RA) phi) h P).
  destruct (transform (A := RA) (rotate_pt (A := RA) phi) h P) as [h' P']. destruct T as (V & I & HP & F & O & E).
  exists (rotate_pt (A := RA) phi). split; [exact V|]. split; [apply rotate_within|]. split; [|split; [|split; [exact F|split; [exact HP|]]]].
  - intros p q. rewrite <- (rotate_dist phi p q).
    pose proof (within_dist _ _ _ _ (5 / 10^9) ltac:(lra) (proj1 (rotate_within phi p)) (proj1 (rotate_within phi q))). lra.
  - intros p. set (z := @mkpt RA 0%R 0%R).
    assert (rotate phi z = z) as Z by (unfold rotate, z; simpl; f_equal; rring).
    rewrite <- (rotate_dist phi p z), Z.
    pose proof (within_dist1 _ _ (5 / 10^9) ltac:(lra) (proj1 (rotate_within phi p))) as W.
    pose proof (dist_triangle (rotate_pt (A := RA) phi p) (rotate phi p) z). pose proof (dist_triangle (rotate phi p) (rotate_pt (A := RA) phi p) z).
    rewrite (dist_sym (rotate phi p) (rotate_pt (A := RA) phi p)) in *. apply Rabs_le. lra.
  - intros a b Ia Ib Q. rewrite !E in Q by auto. apply O; auto. destruct S as (S & _).
    eapply rotate_injective; eauto; apply in_map; auto.
Qed.

(** ** Multiples of 90 degrees *)
Lemma trig_period : forall k x, cos (x + 2 * IZR k * PI) = cos x /\ sin (x + 2 * IZR k * PI) = sin x.
Proof.
  intros k x. destruct (Z_le_gt_dec 0 k) as [L|L].
  - rewrite <- (Z2Nat.id k L), <- INR_IZR_INZ. split; [apply cos_period|apply sin_period].
  - set (y := (x + 2 * IZR k * PI)%R). assert (x = y + 2 * INR (Z.to_nat (- k)) * PI)%R as E.
    { unfold y. rewrite INR_IZR_INZ, Z2Nat.id by lia. rewrite opp_IZR. ring. }
    rewrite E. split; symmetry; [apply cos_period|apply sin_period].
Qed.
Lemma quarter_turn : forall k, exists c s, cos (90 * IZR k * PI / 180) = IZR c /\ sin (90 * IZR k * PI / 180) = IZR s.
Proof.
  intros k. pose proof (Z.div_mod k 4 ltac:(lia)) as E. set (q := (k / 4)%Z) in *. set (r := (k mod 4)%Z) in *.
  assert (L : (0 <= r < 4)%Z) by (apply Z.mod_pos_bound; lia).
  replace (90 * IZR k * PI / 180)%R with (IZR r * (PI / 2) + 2 * IZR q * PI)%R by (rewrite E, plus_IZR, mult_IZR; field).
  destruct (trig_period q (IZR r * (PI / 2))) as [-> ->].
  assert (C : r = 0%Z \/ r = 1%Z \/ r = 2%Z \/ r = 3%Z) by lia. destruct C as [-> | [-> | [-> | ->]]].
  - exists 1%Z, 0%Z. rewrite Rmult_0_l, cos_0, sin_0. auto.
  - exists 0%Z, 1%Z. rewrite Rmult_1_l, cos_PI2, sin_PI2. auto.
  - exists (-1)%Z, 0%Z. replace (2 * (PI / 2))%R with PI by field. rewrite cos_PI, sin_PI. auto.
  - exists 0%Z, (-1)%Z. replace (3 * (PI / 2))%R with (PI / 2 + PI)%R by field. rewrite neg_cos, neg_sin, cos_PI2, sin_PI2.
    split; lra.
Qed.

(*@ C29_quarter_turns *)
(** C29: multiples of 90 degrees are exact for stored coordinates. *)
Lemma rotate_quarter : forall (h : heap RA) (P : hpoly) (k : Z), sound h P -> all_stored h (hsegs P) ->
  let '(h', P') := rotate_about_origin (A := RA) (90 * IZR k)%R h P in
  view h' (hsegs P') = map (seg_image (rotate (90 * IZR k))) (view h (hsegs P)).
Proof.
  intros h P k S A. apply (transform_ext (rotate_pt (A := RA) (90 * IZR k)%R) (rotate (90 * IZR k)) h P S).
  intros p Ip. apply in_map_iff in Ip as (o & <- & Io). specialize (A o Io). apply stored_grid in A as [A1 A2].
  rewrite rotate_pt_R. unfold rotate. simpl px. simpl py. destruct (quarter_turn k) as (c & s & -> & ->).
  rewrite !Rround8_id; auto.
  - apply grid_plus; rewrite Rmult_comm; apply grid_mulZ; auto.
  - apply grid_minus; rewrite Rmult_comm; apply grid_mulZ; auto.
Qed.

(*@ C29_rotate_about_xy *)
(** C29: rotation about (x0, y0) with 8-decimal x0, y0; the centre stays where it is. *)
Lemma rotate_about_xy_spec : forall (h : heap RA) (P : hpoly) (x0 y0 phi : R),
  sound h P -> all_stored h (hsegs P) -> decimal8 x0 -> decimal8 y0 ->
  let '(h', P') := rotate_about_xy x0 y0 phi h P in
  exists g : pt RA -> pt RA,
    view h' (hsegs P') = map (seg_image g) (view h (hsegs P)) /\
    (forall p, stored p -> within (5 / 10^9) (g p) (rotate_about x0 y0 phi p) /\ stored (g p)) /\
    (forall p q, stored p -> stored q -> Rabs (dist (g p) (g q) - dist p q) <= 15 / 10^9)%R /\
    g (@mkpt RA x0 y0) = @mkpt RA x0 y0 /\
    (forall o, ~ In o (objects (hsegs P)) -> h' o = h o) /\
    hpurged P' = true.
Proof.
  intros h P x0 y0 phi S A X Y. unfold rotate_about_xy.
  assert (NX : decimal8 (- x0)) by (apply decimal8_grid, grid_opp, decimal8_grid; auto).
  assert (NY : decimal8 (- y0)) by (apply decimal8_grid, grid_opp, decimal8_grid; auto).
  pose proof (move_exact h P (- x0)%R (- y0)%R S A NX NY) as M.
  change (@nopp RA) with Ropp. destruct (move (A := RA) (- x0)%R (- y0)%R h P) as [h1 P1].
  destruct M as (V1 & F1 & I1 & HP1 & S1 & A1).
  pose proof (transform_view (rotate_pt (A := RA) phi) h1 P1 S1) as T.
  change (rotate_about_origin (A := RA) phi h1 P1) with (transform (A := RA) (rotate_pt (A := RA) phi) h1 P1).
  destruct (transform (A := RA) (rotate_pt (A := RA) phi) h1 P1) as [h2 P2]. destruct T as (V2 & I2 & HP2 & F2 & O2 & E2).
  assert (O2' : one_object_per_place h2 (hsegs P2)).
  { intros a b Ia Ib Q. rewrite !E2 in Q by auto. apply O2; auto. destruct S1 as (S1 & _).
    eapply rotate_injective; eauto; apply in_map; auto. }
  pose proof (transform_fit (move_pt (A := RA) x0 y0) h2 P2 HP2 O2') as M.
  change (move (A := RA) x0 y0 h2 P2) with (transform (A := RA) (move_pt (A := RA) x0 y0) h2 P2).
  destruct (transform (A := RA) (move_pt (A := RA) x0 y0) h2 P2) as [h3 P3]. destruct M as (-> & V3 & E3 & F3).
  set (g := fun p => translate x0 y0 (rotate_pt (A := RA) phi (translate (- x0) (- y0) p))).
  assert (MT : forall p, move_pt (A := RA) x0 y0 (rotate_pt (A := RA) phi p) = translate x0 y0 (rotate_pt (A := RA) phi p)).
  { intros p. apply move_pt_exact; auto. apply rotate_within. }
  exists g. split.
  - rewrite V3, V2, V1, !map_map. apply map_ext. intros s. unfold seg_image, seg_translate, g. simpl. rewrite !MT. reflexivity.
  - assert (W : forall p, within (5 / 10^9) (g p) (rotate_about x0 y0 phi p)).
    { intros p. unfold g, rotate_about. set (t := translate (- x0) (- y0) p). destruct (rotate_within phi t) as [[W1 W2] _].
      unfold within, translate. simpl px in *. simpl py in *.
      split; [eapply Rle_trans; [|exact W1]|eapply Rle_trans; [|exact W2]]; apply Req_le; f_equal; toR; ring. }
    split; [|split; [|split; [|split]]]; auto.
    + intros p Sp. split; auto. apply stored_translate; auto. apply rotate_within.
    + intros p q _ _. pose proof (within_dist _ _ _ _ (5 / 10^9) ltac:(lra) (W p) (W q)) as D.
      assert (dist (rotate_about x0 y0 phi p) (rotate_about x0 y0 phi q) = dist p q) as ED.
      { assert (TD : forall u v a b, dist (translate u v a) (translate u v b) = dist a b).
        { intros. unfold dist, translate. simpl. f_equal. ring. }
        unfold rotate_about. rewrite TD, rotate_dist, TD. reflexivity. }
      rewrite ED in D. lra.
    + unfold g. rewrite rotate_pt_R. unfold translate, rotate. simpl px. simpl py.
      replace ((x0 + - x0) * cos (phi * PI / 180) - (y0 + - y0) * sin (phi * PI / 180))%R with 0%R by ring.
      replace ((x0 + - x0) * sin (phi * PI / 180) + (y0 + - y0) * cos (phi * PI / 180))%R with 0%R by ring.
      rewrite (Rround8_id 0 (grid_IZR 0)). f_equal; rring.
    + intros o N. assert (N1 : ~ In o (objects (hsegs P1))) by (intros Q; apply N; auto). rewrite F3, F2, F1; auto.
Qed.

(** * C17 *)
(*@ C17_segment_move *)
(** C17: moving a segment translates its two ends (8-decimal offsets, stored ends) and changes no other
    object, its length stays; a segment whose ends are one object is moved by twice the offset. *)
Lemma segment_move : forall (h : heap RA) (s : hseg) (u v : R),
  stored (h (hi s)) -> stored (h (hj s)) -> decimal8 u -> decimal8 v ->
  let h' := seg_move h s u v in
  (hi s <> hj s -> seg_view h' s = seg_translate u v (seg_view h s)) /\
  (hi s = hj s -> seg_view h' s = seg_translate (2 * u) (2 * v) (seg_view h s)) /\
  norm (seg_view h' s) = norm (seg_view h s) /\
  (forall o, o <> hi s -> o <> hj s -> h' o = h o).
Proof.
  intros h s u v S1 S2 U V h'.
  assert (E1 : hi s <> hj s -> seg_view h' s = seg_translate u v (seg_view h s)).
  { intros N. unfold h', seg_move, hij, seg_view, seg_translate, hset. simpl.
    rewrite !Nat.eqb_refl. destruct (Nat.eqb_spec (hi s) (hj s)); [contradiction|]. destruct (Nat.eqb_spec (hj s) (hi s)); [congruence|].
    f_equal; apply (move_pt_exact u v); auto. }
  assert (E2 : hi s = hj s -> seg_view h' s = seg_translate (2 * u) (2 * v) (seg_view h s)).
  { intros N. unfold h', seg_move, hij, seg_view, seg_translate, hset. simpl. rewrite N. rewrite !Nat.eqb_refl. simpl.
    assert (Q : move_pt (A := RA) u v (move_pt (A := RA) u v (h (hj s))) = translate (2 * u) (2 * v) (h (hj s))).
    { rewrite (move_pt_exact u v (h (hj s))), move_pt_exact by (auto; apply stored_translate; auto).
      unfold translate. simpl. f_equal; rring. }
    f_equal; exact Q. }
  split; auto. split; auto. split.
  - destruct (Nat.eq_dec (hi s) (hj s)) as [N|N]; [rewrite E2 by auto|rewrite E1 by auto]; apply (norm_unitvector (seg_view h s)).
  - intros o N1 N2. unfold h', seg_move, hset. simpl. destruct (Nat.eqb_spec o (hj s)); [contradiction|]. destruct (Nat.eqb_spec o (hi s)); [contradiction|]. reflexivity.
Qed.

(*@ C17_segment_mirror *)
(** C17: mirroring reflects both ends exactly, twice restores the segment, lengths stay; if both ends
    are one object nothing changes at all. *)
Lemma segment_mirror : forall (h : heap RA) (s : hseg) (x0 : R),
  stored (h (hi s)) -> stored (h (hj s)) -> decimal8 x0 ->
  let h' := seg_mirror h s x0 in
  (hi s <> hj s -> seg_view h' s = seg_image (mirror x0) (seg_view h s) /\
     seg_view (seg_mirror h' s x0) s = seg_view h s) /\
  (hi s = hj s -> seg_view h' s = seg_view h s) /\
  norm (seg_view h' s) = norm (seg_view h s) /\
  (forall o, o <> hi s -> o <> hj s -> h' o = h o).
Proof.
  intros h s x0 S1 S2 U h'.
  assert (E1 : forall h, stored (h (hi s)) -> stored (h (hj s)) -> hi s <> hj s -> seg_view (seg_mirror (A := RA) h s x0) s = seg_image (mirror x0) (seg_view h s)).
  { intros k K1 K2 N. unfold seg_mirror, hij, seg_view, seg_image, hset. simpl.
    rewrite !Nat.eqb_refl. destruct (Nat.eqb_spec (hi s) (hj s)); [contradiction|]. destruct (Nat.eqb_spec (hj s) (hi s)); [congruence|].
    f_equal; apply (mirror_pt_exact x0); auto. }
  assert (E2 : hi s = hj s -> seg_view h' s = seg_view h s).
  { intros N. unfold h', seg_mirror, hij, seg_view, hset. simpl. rewrite N. rewrite !Nat.eqb_refl. simpl.
    assert (Q : mirror_pt (A := RA) x0 (mirror_pt (A := RA) x0 (h (hj s))) = h (hj s)).
    { rewrite (mirror_pt_exact x0 (h (hj s))), mirror_pt_exact by (auto; apply stored_mirror; auto). apply mirror_mirror. }
    f_equal; exact Q. }
  split; [|split; [exact E2|split]].
  - intros N. split; [apply E1; auto|]. pose proof (E1 h S1 S2 N) as Q. fold h' in Q.
    assert (Q1 : h' (hi s) = mirror x0 (h (hi s)) /\ h' (hj s) = mirror x0 (h (hj s))) by (unfold seg_view, seg_image in Q; injection Q; auto).
    destruct Q1 as [Q1 Q2].
    rewrite E1; auto; [|rewrite Q1; apply stored_mirror; auto|rewrite Q2; apply stored_mirror; auto].
    rewrite Q. unfold seg_image. simpl. rewrite !mirror_mirror. reflexivity.
  - destruct (Nat.eq_dec (hi s) (hj s)) as [N|N]; [rewrite E2 by auto; reflexivity|unfold h'; rewrite E1 by auto].
    rewrite !norm_R. unfold seg_image, mirror. simpl. ra_simpl. f_equal. ring.
  - intros o N1 N2. unfold h', seg_mirror, hset. simpl. destruct (Nat.eqb_spec o (hj s)); [contradiction|]. destruct (Nat.eqb_spec o (hi s)); [contradiction|]. reflexivity.
Qed.
