(** purge on polygons with nearly coincident points (C27). *)
From Coq Require Import Reals ZArith Lra Lia Bool List Permutation Arith.
From Verif Require Import Base Arith ArithR MPoint MLine MPoly MHeap Spec SpecHeap SpecPurge PPoint PLine PTrig PShape PConvex PTri POrder PPoly PHeap.
Import ListNotations.
#[local] Existing Instance RA.

Section Clusters.
Variable h : heap RA.
Notation E a b := (pt_eqb (h a) (h b) = true).

Lemma E_sym : forall a b, E a b -> E b a. Proof. intros. rewrite pt_eqb_sym. auto. Qed.
Lemma E_refl : forall a, E a a. Proof. intros. apply pt_eqb_refl. Qed.

Definition trans_on (l : list nat) : Prop := forall a b c, In a l -> In b l -> In c l -> E a b -> E b c -> E a c.
Definition wide (l : list hseg) : Prop := forall s, In s l -> ~ E (hi s) (hj s).
Definition near_seg (s s' : hseg) : Prop := hc s' = hc s /\ E (hi s') (hi s) /\ E (hj s') (hj s).

Definition subst2 (x f : nat) (s s' : hseg) : Prop :=
  hc s' = hc s /\ (E (hi s) x -> hi s' = f) /\ (~ E (hi s) x -> hi s' = hi s) /\
  (E (hj s) x -> hj s' = f) /\ (~ E (hj s) x -> hj s' = hj s).

Lemma pass_spec : forall T x f l cur, trans_on T -> incl (objects l) T -> In x T -> In f T -> In cur T -> wide l -> E f x -> E cur x ->
  Forall2 (subst2 x f) l (purge_pass h x f cur l).
Proof.
  intros T x f l. induction l as [|s l IH]; intros cur TR IN Ix If Ic W Ef Ec; simpl; [constructor|].
  assert (INl : incl (objects l) T) by (intros a I; apply IN; unfold objects; simpl; auto).
  assert (Wl : wide l) by (intros s' I; apply W; right; auto).
  assert (Ii : In (hi s) T) by (apply IN; unfold objects; simpl; auto). assert (Ij : In (hj s) T) by (apply IN; unfold objects; simpl; auto).
  specialize (W s (or_introl eq_refl)).
  assert (Q : pt_eqb (h (hi s)) (h cur) = pt_eqb (h (hi s)) (h x)).
  { destruct (pt_eqb (h (hi s)) (h x)) eqn:Q.
    - apply (TR _ x); auto. apply E_sym; auto.
    - destruct (pt_eqb (h (hi s)) (h cur)) eqn:Q'; auto. exfalso. rewrite (TR (hi s) cur x) in Q; auto. discriminate. }
  rewrite Q.
  destruct (pt_eqb (h (hi s)) (h x)) eqn:Q1.
  - rewrite orb_true_r. simpl. constructor; [|apply IH; auto].
    split; [reflexivity|]. simpl. split; [auto|]. split; [intros N; exfalso; auto|].
    split; [|auto]. intros Ej. exfalso. apply W. apply (TR _ x); auto. apply E_sym; auto.
  - destruct (Nat.eqb_spec (hi s) x) as [Ex|Nx]; [exfalso; rewrite Ex, E_refl in Q1; discriminate|].
    destruct (pt_eqb (h (hj s)) (h x)) eqn:Q2.
    + rewrite orb_true_r. simpl. constructor; [|apply IH; auto].
      split; [reflexivity|]. simpl. rewrite Q1, Q2. repeat split; intros; congruence.
    + destruct (Nat.eqb_spec (hj s) x) as [Ex|Ny]; [exfalso; rewrite Ex, E_refl in Q2; discriminate|]. simpl. constructor; [|apply IH; auto].
      split; [reflexivity|]. rewrite Q1, Q2. repeat split; intros; congruence.
Qed.

Lemma subst2_near : forall x f l l', Forall2 (subst2 x f) l l' -> forall T l0, trans_on T -> incl (objects l0) T -> incl (objects l) T -> In x T -> In f T -> E f x ->
  Forall2 near_seg l0 l -> Forall2 near_seg l0 l'.
Proof.
  intros x f l l' F T l0 TR I0 I1 Ix If Ef. revert l0 I0.
  induction F as [|s s' l l' (H1 & H2 & H3 & H4 & H5) F IH]; intros l0 I0 N; inversion N as [|t s0 l0' l0'' (N1 & N2 & N3) N']; subst; constructor.
  - assert (In (hi t) T /\ In (hj t) T) as [Ti Tj] by (split; apply I0; unfold objects; simpl; auto).
    assert (In (hi s) T /\ In (hj s) T) as [Si Sj] by (split; apply I1; unfold objects; simpl; auto).
    split; [congruence|]. split.
    + destruct (pt_eqb (h (hi s)) (h x)) eqn:Q; [rewrite H2 by auto|rewrite H3 by (rewrite ?Q; congruence); auto].
      apply (TR _ x); auto. apply (TR _ (hi s)); auto. apply E_sym; auto.
    + destruct (pt_eqb (h (hj s)) (h x)) eqn:Q; [rewrite H4 by auto|rewrite H5 by (rewrite ?Q; congruence); auto].
      apply (TR _ x); auto. apply (TR _ (hj s)); auto. apply E_sym; auto.
  - apply IH; auto; intros o I; [apply I1|apply I0]; unfold objects in *; simpl; auto.
Qed.

Lemma subst2_ends : forall x f l l', Forall2 (subst2 x f) l l' ->
  forall o, In o (objects l') -> o = f \/ (In o (objects l) /\ ~ E o x).
Proof.
  intros x f l l'. induction 1 as [|s s' l l' (H1 & H2 & H3 & H4 & H5) _ IH]; intros o I; [destruct I|].
  unfold objects in *. simpl in *. destruct I as [I|[I|I]].
  - destruct (pt_eqb (h (hi s)) (h x)) eqn:Q; [left; rewrite H2 in I by auto; auto|right; rewrite H3 in I by (rewrite ?Q; congruence)].
    subst o. rewrite Q. split; auto; congruence.
  - destruct (pt_eqb (h (hj s)) (h x)) eqn:Q; [left; rewrite H4 in I by auto; auto|right; rewrite H5 in I by (rewrite ?Q; congruence)].
    subst o. rewrite Q. split; auto; congruence.
  - destruct (IH o I) as [?|[? ?]]; auto.
Qed.

Definition cn (x : nat) (l : list nat) : nat := length (filter (fun o => pt_eqb (h o) (h x)) l).
Lemma cn_app : forall x a b, cn x (a ++ b) = (cn x a + cn x b)%nat.
Proof. intros. unfold cn. rewrite filter_app, app_length. reflexivity. Qed.
Lemma cn_perm : forall x a b, Permutation a b -> cn x a = cn x b.
Proof. intros x a b P. unfold cn. apply filter_perm_length. exact P. Qed.

Definition CInv (l0 : list hseg) (D : list nat) (st : list nat * list hseg) : Prop :=
  Forall2 near_seg l0 (snd st) /\ incl (objects (snd st)) (objects l0) /\ incl (fst st) (objects l0) /\ incl D (objects l0) /\
  (forall d, In d D -> exists y, In y (fst st) /\ E y d) /\
  (forall x, In x (objects l0) -> (2 <= cn x D)%nat -> exists y, In y (fst st) /\ E y x /\ forall o, In o (objects (snd st)) -> E o x -> o = y).

Lemma wide_near : forall T l0 l, trans_on T -> incl (objects l0) T -> incl (objects l) T -> wide l0 -> Forall2 near_seg l0 l -> wide l.
Proof.
  intros T l0 l TR I0 I1 W F s Is Q. revert s Is Q.
  induction F as [|t s l0 l (N1 & N2 & N3) F IH]; intros s' Is Q; [destruct Is|].
  assert (In (hi t) T /\ In (hj t) T) as [Ti Tj] by (split; apply I0; unfold objects; simpl; auto).
  assert (In (hi s) T /\ In (hj s) T) as [Si Sj] by (split; apply I1; unfold objects; simpl; auto).
  destruct Is as [<-|Is].
  - apply (W t (or_introl eq_refl)). apply (TR _ (hi s)); auto; [apply E_sym; auto|]. apply (TR _ (hj s)); auto.
  - refine (IH _ _ _ s' Is Q).
    + intros o I. apply I0. unfold objects in *. simpl. auto.
    + intros o I. apply I1. unfold objects in *. simpl. auto.
    + intros u Iu. apply W. right; auto.
Qed.

Lemma step_inv : forall l0 D st x, trans_on (objects l0) -> wide l0 -> In x (objects l0) ->
  CInv l0 D st -> CInv l0 (D ++ [x]) (purge_step h st x).
Proof.
  intros l0 D [seen l] x TR W IX (V & EI & SI & DI & C1 & C2). simpl fst in *. simpl snd in *.
  assert (C1x : forall z, cn z [x] = if pt_eqb (h x) (h z) then 1%nat else 0%nat).
  { intros c. unfold cn. simpl. destruct (pt_eqb (h x) (h c)); reflexivity. }
  assert (DI' : incl (D ++ [x]) (objects l0)) by (intros o I; apply in_app_iff in I as [I|[<-|[]]]; auto).
  unfold purge_step. destruct (filter (fun y => pt_eqb (h x) (h y)) seen) as [|f r] eqn:EF.
  - assert (Z : forall y, In y seen -> ~ E x y).
    { intros y Iy Q. assert (In y (filter (fun y => pt_eqb (h x) (h y)) seen)) as J by (apply filter_In; auto). rewrite EF in J. destruct J. }
    split; [|split; [|split; [|split; [|split]]]]; simpl; auto.
    + intros o I. apply in_app_iff in I as [I|[<-|[]]]; auto.
    + intros d I. apply in_app_iff in I as [I|[<-|[]]].
      * destruct (C1 d I) as (y & Iy & Ey). exists y. split; auto. apply in_app_iff; auto.
      * exists x. split; [apply in_app_iff; right; left; auto|apply E_refl].
    + intros z Iz L. rewrite cn_app, C1x in L. destruct (pt_eqb (h x) (h z)) eqn:Q.
      * exfalso. assert (1 <= cn z D)%nat as L1 by lia. unfold cn in L1.
        destruct (filter (fun o => pt_eqb (h o) (h z)) D) as [|d r] eqn:ED; [simpl in L1; lia|].
        assert (J : In d (filter (fun o => pt_eqb (h o) (h z)) D)) by (rewrite ED; left; auto). apply filter_In in J as [Id Ed].
        destruct (C1 d Id) as (y & Iy & Ey). apply (Z y Iy). apply (TR _ z); auto. apply (TR _ d); auto; apply E_sym; auto.
      * destruct (C2 z Iz ltac:(lia)) as (y & Iy & Ey & U). exists y. split; [apply in_app_iff; auto|auto].
  - assert (IF : In f (filter (fun y => pt_eqb (h x) (h y)) seen)) by (rewrite EF; left; auto). apply filter_In in IF as [IF EFx]. apply E_sym in EFx.
    assert (PP : Forall2 (subst2 x f) l (purge_pass h x f x l)).
    { apply (pass_spec (objects l0)); auto; [|apply E_refl]. exact (wide_near (objects l0) l0 l TR (incl_refl _) EI W V). }
    split; [|split; [|split; [|split; [|split]]]]; simpl; auto.
    + apply (subst2_near x f l _ PP (objects l0)); auto. apply incl_refl.
    + intros o I. destruct (subst2_ends x f l _ PP o I) as [->|[I' _]]; auto.
    + intros d I. apply in_app_iff in I as [I|[<-|[]]]; auto. exists f. auto.
    + intros z Iz L. rewrite cn_app, C1x in L. destruct (pt_eqb (h x) (h z)) eqn:Q.
      * exists f. split; auto. split; [apply (TR _ x); auto|]. intros o I Eo.
        destruct (subst2_ends x f l _ PP o I) as [->|[I' K]]; auto. exfalso. apply K. apply (TR _ z); auto. apply E_sym; auto.
      * destruct (C2 z Iz ltac:(lia)) as (y & Iy & Ey & U). exists y. split; auto. split; auto.
        intros o I Eo. destruct (subst2_ends x f l _ PP o I) as [->|[I' _]]; [|auto].
        exfalso. rewrite (TR x f z) in Q; auto; [discriminate|apply E_sym; auto].
Qed.

Lemma loop_inv : forall l0 R D st, trans_on (objects l0) -> wide l0 -> incl R (objects l0) ->
  CInv l0 D st -> CInv l0 (D ++ R) (fold_left (purge_step h) R st).
Proof.
  intros l0 R. induction R as [|x R IH]; intros D st TR W I P; simpl; [rewrite app_nil_r; auto|].
  replace (D ++ x :: R) with ((D ++ [x]) ++ R) by (rewrite <- app_assoc; reflexivity).
  apply IH; auto; [intros y Iy; apply I; right; auto|]. apply step_inv; auto. apply I. left; auto.
Qed.

Lemma near_objects : forall l l', Forall2 near_seg l l' -> Forall2 (fun a b => E b a) (objects l) (objects l').
Proof. induction 1 as [|s s' l l' (N1 & N2 & N3) F IH]; unfold objects in *; simpl; repeat constructor; auto. Qed.

Lemma cn_near : forall T x l l', trans_on T -> incl l T -> incl l' T -> In x T -> Forall2 (fun a b => E b a) l l' -> cn x l = cn x l'.
Proof.
  intros T x l l' TR I1 I2 Ix F. unfold cn. induction F as [|a b l l' N F IH]; simpl; auto.
  assert (pt_eqb (h a) (h x) = pt_eqb (h b) (h x)) as ->.
  { assert (Ia : In a T) by (apply I1; left; auto). assert (Ib : In b T) by (apply I2; left; auto).
    destruct (pt_eqb (h b) (h x)) eqn:Q.
    - apply (TR _ b); auto. apply E_sym; auto.
    - destruct (pt_eqb (h a) (h x)) eqn:Q'; auto. rewrite (TR b a x) in Q; auto; discriminate. }
  assert (IL : incl l T) by (intros o I; apply I1; right; auto). assert (IL' : incl l' T) by (intros o I; apply I2; right; auto).
  destruct (pt_eqb (h b) (h x)); simpl; rewrite IH; auto.
Qed.

Lemma two_near : forall l a b, In a l -> In b l -> E a b -> a <> b -> (2 <= cn a l)%nat.
Proof.
  intros l a b Ia Ib Q N. apply in_split in Ia as (l1 & l2 & ->).
  assert (In b (l1 ++ l2)) as J. { apply in_app_iff in Ib as [?|[?|?]]; [apply in_app_iff; auto|congruence|apply in_app_iff; auto]. }
  rewrite (cn_perm a _ (a :: l1 ++ l2) (Permutation_sym (Permutation_middle _ _ _))).
  unfold cn. simpl. rewrite E_refl. simpl.
  assert (In b (filter (fun o => pt_eqb (h o) (h a)) (l1 ++ l2))) as K by (apply filter_In; split; auto; apply E_sym; auto).
  destruct (filter _ (l1 ++ l2)); [destruct K|simpl; lia].
Qed.

Lemma purge_near : forall l, trans_on (objects l) -> wide l ->
  (exists p q i j, i <> j /\ nth_error (objects l) i = Some p /\ nth_error (objects l) j = Some q /\ h p = h q) ->
  let P' := purge h (mkhp l false) in
  Forall2 near_seg l (hsegs P') /\ incl (objects (hsegs P')) (objects l) /\ hpurged P' = true /\
  (forall a b, In a (objects (hsegs P')) -> In b (objects (hsegs P')) -> E a b -> a = b).
Proof.
  intros l TR W DUP P'. unfold P', purge. cbn [hpurged hsegs].
  destruct (Nat.eqb_spec (length (hpoint_set h l)) (length (hall_points h l))) as [EQ|NEQ].
  - exfalso.
    assert (ND : NoDup (map h (objects l))).
    { unfold hpoint_set in EQ. rewrite (Permutation_length (sort_by_perm _ _ _)) in EQ.
      apply (Permutation_NoDup (Permutation_map h (hall_perm h l))).
      eapply NoDup_incl_NoDup; [apply (dedup_NoDup _ pt_sameb pt_sameb_iff (map h (hall_points h l)))| |].
      - rewrite <- (map_dedup _ _ h), !map_length. lia.
      - intros c I. apply dedup_In in I; [auto|apply pt_sameb_iff]. }
    destruct DUP as (p & q & i & j & N & Hi & Hj & Q). apply N.
    apply (proj1 (NoDup_nth_error _) ND).
    + apply nth_error_Some. rewrite (map_nth_error h _ _ Hi). congruence.
    + rewrite (map_nth_error h _ _ Hi), (map_nth_error h _ _ Hj), Q. reflexivity.
  - cbn [hsegs hpurged].
    assert (I0 : CInv l [] ([], l)).
    { split; [|split; [apply incl_refl|split; [apply incl_nil_l|split; [apply incl_nil_l|split]]]].
      - simpl. clear. induction l as [|s l IH]; constructor; auto. repeat split; apply E_refl.
      - intros d [].
      - intros x _ L. unfold cn in L. simpl in L. lia. }
    pose proof (loop_inv l (hall_points h l) [] ([], l) TR W (fun o I => Permutation_in _ (hall_perm h l) I) I0) as (V & EI & SI & DI & C1 & C2).
    simpl app in *. split; [exact V|]. split; [exact EI|]. split; [reflexivity|].
    intros a b Ia Ib Q. destruct (Nat.eq_dec a b) as [|N]; auto. exfalso.
    pose proof (two_near _ a b Ia Ib Q N) as T.
    rewrite <- (cn_near (objects l) a (objects l) _ TR (incl_refl _) EI (EI _ Ia) (near_objects _ _ V)) in T.
    rewrite <- (cn_perm a _ _ (hall_perm h l)) in T.
    destruct (C2 a (EI _ Ia) T) as (y & _ & _ & U). apply N. rewrite (U a Ia (E_refl _)), (U b Ib (E_sym _ _ Q)). reflexivity.
Qed.
End Clusters.

Lemma close_eqb : forall p q : pt RA, pt_eqb p q = true <-> close p q.
Proof. intros. rewrite pt_eqb_iff. unfold close. replace (1 / 10^5)%R with (1 / 100000)%R by lra. tauto. Qed.

(*@ C27_clusters *)
(** C27: if the end points form clusters and at least two of them coincide exactly, purge keeps number, order and
    class of the segments, moves each end to one Point object of its cluster, one and the same for the whole cluster. *)
Lemma purge_clusters : forall (h : heap RA) (l : list hseg), clustered h l -> some_coincide h l ->
  let P' := purge h (mkhp l false) in
  Forall2 (fun s s' => hc s' = hc s /\ close (h (hi s')) (h (hi s)) /\ close (h (hj s')) (h (hj s))) l (hsegs P') /\
  incl (objects (hsegs P')) (objects l) /\ hpurged P' = true /\
  (forall a b, In a (objects (hsegs P')) -> In b (objects (hsegs P')) -> close (h a) (h b) -> a = b).
Proof.
  intros h l [TR W] (i & j & a & b & N & Hi & Hj & Q) P'.
  destruct (purge_near h l) as (F & I & HP & U).
  - intros x y z Ix Iy Iz A B. apply close_eqb in A, B. apply close_eqb. eauto.
  - intros s Is A. apply close_eqb in A. apply (W s Is A).
  - exists a, b, i, j. auto.
  - split; [|split; [exact I|split; [exact HP|]]].
    + fold P' in F. clearbody P'. generalize (hsegs P') F. clear. intros m F. induction F as [|s s' l l' (H1 & H2 & H3) F IH]; constructor; auto. rewrite <- !close_eqb. auto.
    + intros x y Ix Iy C. apply U; auto. apply close_eqb, C.
Qed.

(*@ C27_skipped *)
(** C27: without two exactly coincident end points purge changes nothing but the flag. *)
Lemma purge_skipped : forall (h : heap RA) (l : list hseg), ~ some_coincide h l -> purge h (mkhp l false) = mkhp l true.
Proof.
  intros h l N. unfold purge. cbn [hpurged hsegs].
  assert (ND : NoDup (map h (objects l))).
  { apply NoDup_nth_error. intros i j Li E. destruct (Nat.eq_dec i j) as [|Ne]; auto. exfalso. apply N.
    rewrite map_length in Li. destruct (nth_error (objects l) i) as [a|] eqn:Hi; [|apply nth_error_None in Hi; lia].
    rewrite (map_nth_error h _ _ Hi) in E. symmetry in E. rewrite nth_error_map in E.
    destruct (nth_error (objects l) j) as [b|] eqn:Hj; [|discriminate]. simpl in E. injection E as E. exists i, j, a, b. auto. }
  replace (Nat.eqb _ _) with true; [reflexivity|]. symmetry. apply Nat.eqb_eq. unfold hpoint_set.
  rewrite (Permutation_length (sort_by_perm _ _ _)).
  rewrite <- (map_length h (dedup _ _)), (map_dedup _ _ h), <- (map_length h (hall_points h l)).
  apply Permutation_length. apply NoDup_Permutation.
  - apply (dedup_NoDup _ pt_sameb pt_sameb_iff).
  - apply (Permutation_NoDup (Permutation_sym (Permutation_map h (hall_perm h l)))), ND.
  - intros c. split; [apply dedup_In, pt_sameb_iff|]. intros I. apply dedup_In; [apply pt_sameb_iff|exact I].
Qed.
