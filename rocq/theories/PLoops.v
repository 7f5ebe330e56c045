(** find_loops misses no loop. *)
From Coq Require Import Reals ZArith Lra Lia Bool List Psatz Permutation Arith Classical.
From Verif Require Import Base Arith ArithR ArithF MPoint MLine MPoly MGroup Spec SpecGroup SpecLoops PPoint PLine PShape PConvex POrder PGroup PWalk PComponent PHead PCommon PCollinear.
Import ListNotations.
#[local] Existing Instance RA.

(** * order() on segment objects and on values *)
Lemma value_nth : forall (A : Arith) (h : list (seg A)) ids, inrange h ids ->
  forall k i, nth_error ids k = Some i -> nth_error (value h ids) k = nth_error h i.
Proof.
  intros A h. induction ids as [|j ids IH]; intros R k i E; [destruct k; discriminate|].
  destruct (obj_in h j) as (s & Es & O); [apply R; left; auto|]. simpl. rewrite O. destruct k as [|k]; simpl in *.
  - injection E as <-. auto.
  - apply IH; auto. intros x I. apply R. right; auto.
Qed.
Lemma value_length : forall (A : Arith) (h : list (seg A)) ids, inrange h ids -> length (value h ids) = length ids.
Proof.
  intros A h. induction ids as [|j ids IH]; intros R; [reflexivity|].
  destruct (obj_in h j) as (s & Es & O); [apply R; left; auto|]. simpl. rewrite O. simpl. f_equal. apply IH.
  intros x I. apply R. right; auto.
Qed.
Lemma write_other : forall (A : Arith) ids (vals h : list (seg A)) k, ~ In k ids -> nth_error (write h ids vals) k = nth_error h k.
Proof.
  intros A. induction ids as [|i ids IH]; intros [|v vals] h k N; simpl; auto.
  rewrite IH by (intros I; apply N; right; auto). rewrite upd_nth.
  destruct (Nat.eqb_spec k i) as [->|]; [exfalso; apply N; left; auto|reflexivity].
Qed.
Lemma write_length : forall (A : Arith) ids (vals h : list (seg A)), length (write h ids vals) = length h.
Proof. intros A. induction ids as [|i ids IH]; intros [|v vals] h; simpl; auto. rewrite IH, upd_length. reflexivity. Qed.
Lemma write_at : forall (A : Arith) ids (vals h : list (seg A)), NoDup ids -> inrange h ids ->
  forall k i s, nth_error ids k = Some i -> nth_error vals k = Some s -> nth_error (write h ids vals) i = Some s.
Proof.
  intros A. induction ids as [|j ids IH]; intros vals h ND R k i s E V; [destruct k; discriminate|].
  inversion ND as [|j' ids' N ND']; subst. destruct vals as [|v vals]; [destruct k; discriminate|].
  destruct k as [|k]; simpl in E, V |- *.
  - injection E as <-. injection V as <-. rewrite write_other by exact N. rewrite upd_nth, Nat.eqb_refl.
    destruct (nth_error h j) eqn:EH; [reflexivity|]. apply nth_error_None in EH. specialize (R j (or_introl eq_refl)). lia.
  - apply IH with k; auto. intros x I. rewrite upd_length. apply R. right; auto.
Qed.
Lemma value_map : forall (A : Arith) (h : list (seg A)) ids k, inrange h ids ->
  flat_map (fun j => match nth_error ids j with Some i => obj h i | None => [] end) k =
  flat_map (fun j => match nth_error (value h ids) j with Some s => [s] | None => [] end) k.
Proof.
  intros A h ids k R. induction k as [|j k IH]; [reflexivity|]. simpl. rewrite IH. f_equal.
  destruct (nth_error ids j) as [i|] eqn:E.
  - rewrite (value_nth A h ids R j i E). unfold obj. destruct (nth_error h i); reflexivity.
  - apply nth_error_None in E. destruct (nth_error (value h ids) j) eqn:E'; [|reflexivity].
    assert (nth_error (value h ids) j <> None) as Q by congruence. apply nth_error_Some in Q. rewrite value_length in Q by auto. lia.
Qed.
Lemma value_right : forall (A : Arith) (h : list (seg A)) ids, inrange h ids -> value h (rotate_right ids) = rotate_right (value h ids).
Proof.
  intros A h ids R. unfold rotate_right. destruct (rev ids) as [|x r] eqn:E.
  - apply (f_equal (@rev nat)) in E. rewrite rev_involutive in E. subst ids. reflexivity.
  - apply (f_equal (@rev nat)) in E. rewrite rev_involutive in E. simpl in E. subst ids.
    assert (V : forall a b, value h (a ++ b) = value h a ++ value h b) by (intros; apply flat_map_app).
    rewrite V. destruct (obj_in h x) as (s & _ & O); [apply R, in_or_app; right; left; auto|].
    simpl. rewrite O. simpl. rewrite rev_app_distr. simpl. rewrite rev_involutive. reflexivity.
Qed.
Lemma hrotate_value : forall (A : Arith) fuel (h : list (seg A)) f ids, inrange h ids ->
  value h (hrotate_to fuel h f ids) = rotate_to fuel f (value h ids).
Proof.
  intros A. induction fuel as [|fuel IH]; intros h f ids R; [reflexivity|]. cbn [hrotate_to rotate_to].
  destruct ids as [|x ids]; [reflexivity|].
  destruct (obj_in h x) as (s & _ & O); [apply R; left; auto|].
  replace (value h (x :: ids)) with (s :: value h ids) by (simpl; rewrite O; reflexivity).
  rewrite O. cbn [existsb]. rewrite orb_false_r. destruct (seg_eqb s f).
  - simpl. rewrite O. reflexivity.
  - rewrite IH.
    + rewrite value_right by exact R. simpl. rewrite O. reflexivity.
    + intros k I. apply R. apply (Permutation_in _ (rotate_right_perm _ _) I).
Qed.

Lemma horder_true : forall (A : Arith) (h : list (seg A)) ids r, NoDup ids -> inrange h ids ->
  order (value h ids) = Ok (true, r) ->
  exists ids' h', horder h ids = Ok (true, ids', h') /\ value h' ids' = r /\ incl ids' ids /\ NoDup ids' /\ Forall2 turned h' h.
Proof.
  intros A h ids r ND R E.
  assert (EX : exists ids' h', horder h ids = Ok (true, ids', h') /\ value h' ids' = r /\ NoDup ids').
  { unfold horder. unfold order in E. destruct (value h ids) as [|akt v] eqn:EV; [discriminate|]. rewrite <- EV in *.
    assert (I0 : Inv2 (value h ids) (mko (value h ids) 0 (sj akt) [])).
    { split; [|split]; simpl; [apply turned_refl|constructor|intros k []]. }
    destruct (loop2 (value h ids) (2 * length (value h ids) + 1) 0 _ I0) as [L1 _].
    destruct (order_loop (2 * length (value h ids) + 1) 0 (mko (value h ids) 0 (sj akt) [])) as [[o|segs]|e]; cbn [bind] in *; try discriminate.
    destruct (L1 o eq_refl) as (F2 & NR & BR). cbv zeta in *.
    set (h' := write h ids (o_segs o)).
    assert (R' : inrange h' ids) by (intros k I; unfold h'; rewrite write_length; apply R; auto).
    assert (LO : length (o_segs o) = length ids).
    { rewrite (Forall2_len _ _ _ _ _ F2), value_length; auto. }
    assert (VO : value h' ids = o_segs o).
    { apply (nth_ext _ _ akt akt); [rewrite value_length by auto; auto|]. intros k L. rewrite value_length in L by auto.
      destruct (nth_error ids k) as [i|] eqn:Ei; [|apply nth_error_None in Ei; lia].
      destruct (nth_error (o_segs o) k) as [s|] eqn:Es; [|apply nth_error_None in Es; lia].
      rewrite (nth_error_nth _ _ akt Es). apply nth_error_nth. rewrite (value_nth A h' ids R' k i Ei).
      unfold h'. apply write_at with k; auto. }
    set (ret := flat_map (fun k => match nth_error ids k with Some i => [i] | None => [] end) (o_ret o)).
    assert (VR : value h' ret = flat_map (fun k => match nth_error (o_segs o) k with Some s => [s] | None => [] end) (o_ret o)).
    { rewrite <- VO, <- (value_map A h' ids (o_ret o) R'). unfold ret, value. generalize (o_ret o). clear. intros ks.
      induction ks as [|k ks IH]; [reflexivity|]. simpl. rewrite flat_map_app, IH. f_equal.
      destruct (nth_error ids k); simpl; rewrite ?app_nil_r; reflexivity. }
    fold h'. rewrite VR. rewrite <- VR in E |- *.
    destruct (sort_by order_key_ltb (value h' ret)) as [|f t]; [discriminate|]. injection E as E.
    assert (RR : inrange h' ret).
    { intros k I. unfold ret in I. apply in_flat_map in I as (j & _ & I). destruct (nth_error ids j) eqn:EJ; [|destruct I].
      destruct I as [<-|[]]. apply R'. eapply nth_error_In; eauto. }
    do 2 eexists. split; [reflexivity|]. split.
    - rewrite hrotate_value by exact RR. rewrite <- E, value_length by exact RR. reflexivity.
    - eapply Permutation_NoDup; [apply Permutation_sym, hrotate_perm|]. unfold ret. clear -ND NR BR R.
      assert (B : forall k, In k (o_ret o) -> (k < length ids)%nat) by (intros k I; specialize (BR k I); rewrite value_length in BR by auto; exact BR).
      clear BR. induction NR as [|k ks N NR IH]; simpl; [constructor|].
      destruct (nth_error ids k) as [i|] eqn:Ei; [|apply IH; intros; apply B; right; auto]. simpl. constructor.
      + intros I. apply in_flat_map in I as (j & Ij & I). destruct (nth_error ids j) as [i'|] eqn:Ej; [|destruct I].
        destruct I as [->|[]]. assert (j = k); [|congruence].
        apply (proj1 (NoDup_nth_error ids) ND); [apply B; right; auto|congruence].
      + apply IH. intros; apply B; right; auto. }
  destruct EX as (ids' & h' & EH & V & N). exists ids', h'. split; auto. split; auto.
  destruct (horder_turned h ids true ids' h' R EH) as [T I]. auto.
Qed.

(** * The edges of a cycle, by the names of the segment objects *)
Definition hits (h : list (seg RA)) (k : nat) (p : pt RA) : Prop := exists s, nth_error h k = Some s /\ In p (ij s).
Lemma turned_ij : forall (s s' : seg RA) p, turned s s' -> In p (ij s) <-> In p (ij s').
Proof. intros s s' p [-> | ->]; unfold ij; simpl; tauto. Qed.
Lemma hits_turned : forall h' h k p, Forall2 turned h' h -> hits h' k p <-> hits h k p.
Proof.
  intros h' h k p T. split; intros (s & E & I).
  - destruct (Forall2_nth_l _ _ _ _ _ T k s E) as (t & E' & TT). exists t. split; auto. apply (turned_ij _ _ p TT); auto.
  - assert (L : (k < length h')%nat) by (rewrite (Forall2_len _ _ _ _ _ T); apply nth_error_Some; congruence).
    destruct (nth_error h' k) as [t|] eqn:E'; [|apply nth_error_None in E'; lia].
    destruct (Forall2_nth_l _ _ _ _ _ T k t E') as (s' & E2 & TT). rewrite E in E2. injection E2 as <-.
    exists t. split; auto. apply (turned_ij _ _ p TT); auto.
Qed.
Lemma joins_turned : forall e (s s' : seg RA), turned s s' -> joins e s -> joins e s'.
Proof. intros e s s' [-> | ->]; unfold joins; simpl; tauto. Qed.
Lemma joins_turned2 : forall es (l l' : list (seg RA)), Forall2 turned l l' -> Forall2 joins es l -> Forall2 joins es l'.
Proof.
  intros es l l' T. revert es. induction T as [|s s' l l' T1 T IH]; intros es F; inversion F; subst; constructor; auto.
  apply joins_turned with s; auto.
Qed.
Lemma turned_sym2 : forall l l' : list (seg RA), Forall2 turned l l' -> Forall2 turned l' l.
Proof.
  intros l l' T. induction T as [|[c a b] [c' a' b'] l l' [H|H] T IH]; constructor; auto; inversion H; subst; [left|right]; reflexivity.
Qed.
Lemma directed_joins : forall (l : list (seg RA)) es, map (fun s => (si s, sj s)) l = es -> Forall2 joins es l.
Proof. induction l as [|s l IH]; intros es <-; simpl; constructor; auto. left; auto. Qed.

Definition cyc (h : list (seg RA)) (us : list (pt RA)) (ids : list nat) : Prop :=
  (3 <= length us)%nat /\ NoDup us /\ NoDup ids /\ inrange h ids /\ Forall2 joins (cycle_edges us) (value h ids).
Lemma cyc_turned : forall h' h us ids, Forall2 turned h' h -> cyc h' us ids -> cyc h us ids.
Proof.
  intros h' h us ids T (L & N & ND & R & F). split; [|split; [|split; [|split]]]; auto.
  - intros k I. rewrite <- (Forall2_len _ _ _ _ _ T). apply R; auto.
  - eapply joins_turned2; [|exact F]. apply value_turned; auto.
Qed.
Lemma cyc_length : forall h us ids, cyc h us ids -> length ids = length us.
Proof.
  intros h us ids (L & N & ND & R & F). apply Forall2_len in F. rewrite cycle_edges_length, value_length in F by auto. auto.
Qed.
(** the k-th segment of a cycle runs between the k-th vertex and the next *)
Lemma cyc_at : forall h us ids k i, cyc h us ids -> nth_error ids k = Some i ->
  exists a b, nth_error us k = Some a /\ nth_error us (if Nat.eqb (S k) (length us) then 0 else S k)%nat = Some b /\
    hits h i a /\ hits h i b /\ (forall p, hits h i p -> p = a \/ p = b).
Proof.
  intros h us ids k i C E. pose proof (cyc_length _ _ _ C) as LI. destruct C as (L & N & ND & R & F).
  assert (K : (k < length ids)%nat) by (apply nth_error_Some; congruence).
  destruct (nth_error (cycle_edges us) k) as [[a b]|] eqn:EE; [|apply nth_error_None in EE; rewrite cycle_edges_length in EE; lia].
  destruct (Forall2_nth_l _ _ _ _ _ F k (a, b) EE) as (s & ES & J). rewrite (value_nth _ h ids R k i E) in ES.
  apply cycle_edges_nth in EE as [E1 E2]. exists a, b. split; auto. split; auto.
  assert (Q : forall p, In p (ij s) <-> p = a \/ p = b).
  { intros p. destruct J as [[J1 J2]|[J1 J2]]; simpl in J1, J2; subst; unfold ij; simpl; intuition. }
  split; [|split].
  - exists s. split; auto. apply Q; auto.
  - exists s. split; auto. apply Q; auto.
  - intros p (s' & E' & I). rewrite ES in E'. injection E' as <-. apply Q; auto.
Qed.
Lemma cyc_vertex : forall h us ids i p, cyc h us ids -> In i ids -> hits h i p -> In p us.
Proof.
  intros h us ids i p C I H. apply In_nth_error in I as [k K]. destruct (cyc_at _ _ _ _ _ C K) as (a & b & A1 & B1 & _ & _ & Q).
  destruct (Q p H) as [-> | ->]; eapply nth_error_In; eauto.
Qed.
Lemma cyc_two : forall h us ids v, cyc h us ids -> In v us ->
  exists a b, a <> b /\ In a ids /\ In b ids /\ hits h a v /\ hits h b v.
Proof.
  intros h us ids v C I. pose proof (cyc_length _ _ _ C) as LI. pose proof C as (L & N & ND & R & F).
  apply In_nth_error in I as [k K]. assert (KL : (k < length us)%nat) by (apply nth_error_Some; congruence).
  set (k' := (if Nat.eqb k 0 then length us - 1 else k - 1)%nat).
  assert (KL' : (k' < length us)%nat) by (unfold k'; destruct (Nat.eqb_spec k 0); lia).
  assert (KK : (if Nat.eqb (S k') (length us) then 0 else S k')%nat = k).
  { unfold k'. destruct (Nat.eqb_spec k 0); destruct (Nat.eqb_spec (S (length us - 1)) (length us)); destruct (Nat.eqb_spec (S (k - 1)) (length us)); lia. }
  destruct (nth_error ids k) as [i|] eqn:Ei; [|apply nth_error_None in Ei; lia].
  destruct (nth_error ids k') as [j|] eqn:Ej; [|apply nth_error_None in Ej; lia].
  destruct (cyc_at _ _ _ _ _ C Ei) as (a & b & A1 & B1 & H1 & _).
  destruct (cyc_at _ _ _ _ _ C Ej) as (a' & b' & A2 & B2 & _ & H2 & _).
  rewrite KK in B2. exists i, j. repeat split.
  - intros ->. assert (k = k'); [|unfold k' in *; destruct (Nat.eqb_spec k 0); lia].
    apply (proj1 (NoDup_nth_error ids) ND); [lia|congruence].
  - eapply nth_error_In; eauto.
  - eapply nth_error_In; eauto.
  - congruence.
  - congruence.
Qed.
Lemma cyc_conn : forall h us ids (P : nat -> Prop), cyc h us ids ->
  (forall i j v, In i ids -> In j ids -> hits h i v -> hits h j v -> P i -> P j) ->
  forall i, In i ids -> P i -> forall j, In j ids -> P j.
Proof.
  intros h us ids P C CL i Ii Pi j Ij. pose proof (cyc_length _ _ _ C) as LI.
  assert (NB : forall k x y, nth_error ids k = Some x -> nth_error ids (S k) = Some y -> P x <-> P y).
  { intros k x y Ex Ey. destruct (cyc_at _ _ _ _ _ C Ex) as (a & b & A1 & B1 & _ & H1 & _).
    destruct (cyc_at _ _ _ _ _ C Ey) as (a' & b' & A2 & B2 & H2 & _).
    assert (S k < length us)%nat by (apply nth_error_Some; congruence).
    destruct (Nat.eqb_spec (S k) (length us)) as [|_]; [lia|]. assert (b = a') by congruence. subst a'.
    split; intros Q; eapply CL; try exact Q; try exact H1; try exact H2; eapply nth_error_In; eauto. }
  assert (Z : forall k x y, nth_error ids 0 = Some x -> nth_error ids k = Some y -> P x <-> P y).
  { induction k as [|k IH]; intros x y Ex Ey; [rewrite Ex in Ey; injection Ey as ->; tauto|].
    destruct (nth_error ids k) as [z|] eqn:Ez.
    - rewrite (IH x z Ex eq_refl). apply (NB k); auto.
    - apply nth_error_None in Ez. assert (S k < length ids)%nat by (apply nth_error_Some; congruence). lia. }
  apply In_nth_error in Ii as [a Ea]. apply In_nth_error in Ij as [b Eb].
  destruct ids as [|x ids]; [destruct a; discriminate|].
  apply (Z b x j); auto. apply (Z a x i); auto.
Qed.

Lemma count_hits : forall h ids p, NoDup ids -> inrange h ids -> (forall s, In s (value h ids) -> si s <> sj s) ->
  count p (value h ids) = 2%nat -> forall a b c, In a ids -> In b ids -> In c ids -> hits h a p -> hits h b p -> hits h c p ->
  a = b \/ a = c \/ b = c.
Proof.
  intros h ids p ND R NZ C a b c Ia Ib Ic Ha Hb Hc.
  apply In_nth_error in Ia as [ka Ka]. apply In_nth_error in Ib as [kb Kb]. apply In_nth_error in Ic as [kc Kc].
  assert (Q : forall k i, nth_error ids k = Some i -> hits h i p -> In k (inc p (value h ids))).
  { intros k i E (s & ES & I). apply inc_iff. exists s. split; auto. rewrite (value_nth _ h ids R k i E). exact ES. }
  rewrite <- inc_length in C by exact NZ.
  destruct (Nat.eq_dec ka kb) as [->|N1]; [left; congruence|].
  destruct (Nat.eq_dec ka kc) as [->|N2]; [right; left; congruence|].
  destruct (Nat.eq_dec kb kc) as [->|N3]; [right; right; congruence|]. exfalso.
  assert (LL : (3 <= 2)%nat); [|lia]. rewrite <- C at 2. change 3%nat with (length [ka; kb; kc]).
  apply NoDup_incl_length.
  - repeat constructor; simpl; intuition.
  - intros x [<-|[<-|[<-|[]]]]; eapply Q; eauto.
Qed.
Lemma in_value_iff : forall (A : Arith) (h : list (seg A)) ids s, In s (value h ids) <-> exists k, In k ids /\ nth_error h k = Some s.
Proof.
  intros A h ids s. unfold value. rewrite in_flat_map. split.
  - intros (k & I & J). exists k. split; auto. unfold obj in J. destruct (nth_error h k); [destruct J as [->|[]]; auto|destruct J].
  - intros (k & I & E). exists k. split; auto. unfold obj. rewrite E. left; auto.
Qed.

Lemma cyc_twice : forall h us ids, cyc h us ids -> (forall s, In s (value h ids) -> si s <> sj s) -> twice (value h ids) = true.
Proof.
  intros h us ids C NZ. pose proof C as (L & N & ND & R & F). apply twice_iff. intros p I.
  assert (P : Permutation (flat_map ij (value h ids)) (us ++ us)).
  { transitivity (map fst (cycle_edges us) ++ map snd (cycle_edges us)).
    - clear - F. induction F as [|[a b] s es l J F IH]; simpl; auto.
      assert (E : Permutation [si s; sj s] [a; b]) by (destruct J as [[-> ->]|[-> ->]]; simpl; auto; apply perm_swap).
      unfold ij at 1. change (Permutation ([si s; sj s] ++ flat_map ij l) (a :: map fst es ++ b :: map snd es)).
      rewrite E, IH. simpl. constructor. apply Permutation_middle.
    - destruct (cycle_fst_snd _ us) as [E1 E2]. rewrite E1, E2. reflexivity. }
  unfold count. rewrite (Permutation_length (perm_filter _ (pt_sameb p) _ _ P)).
  rewrite filter_app, app_length.
  assert (Ip : In p us) by (apply (Permutation_in _ P), in_app_iff in I; tauto).
  assert (O : length (filter (pt_sameb p) us) = 1%nat); [|lia].
  clear - N Ip. induction N as [|x us NI N IH]; [destruct Ip|]. simpl. destruct (pt_sameb p x) eqn:E.
  - apply pt_sameb_iff in E. subst x. simpl. f_equal.
    replace (filter (pt_sameb p) us) with (@nil (pt RA)); [reflexivity|]. symmetry. apply filter_none. intros q Iq.
    apply not_true_iff_false. intros Eq. apply pt_sameb_iff in Eq. subst q. auto.
  - destruct Ip as [->|Ip]; [|auto]. exfalso. assert (pt_sameb p p = true) by (apply pt_sameb_iff; auto). congruence.
Qed.
Lemma cyc_perm : forall h us ids ids', cyc h us ids -> Permutation ids ids' ->
  (forall s, In s (value h ids) -> si s <> sj s) -> twice (value h ids') = true.
Proof.
  intros h us ids ids' C P NZ. pose proof (cyc_twice h us ids C NZ) as T. rewrite twice_iff in *.
  assert (PV : Permutation (flat_map ij (value h ids)) (flat_map ij (value h ids'))).
  { apply Permutation_flat_map. unfold value. apply Permutation_flat_map. exact P. }
  intros p I. unfold count. rewrite <- (Permutation_length (perm_filter _ (pt_sameb p) _ _ PV)). apply T.
  apply (Permutation_in _ (Permutation_sym PV)). exact I.
Qed.

Lemma combinations_complete : forall k (l c : list nat), NoDup c -> incl c l -> length c = k -> NoDup l ->
  exists p, In p (combinations k l) /\ Permutation p c.
Proof.
  intros k l. revert k. induction l as [|x l IH]; intros k c ND I L NL.
  - destruct c as [|y c]; [|destruct (I y (or_introl eq_refl))]. simpl in L. subst k. exists []. simpl; auto.
  - destruct k as [|k]; [destruct c; [|discriminate]; exists []; simpl; auto|].
    inversion NL as [|x' l' NX NL']; subst. cbn [combinations]. destruct (in_dec Nat.eq_dec x c) as [Ix|Nx].
    + apply in_split in Ix as (a & b & ->). pose proof (NoDup_remove_1 _ _ _ ND) as ND1. pose proof (NoDup_remove_2 _ _ _ ND) as ND2.
      rewrite app_length in L. simpl in L. destruct (IH k (a ++ b) ND1) as (p & Ip & Pp); auto.
      * intros y Iy. destruct (I y) as [<-|]; auto; [|contradiction]. apply in_app_iff in Iy. apply in_or_app. simpl. tauto.
      * rewrite app_length. lia.
      * exists (x :: p). split; [apply in_or_app; left; apply in_map; exact Ip|]. rewrite Pp. apply Permutation_middle.
    + destruct (IH (S k) c ND) as (p & Ip & Pp); auto.
      * intros y Iy. destruct (I y Iy) as [<-|]; auto. contradiction.
      * exists p. split; auto. apply in_or_app. right; auto.
Qed.
Lemma combinations_props : forall (l : list nat) k c, In c (combinations k l) -> length c = k /\ (NoDup l -> NoDup c).
Proof.
  induction l as [|x l IH]; intros [|k] c I; simpl in I.
  - destruct I as [<-|[]]. split; [auto|intros _; constructor].
  - destruct I.
  - destruct I as [<-|[]]. split; [auto|intros _; constructor].
  - apply in_app_iff in I as [I|I].
    + apply in_map_iff in I as (d & <- & I). pose proof (combinations_incl _ _ _ _ I) as IC. apply IH in I as [L N].
      split; [simpl; lia|]. intros NL. inversion NL; subst. constructor; auto.
    + apply IH in I as [L N]. split; auto. intros NL. inversion NL; auto.
Qed.

(** * Crossings do not depend on the directions *)
Lemma ios_turned1 : forall (s s' t : seg RA), turned s' s -> intersection_on_segment s' t = intersection_on_segment s t.
Proof. intros s s' t [-> | ->]; auto. destruct (ios_sym s t) as (_ & E & _). exact E. Qed.
Lemma ios_turned : forall (s s' t t' : seg RA), turned s' s -> turned t' t -> intersection_on_segment s' t' = intersection_on_segment s t.
Proof.
  intros s s' t t' T1 T2. rewrite (ios_turned1 s s' t' T1). rewrite (proj1 (ios_sym s t')), (ios_turned1 t t' s T2). apply ios_sym.
Qed.
Lemma ios_self : forall s : seg RA, intersection_on_segment s s = Ok false.
Proof.
  intros s. apply ios_sym. left. apply (proj1 (touch_spec s s)). left. unfold dist.
  rewrite !Rminus_diag_eq by reflexivity. replace (0 ^ 2 + 0 ^ 2)%R with 0%R by ring. rewrite sqrt_0.
  apply Rinv_0_lt_compat. apply pow_lt. lra.
Qed.

(** * One combination after the other *)
Section Combs.
Variable h0 : list (seg RA).
Variable U : list nat.
Variable C0 : list (list nat).
Hypothesis SEP : separated (flat_map ij h0).
Hypothesis NDU : NoDup U.
Hypothesis RU : inrange h0 U.
Hypothesis NZ : forall k s, In k U -> nth_error h0 k = Some s -> si s <> sj s.
Hypothesis SIMP : forall i j s t, In i U -> In j U -> nth_error h0 i = Some s -> nth_error h0 j = Some t ->
  (si s = si t /\ sj s = sj t) \/ (si s = sj t /\ sj s = si t) -> i = j.
Hypothesis BIG : (length U < 250)%nat.

Lemma incl_range : forall h c, Forall2 turned h h0 -> incl c U -> inrange h c.
Proof. intros h c T I. apply (turned_inrange h h0); auto. intros k K. apply RU; auto. Qed.
Lemma sep_turned : forall h, Forall2 turned h h0 -> separated (flat_map ij h).
Proof.
  intros h T p q Ip Iq. assert (Q : forall r, In r (flat_map ij h) -> In r (flat_map ij h0)).
  { intros r Ir. apply in_flat_map in Ir as (s & Is & Ir). apply In_nth_error in Is as [k K].
    destruct (Forall2_nth_l _ _ _ _ _ T k s K) as (t & Et & TT). apply in_flat_map. exists t.
    split; [eapply nth_error_In; eauto|]. apply (turned_ij _ _ r TT); auto. }
  apply SEP; auto.
Qed.
Lemma sep_value : forall h c, Forall2 turned h h0 -> separated (flat_map ij (value h c)).
Proof.
  intros h c T p q Ip Iq. pose proof (sep_turned h T) as S'.
  assert (Q : forall r, In r (flat_map ij (value h c)) -> In r (flat_map ij h)).
  { intros r Ir. apply in_flat_map in Ir as (s & Is & Ir). apply in_flat_map. exists s. split; auto. eapply in_value; eauto. }
  apply S'; auto.
Qed.
Lemma nz_value : forall h c, Forall2 turned h h0 -> incl c U -> forall s, In s (value h c) -> si s <> sj s.
Proof.
  intros h c T I s Is. apply in_value_iff in Is as (k & K & E).
  destruct (Forall2_nth_l _ _ _ _ _ T k s E) as (t & Et & TT). specialize (NZ k t (I k K) Et).
  destruct TT as [-> | ->]; simpl; auto.
Qed.
Lemma simp_turned : forall h, Forall2 turned h h0 -> forall i j s t, In i U -> In j U -> nth_error h i = Some s -> nth_error h j = Some t ->
  (si s = si t /\ sj s = sj t) \/ (si s = sj t /\ sj s = si t) -> i = j.
Proof.
  intros h T i j s t Ii Ij Ei Ej H.
  destruct (Forall2_nth_l _ _ _ _ _ T i s Ei) as (s' & Ei' & T1). destruct (Forall2_nth_l _ _ _ _ _ T j t Ej) as (t' & Ej' & T2).
  apply (SIMP i j s' t'); auto. destruct T1 as [-> | ->], T2 as [-> | ->]; simpl in H; intuition.
Qed.
Lemma apart_value : forall h c, Forall2 turned h h0 -> NoDup c -> incl c U -> ends_apart (value h c).
Proof.
  intros h c T ND I. split; [apply nz_value; auto|]. intros i j s t Ei Ej H.
  assert (R := incl_range h c T I).
  assert (Q : forall k x, nth_error (value h c) k = Some x -> exists m, nth_error c k = Some m /\ nth_error h m = Some x).
  { intros k x E. destruct (nth_error c k) as [m|] eqn:M.
    - exists m. split; auto. rewrite <- (value_nth _ h c R k m M). exact E.
    - apply nth_error_None in M. assert (k < length (value h c))%nat by (apply nth_error_Some; congruence).
      rewrite value_length in * by auto. lia. }
  destruct (Q i s Ei) as (m & M1 & M2). destruct (Q j t Ej) as (m' & M1' & M2').
  assert (m = m'); [|subst m'; apply (proj1 (NoDup_nth_error c) ND); [apply nth_error_Some; congruence|congruence]].
  apply (simp_turned h T m m' s t); auto; apply I; eapply nth_error_In; eauto.
Qed.

(** a loop that find_loops has to find *)
Definition wanted (c : list nat) : Prop := incl c U /\ (exists us, cyc h0 us c) /\ uncrossed (value h0 c).
Definition found (st : lstate RA) (c : list nat) : Prop :=
  exists c', In c' (l_cycles st) /\ rearranged (value (l_heap st) c') (value h0 c).
Definition origin (c : list nat) : Prop :=
  In c C0 \/ (incl c U /\ (exists us, cyc h0 us c) /\ uncrossed (value h0 c)).

Definition GI (st : lstate RA) : Prop :=
  Forall2 turned (l_heap st) h0 /\ NoDup (l_graph st) /\ incl (l_graph st) U /\
  (forall k j v, In k U -> ~ In k (l_graph st) -> In j (l_graph st) -> hits h0 k v -> hits h0 j v -> False) /\
  (forall c, In c (l_cycles st) -> origin c) /\ incl C0 (l_cycles st).
Definition todo (n : nat) (rest : list (list nat)) (st : lstate RA) : Prop :=
  forall c, wanted c -> found st c \/
    (incl c (l_graph st) /\ (n <= length c)%nat /\ (length c = n -> exists p, In p rest /\ Permutation p c)).

Lemma rearranged_perm : forall h c c', Forall2 turned h h0 -> Permutation c' c -> rearranged (value h c') (value h0 c).
Proof.
  intros h c c' T P. exists (value h0 c'). split; [apply Permutation_flat_map; exact P|].
  pose proof (value_turned h h0 c' T) as V. exact V.
Qed.
Lemma rearranged_turned : forall (l l' g : list (seg RA)), Forall2 turned l' l -> rearranged l g -> rearranged l' g.
Proof. intros l l' g T (g' & P & F). exists g'. split; auto. apply (turned2_trans l' l g'); auto. Qed.
Lemma found_mono : forall st st', Forall2 turned (l_heap st') (l_heap st) -> incl (l_cycles st) (l_cycles st') ->
  forall c, found st c -> found st' c.
Proof.
  intros st st' T I c (c' & Ic & Rc). exists c'. split; auto.
  eapply rearranged_turned; [|exact Rc]. apply value_turned; auto.
Qed.

Lemma in_cycles_found : forall h cycles l, Forall2 turned h h0 -> (forall p, In p (flat_map ij l) -> In p (flat_map ij h)) ->
  in_cycles h cycles l = true -> exists c', In c' cycles /\ value h c' = l.
Proof.
  intros h cycles l T IL E. unfold in_cycles in E. apply existsb_exists in E as (c' & Ic & E). exists c'. split; auto.
  unfold poly_eqb in E. apply andb_true_iff in E as [EL E2]. apply Nat.eqb_eq in EL.
  pose proof (separated_eqb _ (sep_turned h T)) as SE.
  assert (IV : forall p, In p (flat_map ij (value h c')) -> In p (flat_map ij h)).
  { intros r Ir. apply in_flat_map in Ir as (s & Is & Ir). apply in_flat_map. exists s. split; auto. eapply in_value; eauto. }
  revert IV IL EL E2. generalize (value h c') as v. clear -SE. intros v. revert l.
  induction v as [|s v IH]; intros [|t l] IV IL EL E2; try discriminate; auto.
  simpl in E2. apply andb_true_iff in E2 as [E1 E2]. f_equal.
  - unfold seg_eqb in E1. apply andb_true_iff in E1 as [E1 EJ]. apply andb_true_iff in E1 as [EC EI].
    apply SE in EI; [|apply IV; simpl; auto|apply IL; simpl; auto].
    apply SE in EJ; [|apply IV; simpl; auto|apply IL; simpl; auto].
    destruct s as [c a b], t as [c' a' b']. simpl in *. destruct c, c'; try discriminate; subst; reflexivity.
  - apply IH; auto.
    + intros p Ip. apply IV. simpl. auto.
    + intros p Ip. apply IL. simpl. auto.
Qed.

(** removing the segments of a polygon removes exactly its objects *)
Lemma used_iff : forall h ids x, Forall2 turned h h0 -> incl ids U -> In x U -> used_by h ids x = true <-> In x ids.
Proof.
  intros h ids x T I Ix. assert (R := incl_range h ids T I).
  destruct (obj_in h x) as (s & Es & O); [apply (incl_range h [x] T); [intros y [<-|[]]; auto|left; auto]|].
  pose proof (separated_eqb _ (sep_turned h T)) as SE.
  assert (IN : forall k t p, nth_error h k = Some t -> In p (ij t) -> In p (flat_map ij h)).
  { intros k t p E Ip. apply in_flat_map. exists t. split; auto. eapply nth_error_In; eauto. }
  unfold used_by, in_poly. rewrite O. cbn [existsb]. rewrite orb_false_r. split.
  - intros E. apply orb_true_iff in E as [E|E]; apply existsb_exists in E as (k & Ik & E).
    + apply orb_true_iff in E as [E|E]; [apply Nat.eqb_eq in E; subst; auto|].
      destruct (obj_in h k) as (t & Et & Ot); [auto|]. rewrite Ot in E. cbn [existsb] in E. rewrite orb_false_r in E.
      unfold seg_eqb in E. apply andb_true_iff in E as [E EJ]. apply andb_true_iff in E as [EC EI].
      replace x with k; auto. apply (simp_turned h T k x t s); auto. left.
      split; (apply SE; [apply (IN k t); [exact Et|unfold ij; simpl; auto]|apply (IN x s); [exact Es|unfold ij; simpl; auto]|assumption]).
    + destruct (obj_in h k) as (t & Et & Ot); [auto|]. rewrite Ot in E. cbn [existsb] in E. rewrite orb_false_r in E.
      unfold seg_eqb in E. simpl in E. apply andb_true_iff in E as [E EJ]. apply andb_true_iff in E as [EC EI].
      replace x with k; auto. apply (simp_turned h T k x t s); auto. right.
      split; (apply SE; [apply (IN k t); [exact Et|unfold ij; simpl; auto]|apply (IN x s); [exact Es|unfold ij; simpl; auto]|assumption]).
  - intros J. apply orb_true_iff. left. apply existsb_exists. exists x. split; auto. rewrite Nat.eqb_refl. reflexivity.
Qed.
Lemma branch_count : forall h ids G, Forall2 turned h h0 -> branch_free (value h ids) (value h G) = true ->
  forall p, In p (flat_map ij (value h ids)) -> count p (value h G) = 2%nat.
Proof.
  intros h ids G T E p Ip. unfold branch_free in E. rewrite forallb_forall in E. specialize (E p Ip). apply Nat.eqb_eq in E.
  unfold count. rewrite <- E. f_equal.
  pose proof (separated_eqb _ (sep_turned h T)) as SE.
  assert (IV : forall c r, In r (flat_map ij (value h c)) -> In r (flat_map ij h)).
  { intros c r Ir. apply in_flat_map in Ir as (s & Is & Ir). apply in_flat_map. exists s. split; auto. eapply in_value; eauto. }
  apply filter_ext_in. intros q Iq. destruct (pt_sameb p q) eqn:Q.
  - apply pt_sameb_iff in Q. subst q. symmetry. apply pt_eqb_refl.
  - symmetry. apply not_true_iff_false. intros W. apply SE in W; [|eapply IV; eauto|eapply IV; eauto].
    subst q. assert (pt_sameb p p = true) by (apply pt_sameb_iff; auto). congruence.
Qed.

Lemma step : forall n ids rest st, GI st -> todo n (ids :: rest) st -> NoDup ids -> incl ids U -> length ids = n -> (1 <= n)%nat ->
  exists st', try_comb st ids = Ok st' /\ GI st' /\ todo n rest st'.
Proof.
  intros n ids rest st (T & NG & IG & ISO & OR & IC0) TD ND IU LN N1. set (h := l_heap st) in *.
  assert (R := incl_range h ids T IU).
  unfold try_comb. cbv zeta. fold h.
  destruct (twice (value h ids)) eqn:TW; cbn [negb].
  2:{ exists st. split; [reflexivity|]. split; [repeat split; auto|]. 
      intros c W. destruct (TD c W) as [F|(Ic & Lc & Q)]; [left; auto|]. right. split; auto. split; auto. intros EQ.
      destruct (Q EQ) as (p & [<-|Ip] & P); [|exists p; auto]. exfalso.
      destruct W as (IcU & (us & CY) & _).
      assert (twice (value h ids) = true); [|congruence].
      apply (cyc_perm h us c ids).
      - apply (cyc_turned h0 h); auto. apply turned_sym2; auto.
      - apply Permutation_sym; auto.
      - apply nz_value; auto. }
  destruct (component_order (value h ids)) as (us & r & EO & L3 & NU & IU' & ER & _).
  { apply sep_value; auto. }
  { apply apart_value; auto. }
  { exact TW. }
  { intros E. apply (f_equal (@length (seg RA))) in E. rewrite value_length in E by auto. simpl in E. lia. }
  { rewrite value_length by auto. pose proof (NoDup_incl_length ND IU). lia. }
  destruct (horder_true RA h ids r ND R EO) as (ids' & h' & EH & EV & II & ND' & TH).
  rewrite EH. cbn [bind negb].
  assert (T' : Forall2 turned h' h0) by (eapply turned2_trans; eauto).
  assert (IU2 : incl ids' U) by (intros k K; apply IU; auto).
  assert (R' := incl_range h' ids' T' IU2).
  assert (CY' : cyc h' us ids').
  { split; [|split; [|split; [|split]]]; auto. apply directed_joins. rewrite EV. exact ER. }
  assert (CY0 : cyc h0 us ids') by (eapply cyc_turned; eauto).
  assert (CL : isclosed (value h' ids') = Ok true).
  { apply (cycle_closed _ us); [destruct us; [simpl in L3; lia|congruence]|]. rewrite EV; exact ER. }
  destruct (isvalid_spec (value h' ids')) as (b & EB & VB). rewrite EB. cbn [bind].
  (* a vertex of the polygon *)
  assert (VX : forall G, NoDup G -> incl G U -> forall p, count p (value h' G) = 2%nat -> In p us ->
    (forall k, In k ids' -> hits h0 k p -> In k G) -> forall j, In j G -> hits h0 j p -> In j ids').
  { intros G NDG IGU p CP Ip Q j Ij Hj. destruct (cyc_two h0 us ids' p CY0 Ip) as (a & b' & AB & Ia & Ib & Ha & Hb).
    destruct (count_hits h' G p NDG (incl_range h' G T' IGU) (nz_value h' G T' IGU) CP a b' j) as [E|[E|E]]; auto;
      try (apply (hits_turned h' h0 _ p T'); auto); subst; auto; contradiction. }
  (* a wanted loop with this combination *)
  assert (FULL : forall c, wanted c -> Permutation ids c -> Permutation ids' c /\ b = true).
  { intros c (IcU & (ws & CYc) & UN) P.
    assert (TW' : forall p, In p (flat_map ij (value h ids)) -> count p (value h ids) = 2%nat) by (apply twice_iff; exact TW).
    assert (PF : forall l l', Forall2 turned l l' -> Permutation (flat_map ij l) (flat_map ij l')).
    { intros l l' TT. induction TT as [|s s' l l' TS TT IH]; simpl; auto. destruct TS as [-> | ->]; simpl; [rewrite IH; auto|].
      rewrite IH. apply perm_swap. }
    assert (PP : Permutation (flat_map ij (value h' ids)) (flat_map ij (value h ids))).
    { apply PF. apply value_turned; exact TH. }
    assert (CP : forall p, In p us -> count p (value h' ids) = 2%nat).
    { intros p Ip. unfold count. rewrite (Permutation_length (perm_filter _ (pt_sameb p) _ _ PP)). apply TW'. apply IU'; auto. }
    assert (SUB : incl c ids').
    { assert (exists i, In i ids') as [i0 I0].
      { pose proof (cyc_length _ _ _ CY0). destruct ids' as [|i ?]; [simpl in *; lia|exists i; left; auto]. }
      assert (I0c : In i0 c) by (apply (Permutation_in _ P); auto).
      intros j Ij. apply (cyc_conn h0 ws c (fun k => In k ids') CYc) with i0; auto.
      intros a b' v Ia Ib Ha Hb Pa. apply (VX ids ND IU v); auto.
      - apply CP. eapply cyc_vertex; eauto.
      - eapply cyc_vertex; eauto.
      - apply (Permutation_in _ (Permutation_sym P)); auto. }
    assert (PC : Permutation ids' c).
    { apply Permutation_sym, NoDup_Permutation_bis; auto.
      - destruct CYc as (_ & _ & X & _); exact X.
      - rewrite <- (Permutation_length P). apply NoDup_incl_length; auto. }
    split; auto. apply VB. split; [|split].
    - intros E. apply (f_equal (@length (seg RA))) in E. rewrite value_length in E by auto.
      pose proof (cyc_length _ _ _ CY0). simpl in E. lia.
    - apply iscontinuous_iff. unfold isclosed in CL. destruct (iscontinuous (value h' ids')); [reflexivity|discriminate].
    - intros s t (x & y & _ & X & Y).
      assert (TR : forall z k, nth_error (value h' ids') k = Some z -> exists z', In z' (value h0 c) /\ turned z z').
      { intros z k Z. apply nth_error_In, in_value_iff in Z as (m & Im & Em).
        destruct (Forall2_nth_l _ _ _ _ _ T' m z Em) as (z' & Ez & TZ). exists z'. split; auto.
        apply in_value_iff. exists m. split; auto. apply (Permutation_in _ PC); auto. }
      destruct (TR s x X) as (s' & Is & Ts). destruct (TR t y Y) as (t' & It & Tt). rewrite (ios_turned s' s t' t Ts Tt). apply UN; auto. }
  assert (ORI : b = true -> origin ids').
  { intros EB'. right. split; auto. split; [exists us; auto|]. apply VB in EB'. destruct EB' as (_ & _ & X).
    intros s t Is It. apply in_value_iff in Is as (k & Ik & Ek). apply in_value_iff in It as (m & Im & Em).
    destruct (Nat.eq_dec k m) as [->|NE]; [rewrite Ek in Em; injection Em as ->; apply ios_self|].
    destruct (Forall2_nth_l _ _ _ _ _ (turned_sym2 _ _ T') k s Ek) as (s' & Es & Ts).
    destruct (Forall2_nth_l _ _ _ _ _ (turned_sym2 _ _ T') m t Em) as (t' & Et & Tt).
    rewrite (ios_turned s' s t' t Ts Tt). apply X.
    apply In_nth_error in Ik as [x Ex]. apply In_nth_error in Im as [y Ey]. exists x, y.
    split; [intros ->; congruence|]. rewrite (value_nth _ h' ids' R' x k Ex), (value_nth _ h' ids' R' y m Ey). auto. }
  destruct b; cbn [bind].
  2:{ exists (mkl h' (l_graph st) (l_cycles st)). split; [reflexivity|]. split; [repeat split; auto|].
      
      intros c W. destruct (TD c W) as [F|(Ic & Lc & Q)].
      - left. eapply found_mono; [| |exact F]; simpl; auto. intros x; auto.
      - right. simpl. split; auto. split; auto. intros EQ. destruct (Q EQ) as (p & [<-|Ip] & P); [|exists p; auto].
        destruct (FULL c W P) as [_ X]. discriminate. }
  rewrite CL. cbn [bind andb].
  destruct (in_cycles h' (l_cycles st) (value h' ids')) eqn:IN; cbn [negb].
  { exists (mkl h' (l_graph st) (l_cycles st)). split; [reflexivity|]. split; [repeat split; auto|].
    
    intros c W. destruct (TD c W) as [F|(Ic & Lc & Q)].
    - left. eapply found_mono; [| |exact F]; simpl; auto. intros x; auto.
    - destruct (Nat.eq_dec (length c) n) as [EQ|NE]; [|right; simpl; split; auto; split; auto; intros; contradiction].
      destruct (Q EQ) as (p & [<-|Ip] & P); [|right; simpl; split; auto; split; auto; intros _; exists p; auto].
      left. destruct (FULL c W P) as [PC _]. destruct (in_cycles_found h' (l_cycles st) (value h' ids') T') as (c' & Ic' & Ev).
      + intros q Iq. apply in_flat_map in Iq as (s & Is & Iq). apply in_flat_map. exists s. split; auto. eapply in_value; eauto.
      + exact IN.
      + exists c'. simpl. split; auto. rewrite Ev. apply rearranged_perm; auto. }
  set (g' := if branch_free (value h' ids') (value h' (l_graph st)) then filter (fun x => negb (used_by h' ids' x)) (l_graph st) else l_graph st).
  exists (mkl h' g' (l_cycles st ++ [ids'])). split; [reflexivity|].
  assert (IG' : incl g' (l_graph st)).
  { unfold g'. destruct (branch_free _ _); intros x Ix; auto. apply filter_In in Ix. tauto. }
  assert (CNT : branch_free (value h' ids') (value h' (l_graph st)) = true -> forall p, In p us -> count p (value h' (l_graph st)) = 2%nat).
  { intros BF p Ip. apply (branch_count h' ids'); auto.
    destruct (cyc_two h' us ids' p CY' Ip) as (a & _ & _ & Ia & _ & (s & Es & Is) & _).
    apply in_flat_map. exists s. split; auto. apply in_value_iff. exists a. auto. }
  (* at a vertex of the polygon that a remaining segment touches, all the others touching it are in the polygon *)
  assert (NEAR : branch_free (value h' ids') (value h' (l_graph st)) = true ->
    forall a j v, In a ids' -> In a (l_graph st) -> In j (l_graph st) -> hits h0 a v -> hits h0 j v -> In j ids').
  { intros BF a j v Ia Ga Gj Ha Hj. assert (Iv : In v us) by (eapply cyc_vertex; eauto).
    apply (VX (l_graph st) NG IG v); auto. intros k Ik Hk.
    destruct (in_dec Nat.eq_dec k (l_graph st)) as [|NK]; auto. exfalso. apply (ISO k a v); auto. }
  split.
  - split; [|split; [|split; [|split; [|split]]]]; simpl; auto.
    + unfold g'. destruct (branch_free _ _); auto. apply NoDup_filter; auto.
    + intros x Ix. apply IG. auto.
    + intros k j v Ik Nk Ij Hk Hj.
      destruct (in_dec Nat.eq_dec k (l_graph st)) as [Gk|NGk]; [|apply (ISO k j v); auto].
      unfold g' in Nk, Ij. destruct (branch_free _ _) eqn:BF; [|contradiction].
      apply filter_In in Ij as [Ij Uj]. apply negb_true_iff in Uj.
      assert (Kid : In k ids').
      { destruct (used_by h' ids' k) eqn:Uk; [apply (used_iff h' ids' k); auto|]. exfalso. apply Nk. apply filter_In. rewrite Uk. auto. }
      assert (In j ids') by (eapply NEAR; eauto).
      apply (used_iff h' ids' j) in H; auto. congruence.
    + intros c Ic. apply in_app_iff in Ic as [Ic|[<-|[]]]; auto.
    + intros x Ix. apply in_or_app. left; auto.
  - intros c W. destruct (TD c W) as [F|(Ic & Lc & Q)].
    { left. eapply found_mono; [| |exact F]; simpl; auto. intros x Ix; apply in_or_app; auto. }
    assert (ADD : Permutation ids' c -> found (mkl h' g' (l_cycles st ++ [ids'])) c).
    { intros P. exists ids'. simpl. split; [apply in_or_app; right; left; auto|]. apply rearranged_perm; auto. }
    assert (incl c g' \/ Permutation ids' c) as [Ig|P]; [| |left; auto].
    { unfold g'. destruct (branch_free _ _) eqn:BF; [|left; auto].
      destruct (classic (exists x, In x c /\ In x ids')) as [(x & Xc & Xi)|NX].
      - right. destruct W as (IcU & (ws & CYc) & _).
        assert (SUB : incl c ids').
        { intros j Ij. apply (cyc_conn h0 ws c (fun k => In k ids') CYc) with x; auto.
          intros a b' v Ia Ib Ha Hb Pa. apply (NEAR eq_refl a b' v); auto. }
        apply Permutation_sym, NoDup_Permutation_bis; auto.
        + destruct CYc as (_ & _ & X & _); exact X.
        + pose proof (NoDup_incl_length ND' II). lia.
      - left. intros x Xc. apply filter_In. split; auto. apply negb_true_iff, not_true_iff_false. intros X.
        apply (used_iff h' ids' x) in X; auto. apply NX. exists x. auto. }
    destruct (Nat.eq_dec (length c) n) as [EQ|NE]; [|right; split; auto; split; auto; intros; contradiction].
    destruct (Q EQ) as (p & [<-|Ip] & P).
    + left. apply ADD. apply FULL; auto.
    + right. split; auto. split; auto. intros _. exists p; auto.
Qed.

Lemma fold_combs : forall n cs st, GI st -> todo n cs st -> (1 <= n)%nat ->
  (forall c, In c cs -> NoDup c /\ incl c U /\ length c = n) ->
  exists st', foldM try_comb cs st = Ok st' /\ GI st' /\ todo n [] st'.
Proof.
  intros n. induction cs as [|c cs IH]; intros st G T N Q.
  - exists st. split; [reflexivity|]. auto.
  - destruct (Q c (or_introl eq_refl)) as (ND & I & L).
    destruct (step n c cs st G T ND I L N) as (s1 & E1 & G1 & T1).
    destruct (IH s1 G1 T1 N) as (s2 & E2 & G2 & T2); [intros d D; apply Q; right; auto|].
    exists s2. split; auto. simpl. rewrite E1. cbn [bind]. exact E2.
Qed.
Lemma all_rounds : forall fuel comblen st, GI st -> (1 <= comblen)%nat -> (length U < fuel + comblen)%nat ->
  (forall c, wanted c -> found st c \/ (incl c (l_graph st) /\ (S comblen <= length c)%nat)) ->
  exists st', comb_rounds fuel comblen st = Ok st' /\ GI st' /\ forall c, wanted c -> found st' c.
Proof.
  induction fuel as [|fuel IH]; intros comblen st G L1 LF W; cbn [comb_rounds].
  - exists st. split; [reflexivity|]. split; auto. intros c Wc. destruct (W c Wc) as [F|[Ic Lc]]; auto. exfalso.
    destruct Wc as (IU & (us & CY) & _). destruct CY as (_ & _ & ND & _). pose proof (NoDup_incl_length ND IU). lia.
  - pose proof G as (T & NG & IG & _). destruct (Nat.leb_spec comblen (length (l_graph st))) as [LE|GT].
    + destruct (fold_combs (S comblen) (combinations (S comblen) (l_graph st)) st G) as (s1 & E1 & G1 & T1).
      * intros c Wc. destruct (W c Wc) as [F|[Ic Lc]]; [left; auto|]. right. split; auto. split; auto.
        intros EQ. destruct Wc as (IU & (us & CY) & _). destruct CY as (_ & _ & ND & _).
        apply combinations_complete; auto.
      * lia.
      * intros c Ic. destruct (combinations_props _ _ _ Ic) as [Lc Nc]. pose proof (combinations_incl _ _ _ _ Ic) as I.
        split; auto. split; auto. intros x X. apply IG, I, X.
      * rewrite E1. cbn [bind]. apply IH; auto; [lia|].
        intros c Wc. destruct (T1 c Wc) as [F|(Ic & Lc & Q)]; [left; auto|]. right. split; auto.
        destruct (Nat.eq_dec (length c) (S comblen)) as [EQ|NE]; [|lia]. destruct (Q EQ) as (p & [] & _).
    + exists st. split; [reflexivity|]. split; auto. intros c Wc. destruct (W c Wc) as [F|[Ic Lc]]; auto. exfalso.
      destruct Wc as (IU & (us & CY) & _). destruct CY as (_ & _ & ND & _). pose proof (NoDup_incl_length ND Ic). lia.
Qed.
End Combs.

(** * From segments to objects *)
Lemma loop_ids : forall g cyc', loop_in g cyc' -> exists c us, incl c (seq 0 (length g)) /\ cyc g us c /\ value g c = cyc'.
Proof.
  intros g l (us & L & N & F & I).
  assert (exists c, incl c (seq 0 (length g)) /\ value g c = l) as (c & IC & V).
  { clear - I. induction l as [|s l IH]; [exists []; split; [intros x []|reflexivity]|].
    destruct IH as (c & IC & V); [intros x X; apply I; right; auto|].
    destruct (In_nth_error _ _ (I s (or_introl eq_refl))) as [k K]. exists (k :: c). split.
    - intros x [<-|X]; [|auto]. apply in_seq. assert (k < length g)%nat by (apply nth_error_Some; congruence). lia.
    - simpl. unfold obj. rewrite K, V. reflexivity. }
  assert (R : inrange g c) by (intros k K; apply IC, in_seq in K; lia).
  exists c, us. split; auto. split; auto. rewrite <- V in F. split; [|split; [|split; [|split]]]; auto.
  assert (LC : length c = length us).
  { pose proof (Forall2_len _ _ _ _ _ F) as E. rewrite cycle_edges_length, value_length in E by auto. auto. }
  apply NoDup_nth_error. intros i j Li E.
  destruct (nth_error c i) as [k|] eqn:Ei; [|apply nth_error_None in Ei; lia]. symmetry in E.
  assert (Lj : (j < length c)%nat) by (apply nth_error_Some; congruence).
  destruct (nth_error (cycle_edges us) i) as [[a b]|] eqn:EA; [|apply nth_error_None in EA; rewrite cycle_edges_length in EA; lia].
  destruct (nth_error (cycle_edges us) j) as [[a' b']|] eqn:EB; [|apply nth_error_None in EB; rewrite cycle_edges_length in EB; lia].
  destruct (Forall2_nth_l _ _ _ _ _ F i _ EA) as (s & ES & J1). rewrite (value_nth _ g c R i k Ei) in ES.
  destruct (Forall2_nth_l _ _ _ _ _ F j _ EB) as (s' & ES' & J2). rewrite (value_nth _ g c R j k E) in ES'.
  rewrite ES in ES'. injection ES' as <-.
  apply cycle_edges_nth in EA as [A1 A2]. apply cycle_edges_nth in EB as [B1 B2].
  assert (UQ : forall x y p, nth_error us x = Some p -> nth_error us y = Some p -> x = y).
  { intros x y p X Y. apply (proj1 (NoDup_nth_error us) N); [apply nth_error_Some; congruence|congruence]. }
  unfold joins in J1, J2. simpl in J1, J2.
  assert ((a = a') \/ (a = b' /\ b = a')) as [->|[-> ->]].
  { destruct J1 as [[X1 X2]|[X1 X2]], J2 as [[Y1 Y2]|[Y1 Y2]]; [left; congruence|right; split; congruence|right; split; congruence|left; congruence]. }
  - eapply UQ; eauto.
  - pose proof (UQ _ _ _ A1 B2) as Q1. pose proof (UQ _ _ _ A2 B1) as Q2. exfalso.
    destruct (Nat.eqb_spec (S i) (length us)); destruct (Nat.eqb_spec (S j) (length us)); lia.
Qed.

(** the state that the walking leaves *)
Definition same_ends (s t : seg RA) : Prop := (si s = si t /\ sj s = sj t) \/ (si s = sj t /\ sj s = si t).
Definition WI (g : list (seg RA)) (st : lstate RA) : Prop :=
  (exists p, l_heap st = g ++ p /\ made_of p g) /\
  NoDup (l_graph st) /\ incl (l_graph st) (seq 0 (length g)) /\
  (forall c, In c (l_cycles st) -> inrange (l_heap st) c /\ forall k, In k c -> (length g <= k)%nat) /\
  (forall k s, nth_error g k = Some s -> ~ In k (l_graph st) ->
     exists c m t, In c (l_cycles st) /\ In m c /\ nth_error (l_heap st) m = Some t /\ same_ends s t).

Lemma made_ends : forall g p, made_of p g -> forall q, In q (flat_map ij p) -> In q (flat_map ij g).
Proof.
  intros g p M q I. apply in_flat_map in I as (s & Is & I). destruct (M s Is) as (s' & Is' & T).
  apply in_flat_map. exists s'. split; auto. apply (turned_ij _ _ q T); auto.
Qed.

Lemma walk_state : forall g schs wf, simple_graph g -> (forall k, fair (schs k)) -> forall fuel st st', WI g st ->
  walk_rounds schs wf fuel st = Ok (Some st') -> WI g st'.
Proof.
  intros g schs wf (SEP & _) FS. induction fuel as [|fuel IH]; intros st st' W E; cbn [walk_rounds] in E;
    destruct (walk_segments (schs _) wf (value (l_heap st) (l_graph st)) None) as [w|] eqn:EW; try discriminate; cbn [bind] in E;
    destruct w as [| |p]; try discriminate; try (injection E as <-; exact W);
    destruct (in_cycles (l_heap st) (l_cycles st) p) eqn:IC; try discriminate; try (injection E as <-; exact W).
  apply IH in E; auto. clear IH E.
  destruct W as ((p0 & HP & M0) & NG & IG & CY & RM).
  destruct (walk_made RA (schs (S fuel)) wf _ None p (FS _) EW) as [_ MP].
  set (h := l_heap st) in *. set (ids := seq (length h) (length p)).
  assert (RG : inrange h (l_graph st)) by (intros k K; apply IG, in_seq in K; rewrite HP, app_length; lia).
  assert (MP' : made_of p g).
  { intros s Is. destruct (MP s Is) as (s' & Is' & T). apply in_value_iff in Is' as (k & K & Ek).
    apply IG, in_seq in K. rewrite HP, nth_error_app1 in Ek by lia. exists s'. split; auto. eapply nth_error_In; eauto. }
  assert (RI : forall k, In k ids -> (length h <= k < length h + length p)%nat) by (intros k K; unfold ids in K; apply in_seq in K; lia).
  assert (ME : forall q, In q (flat_map ij (h ++ p)) -> In q (flat_map ij g)).
  { intros q Iq. rewrite flat_map_app in Iq. apply in_app_iff in Iq as [Iq|Iq]; [|exact (made_ends g p MP' q Iq)].
    rewrite HP, flat_map_app in Iq. apply in_app_iff in Iq as [Iq|Iq]; [auto|exact (made_ends g p0 M0 q Iq)]. }
  split; [|split; [|split; [|split]]]; simpl.
  - exists (p0 ++ p). rewrite HP, app_assoc. split; auto. intros s Is. apply in_app_iff in Is as [Is|Is]; auto.
  - apply NoDup_filter; auto.
  - intros k K. apply filter_In in K as [K _]. auto.
  - intros c Ic. apply in_app_iff in Ic as [Ic|[<-|[]]].
    + destruct (CY c Ic) as [R1 R2]. split; auto. intros k K. rewrite app_length. specialize (R1 k K). lia.
    + split; [intros k K; rewrite app_length; specialize (RI k K); lia|]. intros k K. specialize (RI k K). rewrite HP, app_length in RI. lia.
  - intros k s Ek Nk. destruct (in_dec Nat.eq_dec k (l_graph st)) as [Gk|NGk].
    2:{ destruct (RM k s Ek NGk) as (c & m & t & Ic & Im & Em & SE). exists c, m, t. split; [apply in_or_app; auto|]. split; auto. split; auto.
        destruct (CY c Ic) as [R1 _]. rewrite nth_error_app1; auto. }
    assert (LK : (k < length g)%nat) by (apply nth_error_Some; congruence).
    assert (HK : nth_error (h ++ p) k = Some s).
    { rewrite nth_error_app1 by (rewrite HP, app_length; lia). rewrite HP, nth_error_app1 by lia. exact Ek. }
    assert (US : used_by (h ++ p) ids k = true).
    { destruct (used_by (h ++ p) ids k) eqn:Uk; auto. exfalso. apply Nk. apply filter_In. rewrite Uk. auto. }
    exists ids. unfold used_by, in_poly in US. assert (OB : obj (h ++ p) k = [s]) by (unfold obj; rewrite HK; reflexivity). rewrite OB in US. cbn [existsb] in US. rewrite orb_false_r in US.
    assert (EQ : forall m t, nth_error (h ++ p) m = Some t -> forall a b, In a (ij t) -> In b (ij s) -> pt_eqb a b = true -> a = b).
    { intros m t Em a b Ia Ib. apply (separated_eqb _ SEP); apply ME; apply in_flat_map.
      - exists t. split; auto. eapply nth_error_In; exact Em.
      - exists s. split; auto. eapply nth_error_In; exact HK. }
    apply orb_true_iff in US as [US|US]; apply existsb_exists in US as (m & Im & US).
    + apply orb_true_iff in US as [US|US]; [apply Nat.eqb_eq in US; subst m; specialize (RI k Im); rewrite HP, app_length in RI; lia|].
      unfold obj in US. destruct (nth_error (h ++ p) m) as [t|] eqn:Em; [|discriminate]. cbn [existsb] in US. rewrite orb_false_r in US.
      exists m, t. split; [apply in_or_app; right; left; auto|]. split; auto. split; auto. left.
      unfold seg_eqb in US. apply andb_true_iff in US as [E EJ]. apply andb_true_iff in E as [_ EI].
      split; symmetry; (eapply EQ; [exact Em| | |eassumption]); unfold ij; simpl; auto.
    + unfold obj in US. destruct (nth_error (h ++ p) m) as [t|] eqn:Em; [|discriminate]. cbn [existsb] in US. rewrite orb_false_r in US.
      exists m, t. split; [apply in_or_app; right; left; auto|]. split; auto. split; auto. right.
      unfold seg_eqb in US. simpl in US. apply andb_true_iff in US as [E EJ]. apply andb_true_iff in E as [_ EI].
      split; symmetry; (eapply EQ; [exact Em| | |eassumption]); unfold ij; simpl; auto.
Qed.

Lemma combs_after : forall g st, simple_graph g -> (length g < 250)%nat -> WI g st ->
  exists st', comb_rounds (length (l_graph st)) 1 st = Ok st' /\
    Forall2 turned (l_heap st') (l_heap st) /\ incl (l_cycles st) (l_cycles st') /\
    (forall c, In c (l_cycles st') -> In c (l_cycles st) \/ exists us, incl c (l_graph st) /\ cyc g us c /\ uncrossed (value g c) /\ rearranged (value (l_heap st') c) (value g c)) /\
    (forall c us, incl c (l_graph st) -> cyc g us c -> uncrossed (value g c) ->
       exists c', In c' (l_cycles st') /\ rearranged (value (l_heap st') c') (value g c)).
Proof.
  intros g st (SEP & NZ & SI) BIG ((p & HP & MP) & NG & IG & CY & RM).
  assert (RG : inrange (l_heap st) (l_graph st)) by (intros k K; apply IG, in_seq in K; rewrite HP, app_length; lia).
  assert (HG : forall k, In k (l_graph st) -> nth_error (l_heap st) k = nth_error g k).
  { intros k K. apply IG, in_seq in K. rewrite HP, nth_error_app1 by lia. reflexivity. }
  assert (VG : forall c, incl c (l_graph st) -> value (l_heap st) c = value g c).
  { induction c as [|k c IH]; intros I; auto. simpl. rewrite IH by (intros x X; apply I; right; auto).
    unfold obj. rewrite HG by (apply I; left; auto). reflexivity. }
  assert (CG : forall c us, incl c (l_graph st) -> cyc (l_heap st) us c <-> cyc g us c).
  { intros c us I. unfold cyc. rewrite (VG c I). split; intros (Q1 & Q2 & Q3 & Q4 & Q5); repeat split; auto.
    - intros k K. apply I, IG, in_seq in K. lia.
    - intros k K. apply RG. auto. }
  destruct (all_rounds (l_heap st) (l_graph st) (l_cycles st)) with (fuel := length (l_graph st)) (comblen := 1%nat) (st := st)
    as (st' & E & (T & _ & _ & _ & OR & IC) & FO); auto.
  - intros a b Ia Ib. assert (Q : forall q, In q (flat_map ij (l_heap st)) -> In q (flat_map ij g)).
    { intros q Iq. rewrite HP, flat_map_app in Iq. apply in_app_iff in Iq as [Iq|Iq]; [auto|exact (made_ends g p MP q Iq)]. }
    apply SEP; auto.
  - intros k s K Ek. rewrite HG in Ek by auto. apply NZ. eapply nth_error_In; eauto.
  - intros i j s t Ii Ij Ei Ej. rewrite HG in Ei, Ej by auto. apply SI; auto.
  - pose proof (NoDup_incl_length NG IG) as Q. rewrite seq_length in Q. lia.
  - split; [apply turned_refl|]. split; auto. split; [intros x; auto|]. split; [intros; contradiction|].
    split; [intros c Ic; left; auto|intros x; auto].
  - lia.
  - intros c W. destruct W as (I & W2 & _). destruct W2 as (us & C). right. split; auto. pose proof (cyc_length _ _ _ C). destruct C as (L & _). lia.
  - exists st'. split; auto. split; auto. split; auto. split.
    + intros c Ic. destruct (OR c Ic) as [|(I & (us & C) & UN)]; [left; auto|]. right. exists us. split; auto. split; [apply CG; auto|].
      split; [rewrite <- (VG c I); exact UN|].
      exists (value g c). split; auto. rewrite <- (VG c I). pose proof (value_turned (l_heap st') (l_heap st) c T) as V. exact V.
    + intros c us I C UN. destruct (FO c) as (c' & Ic' & Rc).
      * split; auto. split; [exists us; apply CG; auto|]. rewrite VG; auto.
      * exists c'. split; auto. rewrite VG in Rc; auto.
Qed.

Lemma start_state : forall g : list (seg RA), WI g (mkl g (seq 0 (length g)) []).
Proof.
  intros g. split; [exists []; rewrite app_nil_r; split; auto; intros s []|]. split; [apply seq_NoDup|].
  split; [intros x; auto|]. split; [intros c []|]. simpl. intros k s E N. exfalso. apply N, in_seq.
  assert (k < length g)%nat by (apply nth_error_Some; congruence). lia.
Qed.
Lemma cyc_loop : forall g us c, cyc g us c -> loop_in g (value g c).
Proof. intros g us c (L & N & _ & _ & F). exists us. repeat split; auto. intros s Is. eapply in_value; eauto. Qed.
Lemma sort_In : forall (c : list nat) cs, In c (sort_by (fun a b => Nat.ltb (length a) (length b)) cs) <-> In c cs.
Proof.
  intros c cs. split; intros I; [eapply Permutation_in; [apply sort_by_perm|exact I]|].
  eapply Permutation_in; [apply Permutation_sym, sort_by_perm|exact I].
Qed.

(*@ C91_no_loop_missed *)
(** C91: when walking along the segments finds no loop first, find_loops returns, and what it returns are
    exactly the loops of the graph that do not cross themselves: each of them is among the results, and
    each result is one of them.  (Up to the order and the directions of the segments, for any graph of
    less than 250 segments without double segments, and for any order in which Python visits a set.) *)
Lemma no_loop_missed : forall (schs : nat -> sched RA) wf fuel (g : list (seg RA)), simple_graph g -> (length g < 250)%nat ->
  walk_segments (schs fuel) wf g None = Ok NoLoop ->
  exists cs h, find_loops schs wf fuel g = Ok (Some (cs, h)) /\
    (forall l, loop_in g l -> uncrossed l -> exists c, In c cs /\ rearranged (value h c) l) /\
    (forall c, In c cs -> exists l, loop_in g l /\ uncrossed l /\ rearranged (value h c) l).
Proof.
  intros schs wf fuel g SG BIG EW.
  assert (V : value g (seq 0 (length g)) = g) by (apply (value_seq g [])).
  destruct (combs_after g _ SG BIG (start_state g)) as (st' & E & T & _ & OR & FO).
  cbn [l_graph l_heap l_cycles] in *.
  unfold find_loops. destruct fuel as [|fuel]; cbn [walk_rounds l_heap l_graph l_cycles]; rewrite V, EW; cbn [bind l_graph]; rewrite E; cbn [bind];
    (do 2 eexists; split; [reflexivity|]; split;
     [intros l L UN; destruct (loop_ids g l L) as (c & us & IC & CY & <-); destruct (FO c us IC CY UN) as (c' & I' & R'); exists c'; split; auto; apply sort_In; auto
     |intros c Ic; apply (proj1 (sort_In c _)) in Ic; destruct (OR c Ic) as [[]|(us & I & C & UN & R')]; exists (value g c); split; [eapply cyc_loop; eauto|auto]]).
Qed.

(*@ C91_missed_only_shared *)
(** C91: in general, a loop that does not cross itself is either among the results of find_loops, or it
    shares a wall with a result that was found by walking (which is made of copies, i.e. of objects that
    are not those of the graph) - the walls of such a loop are taken out of the graph although other loops
    may need them (see C91_lost_room_refuted). *)
Lemma missed_only_shared : forall (schs : nat -> sched RA) wf fuel (g : list (seg RA)) cs h, (forall k, fair (schs k)) ->
  simple_graph g -> (length g < 250)%nat -> find_loops schs wf fuel g = Ok (Some (cs, h)) ->
  forall l, loop_in g l -> uncrossed l ->
    (exists c, In c cs /\ rearranged (value h c) l) \/
    (exists c s t, In c cs /\ (forall k, In k c -> (length g <= k)%nat) /\ In s (value h c) /\ In t l /\
       ((si s = si t /\ sj s = sj t) \/ (si s = sj t /\ sj s = si t))).
Proof.
  intros schs wf fuel g cs h FS SG BIG E l L UN. unfold find_loops in E.
  destruct (walk_rounds schs wf fuel (mkl g (seq 0 (length g)) [])) as [[st|]|] eqn:EW; try discriminate. cbn [bind] in E.
  pose proof (walk_state g schs wf SG FS fuel _ st (start_state g) EW) as WS.
  destruct (combs_after g st SG BIG WS) as (st' & E' & T & IC & OR & FO).
  rewrite E' in E. cbn [bind] in E. injection E as <- <-.
  destruct (loop_ids g l L) as (c & us & Is & CY & <-).
  destruct (classic (incl c (l_graph st))) as [IG|NI].
  - left. destruct (FO c us IG CY UN) as (c' & I' & R'). exists c'. split; auto. apply sort_In; auto.
  - right. assert (exists k, In k c /\ ~ In k (l_graph st)) as (k & Kc & Kn).
    { apply NNPP. intros N. apply NI. intros k K. apply NNPP. intros X. apply N. exists k. auto. }
    destruct WS as (_ & _ & _ & CI & RM).
    destruct (nth_error g k) as [t|] eqn:Ek; [|apply nth_error_None in Ek; apply Is, in_seq in Kc; lia].
    destruct (RM k t Ek Kn) as (d & m & s & Id & Im & Em & SE).
    destruct (Forall2_nth_l _ _ _ _ _ (turned_sym2 _ _ T) m s Em) as (s' & Es & TS).
    exists d, s', t. split; [apply sort_In; auto|]. split; [apply CI; auto|].
    split; [apply in_value_iff; exists m; auto|]. split; [apply in_value_iff; exists k; auto|].
    destruct TS as [-> | ->]; destruct SE as [[-> ->]|[-> ->]]; simpl; auto.
Qed.

(*@ C91_plan *)
(** C91: no loop of a plan (walls with whole coordinates that meet at their ends only) crosses itself, so
    nothing needs to be said about crossings for a plan. *)
Lemma plan_uncrossed : forall g l, plan g -> loop_in g l -> uncrossed l.
Proof.
  intros g l (LA & PL) (us & _ & _ & _ & I) s t Is It.
  assert (Q : forall x p, In x l -> In p (ij x) -> lattice 2000 p) by (intros x p X P; apply LA, in_flat_map; exists x; auto).
  destruct (proper_crossing s t) as (b & E & B);
    [apply (Q s); simpl; auto|apply (Q s); simpl; auto|apply (Q t); simpl; auto|apply (Q t); simpl; auto|].
  rewrite E. f_equal. destruct b; auto. exfalso. destruct (proj1 B eq_refl) as (CP & (q & SH) & N1 & N2 & N3 & N4).
  destruct (PL s t q) as (p & [P|[P|[]]] & [P'|[P'|[]]]); auto; congruence.
Qed.

Lemma candidates_none : forall (akt : seg RA) p (l : list (welt RA)),
  (forall x, In x l -> seg_eqb (w_cur x) akt = true \/ (pt_eqb p (si (w_cur x)) = false /\ pt_eqb p (sj (w_cur x)) = false)) ->
  candidates akt p l = [].
Proof.
  intros akt p l H. unfold candidates.
  rewrite !filter_none; auto; intros x I; destruct (H x I) as [->|[E1 E2]]; rewrite ?andb_false_r, ?E1, ?E2; auto.
Qed.

(*@ C91_dead_end *)
(** C91: walking finds no loop first if the first segment starts at a dead end, whatever the order in
    which Python visits the sets. *)
Lemma dead_end : forall (sch : sched RA) wf (g : list (seg RA)) s r, fair sch -> (0 < wf)%nat -> g = s :: r ->
  separated (flat_map ij g) -> (forall t, In t r -> si t <> si s /\ sj t <> si s) ->
  walk_segments sch wf g None = Ok NoLoop.
Proof.
  intros sch wf g s r FS LW -> SEP DE. pose proof (separated_eqb _ SEP) as SE.
  unfold walk_segments. cbn [get nth_error bind].
  assert (ONE : forall x, In x (nv_init (s :: r)) -> w_cur x = s \/ (pt_eqb (si s) (si (w_cur x)) = false /\ pt_eqb (si s) (sj (w_cur x)) = false)).
  { intros x I. apply nv_init_in in I. destruct I as [->|I]; auto. right. destruct (DE _ I) as [D1 D2].
    assert (J : forall q, In q (ij (w_cur x)) -> In q (flat_map ij (s :: r))) by (intros q Q; apply in_flat_map; exists (w_cur x); split; [right; auto|auto]).
    split; apply not_true_iff_false; intros E.
    - apply SE in E; [congruence|simpl; auto|apply J; left; auto].
    - apply SE in E; [congruence|simpl; auto|apply J; right; left; auto]. }
  assert (AK : forall x, In x (filter (fun x => pt_eqb (si s) (si (w_cur x))) (it_nv sch 0 (nv_init (s :: r)))) -> w_cur x = s).
  { intros x I. apply filter_In in I as [I E]. apply (Permutation_in _ (proj1 FS 0%nat _)) in I.
    destruct (ONE x I) as [|[E' _]]; auto. congruence. }
  assert (exists x, In x (nv_init (s :: r)) /\ w_cur x = s) as (x0 & I0 & E0).
  { assert (IS : In s (dedup seg_sameb (s :: r))).
    { unfold dedup. simpl. assert (G : forall l acc, In s acc -> In s (dedup_acc seg_sameb l acc)).
      { induction l as [|y l IH]; intros acc A; simpl; auto. destruct (memb _ _ _); auto. apply IH. apply in_or_app. auto. }
      apply G; simpl; auto. }
    unfold nv_init. rewrite <- (number_snd _ (dedup seg_sameb (s :: r)) 0) in IS. apply in_map_iff in IS as ([k y] & E & I). simpl in E. subst y.
    exists (mkw k s s). split; auto. apply in_map_iff. exists (k, s). auto. }
  destruct (filter (fun x => pt_eqb (si s) (si (w_cur x))) (it_nv sch 0 (nv_init (s :: r)))) as [|akt more] eqn:EF.
  - exfalso. assert (In x0 []); [|auto]. rewrite <- EF. apply filter_In.
    split; [apply (Permutation_in _ (Permutation_sym (proj1 FS 0%nat _))); auto|]. rewrite E0. apply pt_eqb_refl.
  - rewrite (AK akt (or_introl eq_refl)). destruct wf as [|wf]; [lia|]. cbn [walk_loop].
    destruct (nv_init (s :: r)) as [|n0 nr] eqn:EN; [reflexivity|].
    rewrite candidates_none; [reflexivity|]. intros x I. apply (Permutation_in _ (proj1 FS 1%nat _)) in I.
    destruct (ONE x I) as [->|]; [left|right; auto]. unfold seg_eqb. rewrite !pt_eqb_refl. destruct (sc s); reflexivity.
Qed.

Lemma filter_two : forall (l : list (seg RA)) p, (forall s, In s l -> si s <> sj s) -> incident l p = count p l.
Proof.
  intros l p H. unfold count, incident. induction l as [|s l IH]; auto. cbn [flat_map filter]. rewrite filter_app, app_length, <- IH by (intros; apply H; right; auto).
  specialize (H s (or_introl eq_refl)). unfold ij. cbn [filter].
  destruct (pt_dec (si s) p) as [Ei|Ni]; [|destruct (pt_dec (sj s) p) as [Ej|Nj]].
  - subst p. assert (pt_sameb (si s) (si s) = true) as -> by (apply pt_sameb_iff; auto).
    assert (pt_sameb (si s) (sj s) = false) as -> by (apply not_true_iff_false; intros E; apply pt_sameb_iff in E; auto). reflexivity.
  - subst p. assert (pt_sameb (sj s) (sj s) = true) as -> by (apply pt_sameb_iff; auto).
    assert (pt_sameb (sj s) (si s) = false) as -> by (apply not_true_iff_false; intros E; apply pt_sameb_iff in E; auto). reflexivity.
  - assert (pt_sameb p (si s) = false) as -> by (apply not_true_iff_false; intros E; apply pt_sameb_iff in E; auto).
    assert (pt_sameb p (sj s) = false) as -> by (apply not_true_iff_false; intros E; apply pt_sameb_iff in E; auto). reflexivity.
Qed.
Lemma rearranged_ends : forall (r k : list (seg RA)), rearranged r k -> Permutation (flat_map ij r) (flat_map ij k).
Proof.
  intros r k (g' & P & F). rewrite <- (Permutation_flat_map _ P). clear P. induction F as [|s s' l l' TS TT IH]; simpl; auto.
  destruct TS as [-> | ->]; simpl; rewrite IH; auto. apply perm_swap.
Qed.

(*@ C32_cycle_of_first *)
(** C32: on segments of which exactly two meet at every end point - disjoint cycles - order() returns
    True and keeps exactly the cycle of the first segment, running the way this segment runs; the
    dropped segments share no point with it. *)
Lemma cycle_of_first : forall l : list (seg RA), simple_graph l -> (forall p, In p (flat_map ij l) -> incident l p = 2%nat) ->
  (0 < length l < 250)%nat ->
  exists r kept dropped us, order l = Ok (true, r) /\ Permutation (kept ++ dropped) l /\ rearranged r kept /\
    (3 <= length us)%nat /\ NoDup us /\ map (fun s => (si s, sj s)) r = cycle_edges us /\
    (forall s, nth_error l 0 = Some s -> In s r) /\
    (forall s p, In s dropped -> In p (ij s) -> ~ In p us).
Proof.
  intros l (SEP & NZ & SI) IN [L0 LB].
  assert (TW : forall p, In p (flat_map ij l) -> count p l = 2%nat) by (intros p I; rewrite <- filter_two by auto; auto).
  destruct (component_order l) as (us & r & EO & L3 & NU & IU & ER & FI); auto.
  { split; auto. }
  { apply twice_iff. exact TW. }
  { intros ->. simpl in L0. lia. }
  destruct (order_no_invention _ _ _ _ EO) as [_ Q]. destruct (Q eq_refl) as (kept & dropped & P & RR).
  exists r, kept, dropped, us. repeat (split; auto). intros s p Is Ip Iu.
  assert (C2 : count p l = 2%nat) by (apply TW; auto).
  assert (PL : Permutation (flat_map ij kept ++ flat_map ij dropped) (flat_map ij l)) by (rewrite <- flat_map_app; apply Permutation_flat_map; auto).
  assert (PR : Permutation (flat_map ij r) (us ++ us)).
  { assert (F := directed_joins r _ ER). destruct (cycle_fst_snd _ us) as [E1 E2]. transitivity (map fst (cycle_edges us) ++ map snd (cycle_edges us)); [|rewrite E1, E2; auto].
    rewrite <- ER. clear. induction r as [|s r IH]; simpl; auto. constructor. rewrite IH. apply Permutation_middle. }
  unfold count in C2. rewrite <- (Permutation_length (perm_filter _ (pt_sameb p) _ _ PL)), filter_app, app_length in C2.
  rewrite <- (Permutation_length (perm_filter _ (pt_sameb p) _ _ (rearranged_ends _ _ RR))) in C2.
  rewrite (Permutation_length (perm_filter _ (pt_sameb p) _ _ PR)), filter_app, app_length in C2.
  assert (G : forall X, In p X -> (1 <= length (filter (pt_sameb p) X))%nat).
  { intros X IX. assert (In p (filter (pt_sameb p) X)) as J by (apply filter_In; split; auto; apply pt_sameb_iff; auto).
    destruct (filter (pt_sameb p) X); [destruct J|simpl; lia]. }
  pose proof (G us Iu). pose proof (G (flat_map ij dropped)). assert (In p (flat_map ij dropped)) by (apply in_flat_map; exists s; auto).
  specialize (H0 H1). lia.
Qed.

(** * Examples and findings *)
Definition zseg (a b c d : Z) : seg RA := mkseg CLineSegment (@mkpt RA (IZR a) (IZR b)) (@mkpt RA (IZR c) (IZR d)).
Lemma zseg_simple : forall l : list (Z * Z * Z * Z),
  let g := map (fun '(a, b, c, d) => zseg a b c d) l in
  forallb (fun '(a, b, c, d) => negb (Z.eqb a c && Z.eqb b d)) l = true ->
  forallb (fun '(i, (a, b, c, d)) => forallb (fun '(j, (a', b', c', d')) => Nat.eqb i j || negb
     ((Z.eqb a a' && Z.eqb b b' && Z.eqb c c' && Z.eqb d d') || (Z.eqb a c' && Z.eqb b d' && Z.eqb c a' && Z.eqb d b'))) (number 0 l)) (number 0 l) = true ->
  simple_graph g.
Proof.
  intros l g H1 H2. rewrite forallb_forall in H1, H2.
  assert (PE : forall a b c d : Z, @mkpt RA (IZR a) (IZR b) = @mkpt RA (IZR c) (IZR d) -> a = c /\ b = d).
  { intros a b c d E. injection E as E1 E2. split; apply eq_IZR; auto. }
  split; [|split].
  - apply integral_separated. apply Forall_forall. intros p I. apply in_flat_map in I as (s & Is & I).
    apply in_map_iff in Is as ([[[a b] c] d] & <- & _). destruct I as [<-|[<-|[]]]; [exists a, b|exists c, d]; auto.
  - intros s Is. apply in_map_iff in Is as ([[[a b] c] d] & <- & I). specialize (H1 _ I). simpl in H1 |- *. intros E.
    apply PE in E as [-> ->]. rewrite !Z.eqb_refl in H1. discriminate.
  - intros i j s t Ei Ej H.
    assert (NB : forall X (q : list X) k m x, nth_error q k = Some x -> In ((m + k)%nat, x) (number m q)).
    { induction q as [|y q IH]; intros k m x E; destruct k as [|k]; simpl in *; try discriminate.
      - injection E as <-. left. f_equal. lia.
      - right. replace (m + S k)%nat with (S m + k)%nat by lia. apply IH; auto. }
    unfold g in Ei, Ej. rewrite nth_error_map in Ei, Ej.
    destruct (nth_error l i) as [[[[a b] c] d]|] eqn:Li; [|discriminate]. destruct (nth_error l j) as [[[[a' b'] c'] d']|] eqn:Lj; [|discriminate].
    simpl in Ei, Ej. injection Ei as <-. injection Ej as <-. simpl in H.
    pose proof (H2 _ (NB _ l i 0%nat _ Li)) as Q. cbv beta iota in Q. rewrite forallb_forall in Q. specialize (Q _ (NB _ l j 0%nat _ Lj)). cbv beta iota in Q.
    apply orb_true_iff in Q as [Q|Q]; [apply Nat.eqb_eq in Q; lia|]. exfalso.
    destruct H as [[X Y]|[X Y]]; apply PE in X as [-> ->]; apply PE in Y as [-> ->]; rewrite !Z.eqb_refl in Q; simpl in Q; try discriminate.
    rewrite orb_true_r in Q. discriminate.
Qed.

(*@ex C91_example *)
(** C91: two triangular rooms with a common wall, and a dead end (the first segment): a plan that meets the
    hypotheses, with three loops. *)
Lemma loops_example : forall schs : nat -> sched RA, (forall k, fair (schs k)) ->
  let g := [zseg (-9) 0 0 0; zseg 0 0 4 0; zseg 4 4 4 0; zseg 4 4 0 4; zseg 0 4 0 0; zseg 0 0 4 4] in
  simple_graph g /\ plan g /\ walk_segments (schs 0%nat) 5 g None = Ok NoLoop /\
  loop_in g [zseg 0 0 4 0; zseg 4 4 4 0; zseg 0 0 4 4] /\
  loop_in g [zseg 4 4 0 4; zseg 0 4 0 0; zseg 0 0 4 4] /\
  loop_in g [zseg 0 0 4 0; zseg 4 4 4 0; zseg 4 4 0 4; zseg 0 4 0 0].
Proof.
  intros schs FS g.
  assert (SG : simple_graph g) by (apply (zseg_simple [(-9,0,0,0); (0,0,4,0); (4,4,4,0); (4,4,0,4); (0,4,0,0); (0,0,4,4)]%Z); reflexivity).
  assert (PN : forall a b c d : Z, (a <> c \/ b <> d)%Z -> @mkpt RA (IZR a) (IZR b) <> @mkpt RA (IZR c) (IZR d)).
  { intros a b c d [N|N] E; injection E as E1 E2; apply N, eq_IZR; auto. }
  assert (ND : forall l : list (Z * Z), NoDup l -> NoDup (map (fun '(a, b) => @mkpt RA (IZR a) (IZR b)) l)).
  { intros l N. apply FinFun.Injective_map_NoDup; auto. intros [a b] [c d] E. injection E as E1 E2. apply eq_IZR in E1, E2. congruence. }
  split; auto. split; [|split; [|split; [|split]]].
  - split.
    + assert (LZ : forall a b : Z, (Z.abs a <= 2000)%Z -> (Z.abs b <= 2000)%Z -> lattice 2000 (@mkpt RA (IZR a) (IZR b))).
      { intros a b Ha Hb. exists a, b. auto. }
      intros p I. unfold g, zseg in I. cbn [flat_map ij si sj app In] in I.
      repeat (destruct I as [<-|I]; [apply LZ; lia|]). destruct I.
    + intros s t q Is It CP (U & V).
      destruct Is as [<-|[<-|[<-|[<-|[<-|[<-|[]]]]]]]; destruct It as [<-|[<-|[<-|[<-|[<-|[<-|[]]]]]]];
      first [ solve [eexists; split; [left; reflexivity|left; reflexivity]]
            | solve [eexists; split; [left; reflexivity|right; left; reflexivity]]
            | solve [eexists; split; [right; left; reflexivity|left; reflexivity]]
            | solve [eexists; split; [right; left; reflexivity|right; left; reflexivity]]
            | solve [exfalso; apply CP; unfold crossproduct; simpl; lra]
            | solve [exfalso; destruct U as (u & Lu & ->), V as (v & Lv & E); injection E as E1 E2; simpl in E1, E2; lra] ].
  - apply (dead_end (schs 0%nat) 5 g (zseg (-9) 0 0 0) (tl g)); [apply FS|lia|reflexivity|apply SG|].
    intros t It. repeat (destruct It as [<-|It]; [split; simpl; intros E; injection E; intros; lra|]). destruct It.
  - exists [@mkpt RA 0 0; @mkpt RA 4 0; @mkpt RA 4 4]. split; [simpl; lia|]. split; [|split].
    + apply (ND [(0,0);(4,0);(4,4)]%Z). repeat constructor; simpl; intuition congruence.
    + repeat (apply Forall2_cons; [unfold joins; simpl; auto|]). apply Forall2_nil.
    + intros s Is. simpl in *. intuition.
  - exists [@mkpt RA 4 4; @mkpt RA 0 4; @mkpt RA 0 0]. split; [simpl; lia|]. split; [|split].
    + apply (ND [(4,4);(0,4);(0,0)]%Z). repeat constructor; simpl; intuition congruence.
    + repeat (apply Forall2_cons; [unfold joins; simpl; auto|]). apply Forall2_nil.
    + intros s Is. simpl in *. intuition.
  - exists [@mkpt RA 0 0; @mkpt RA 4 0; @mkpt RA 4 4; @mkpt RA 0 4]. split; [simpl; lia|]. split; [|split].
    + apply (ND [(0,0);(4,0);(4,4);(0,4)]%Z). repeat constructor; simpl; intuition congruence.
    + repeat (apply Forall2_cons; [unfold joins; simpl; auto|]). apply Forall2_nil.
    + intros s Is. simpl in *. intuition.
Qed.

(*@ex C32_cycle_of_first_example *)
(** C32: two disjoint triangles, their segments mixed. *)
Lemma two_triangles : let l := [zseg 0 0 4 0; zseg 10 0 14 0; zseg 4 0 2 3; zseg 14 0 12 3; zseg 10 0 12 3; zseg 0 0 2 3] in
  simple_graph l /\ (forall p, In p (flat_map ij l) -> incident l p = 2%nat) /\ (0 < length l < 250)%nat.
Proof.
  assert (SG : simple_graph [zseg 0 0 4 0; zseg 10 0 14 0; zseg 4 0 2 3; zseg 14 0 12 3; zseg 10 0 12 3; zseg 0 0 2 3])
    by (apply (zseg_simple [(0,0,4,0); (10,0,14,0); (4,0,2,3); (14,0,12,3); (10,0,12,3); (0,0,2,3)]%Z); reflexivity).
  split; [exact SG|]. split; [|simpl; lia]. intros p I.
  assert (D : forall a b c d : Z, (if pt_dec (@mkpt RA (IZR a) (IZR b)) (@mkpt RA (IZR c) (IZR d)) then true else false) = Z.eqb a c && Z.eqb b d).
  { intros a b c d. destruct (pt_dec _ _) as [E|N].
    - injection E as E1 E2. apply eq_IZR in E1, E2. subst. rewrite !Z.eqb_refl. reflexivity.
    - symmetry. apply not_true_iff_false. intros E. apply andb_true_iff in E as [E1 E2]. apply Z.eqb_eq in E1, E2. subst. auto. }
  assert (D2 : forall a b c d e f : Z, (if pt_dec (@mkpt RA (IZR a) (IZR b)) (@mkpt RA (IZR c) (IZR d)) then true else if pt_dec (@mkpt RA (IZR e) (IZR f)) (@mkpt RA (IZR c) (IZR d)) then true else false) = (Z.eqb a c && Z.eqb b d) || (Z.eqb e c && Z.eqb f d)).
  { intros a b c d e f. rewrite <- (D a b c d), <- (D e f c d). destruct (pt_dec _ _); auto. }
  unfold zseg in I. simpl in I.
  repeat (destruct I as [<-|I]; [unfold incident, zseg; cbn [filter si sj]; rewrite !D2; reflexivity|]). destruct I.
Qed.

(*@ C91_lost_room_refuted *)
(** C91, finding (binary64): two triangular rooms with a common wall.  Only one segment starts at the
    branching point, so that walking does not see the branch: it takes the first room and removes its
    walls, also the common one.  The second room is never found. *)
Lemma lost_room : forall L : Libm,
  let s a b c d := LineSegment (Point_new (nofZ a) (nofZ b)) (Point_new (nofZ c) (nofZ d)) : seg (FA L) in
  let graph := [s 0 0 4 0; s 2 3 0 0; s 2 3 4 0; s 6 3 2 3; s 4 0 6 3]%Z in
  exists c h, find_loops (fun _ => plain_sched (FA L)) 10 5 graph = Ok (Some ([c], h)) /\
    ~ (exists t, In t (value h c) /\ (si t = Point_new (nofZ 6) (nofZ 3) \/ sj t = Point_new (nofZ 6) (nofZ 3))).
Proof.
  intros L s graph.
  assert (H : match find_loops (fun _ => plain_sched (FA L)) 10 5 graph with
    | Ok (Some ([c], h)) => negb (existsb (fun t => pt_eqb (si t) (Point_new (nofZ 6) (nofZ 3)) || pt_eqb (sj t) (Point_new (nofZ 6) (nofZ 3))) (value h c))
    | _ => false end = true) by (vm_compute; reflexivity).
  destruct (find_loops (fun _ => plain_sched (FA L)) 10 5 graph) as [[[[|c [|c' cs]] h]|]|]; try discriminate.
  exists c, h. split; auto. intros (t & I & E). apply negb_true_iff in H. rewrite <- not_true_iff_false in H. apply H.
  apply existsb_exists. exists t. split; auto. apply orb_true_iff.
  assert (R : pt_eqb (Point_new (nofZ 6) (nofZ 3)) (Point_new (nofZ 6) (nofZ 3) : pt (FA L)) = true) by (vm_compute; reflexivity).
  destruct E as [-> | ->]; [left|right]; exact R.
Qed.

(*@ C91_same_loop_twice_refuted *)
(** C91, finding (binary64): find_loops returns one room twice, once each way round, when a vessel has
    another, separate loop: the combination of both is ordered as the first one, after a wall of it has
    been turned round for its neighbour. *)
Lemma same_loop_twice : forall L : Libm,
  let s a b c d := LineSegment (Point_new (nofZ a) (nofZ b)) (Point_new (nofZ c) (nofZ d)) : seg (FA L) in
  let graph := [s (-9) 0 (-5) 0; s 0 0 4 0; s 4 4 4 0; s 4 4 0 4; s 0 4 0 0; s 4 4 7 2; s 7 2 4 0;
                s (-5) 0 (-3) 2; s (-3) 2 (-3) (-2); s (-3) (-2) (-5) 0]%Z in
  exists cs h, find_loops (fun _ => plain_sched (FA L)) 20 8 graph = Ok (Some (cs, h)) /\
    In [6; 5; 2]%nat cs /\ In [2; 5; 6]%nat cs.
Proof.
  intros L s graph.
  assert (H : match find_loops (fun _ => plain_sched (FA L)) 20 8 graph with
    | Ok (Some (cs, h)) => existsb (fun c => if list_eq_dec Nat.eq_dec [6; 5; 2]%nat c then true else false) cs && existsb (fun c => if list_eq_dec Nat.eq_dec [2; 5; 6]%nat c then true else false) cs
    | _ => false end = true) by (vm_compute; reflexivity).
  destruct (find_loops (fun _ => plain_sched (FA L)) 20 8 graph) as [[[cs h]|]|]; try discriminate.
  exists cs, h. split; auto. apply andb_true_iff in H as [H1 H2].
  apply existsb_exists in H1 as (c & I1 & E1). apply existsb_exists in H2 as (d & I2 & E2).
  destruct (list_eq_dec Nat.eq_dec [6; 5; 2]%nat c) as [->|]; [|discriminate]. destruct (list_eq_dec Nat.eq_dec [2; 5; 6]%nat d) as [->|]; [|discriminate].
  auto.
Qed.
