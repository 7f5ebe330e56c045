(** walk_segments and find_loops. *)
From Coq Require Import Reals ZArith Lra Lia Bool List Psatz Permutation Arith Sorted.
From Verif Require Import Base Arith ArithR ArithF MPoint MLine MPoly MGroup Spec SpecGroup PPoint PLine PShape PConvex POrder.
Import ListNotations.
#[local] Existing Instance RA.

Lemma Forall2_nth_l : forall X Y (R : X -> Y -> Prop) a b, Forall2 R a b ->
  forall k x, nth_error a k = Some x -> exists y, nth_error b k = Some y /\ R x y.
Proof.
  intros X Y R a b H. induction H; intros [|k] z E; simpl in *; try discriminate; eauto.
  injection E as <-. eauto.
Qed.

(** * Made of the given segments (any arithmetic) *)
Section Made.
Context {A : Arith}.
Implicit Types (g l : list (seg A)).

Definition from (g : list (seg A)) (s : seg A) : Prop := exists s', In s' g /\ turned s s'.

Lemma turned_trans : forall (a b c : seg A), turned a b -> turned b c -> turned a c.
Proof.
  intros [ca ia ja] [cb ib jb] [cc ic jc] [H|H] [K|K]; inversion H; inversion K; subst; unfold turned; simpl; auto.
Qed.
Lemma from_turned : forall g s s', from g s' -> turned s s' -> from g s.
Proof. intros g s s' (t & I & T) K. exists t. split; auto. eapply turned_trans; eauto. Qed.
Lemma from_self : forall g s, In s g -> from g s.
Proof. intros g s I. exists s. split; auto. left; auto. Qed.

Lemma order_objs_turned : forall l, Forall2 turned (order_objs l) l.
Proof.
  intros l. assert (R : Forall2 turned l l) by (clear; induction l; constructor; auto; left; auto).
  unfold order_objs. destruct l as [|akt l']; [constructor|]. set (g := akt :: l') in *.
  assert (I0 : Inv2 g (mko g 0 (sj akt) [])).
  { split; [|split]; simpl; [exact R|constructor|intros k []]. }
  destruct (loop2 g (2 * length g + 1) 0 _ I0) as [L1 L2].
  destruct (order_loop (2 * length g + 1) 0 (mko g 0 (sj akt) [])) as [[o|segs]|e].
  - apply (proj1 (L1 o eq_refl)).
  - apply (L2 segs eq_refl).
  - exact R.
Qed.

Lemma order_made : forall g l b r, (forall s, In s l -> from g s) -> order l = Ok (b, r) -> forall s, In s r -> from g s.
Proof.
  intros g l b r H E s I. destruct (order_no_invention _ _ _ _ E) as [F T]. destruct b.
  - destruct (T eq_refl) as (kept & dropped & P & g' & P' & F2).
    destruct (In_nth_error _ _ I) as [k K].
    destruct (Forall2_nth_l _ _ _ _ _ F2 k s K) as (s' & E' & T').
    apply from_turned with s'; [|exact T']. apply H. apply (Permutation_in _ P). apply in_or_app; left.
    apply (Permutation_in _ P'). eapply nth_error_In; eauto.
  - specialize (F eq_refl). destruct (In_nth_error _ _ I) as [k K].
    destruct (Forall2_nth_l _ _ _ _ _ F k s K) as (s' & E' & T').
    apply from_turned with s'; [|exact T']. apply H. eapply nth_error_In; eauto.
Qed.

Lemma set_add_in : forall l (s x : seg A), In x (set_add l s) -> In x l \/ x = s.
Proof. intros l s x. unfold set_add. destruct (memb _ _ _); auto. rewrite in_app_iff. simpl. intuition. Qed.
Lemma walk_segs_in : forall l (s x : seg A), In x (map fst (walk_segs l s)) -> In x l \/ x = s.
Proof.
  intros l s x. unfold walk_segs. rewrite map_app, in_app_iff, map_map. simpl. rewrite map_id.
  destruct (memb _ _ _); simpl; intuition.
Qed.
Lemma marked_in : forall g ls (d : seg A), (forall s, In s (map fst ls) -> from g s) -> from g d ->
  from g (marked ls (order_objs (map fst ls)) d).
Proof.
  intros g ls d H D. unfold marked.
  destruct (filter _ (combine (order_objs (map fst ls)) ls)) as [|[s [t b]] r] eqn:E; auto.
  assert (I : In (s, (t, b)) (combine (order_objs (map fst ls)) ls)).
  { assert (K : In (s, (t, b)) ((s, (t, b)) :: r)) by (left; auto). rewrite <- E in K. apply filter_In in K. tauto. }
  apply in_combine_l in I. destruct (In_nth_error _ _ I) as [k K].
  destruct (Forall2_nth_l _ _ _ _ _ (order_objs_turned (map fst ls)) k s K) as (s' & E' & T').
  apply from_turned with s'; auto. apply H. eapply nth_error_In; eauto.
Qed.

Lemma candidates_in : forall akt p (l : list (welt A)) x, In x (candidates akt p l) -> In x l.
Proof.
  intros akt p l x. unfold candidates.
  destruct (filter _ l) as [|c cs] eqn:E.
  - intros I. apply filter_In in I. tauto.
  - rewrite <- E. intros I. apply filter_In in I. tauto.
Qed.

Lemma walk_loop_made : forall g sch, fair sch -> forall fuel k nv visited akt p br r,
  (forall x, In x nv -> from g (w_cur x)) -> (forall s, In s visited -> from g s) -> from g akt ->
  walk_loop sch fuel k nv visited akt p br = Ok (Loop r) ->
  isclosed r = Ok true /\ (forall s, In s r -> from g s).
Proof.
  intros g sch [F1 F2]. induction fuel as [|fuel IH]; intros k nv visited akt p br r N V K E.
  { destruct nv; discriminate. }
  cbn [walk_loop] in E. destruct nv as [|w nv'] eqn:EN; [discriminate|]. rewrite <- EN in *. clear w nv' EN.
  destruct (candidates akt p (it_nv sch k nv)) as [|nxt more] eqn:EC; [discriminate|].
  assert (NX : from g (w_cur nxt)).
  { apply N. apply (Permutation_in _ (F1 k nv)). apply (candidates_in akt p). rewrite EC. left; auto. }
  destruct (filter _ (ij (w_cur nxt))) as [|p' ps]; [discriminate|]. cbv zeta in E.
  set (ls := it_segs sch k (walk_segs (set_add visited akt) (w_cur nxt))) in *.
  assert (LS : forall s, In s (map fst ls) -> from g s).
  { intros s I. assert (I' : In s (map fst (walk_segs (set_add visited akt) (w_cur nxt)))).
    { eapply Permutation_in; [apply Permutation_map, F2|exact I]. }
    apply walk_segs_in in I'. destruct I' as [I'| ->]; auto.
    apply set_add_in in I'. destruct I' as [I'| ->]; auto. }
  destruct (order (map fst ls)) as [[ok poly]|e] eqn:EO; [|discriminate]. cbn [bind] in E.
  destruct (if ok then isclosed poly else Ok false) as [c|e] eqn:ECl; [|discriminate]. cbn [bind] in E.
  destruct (ok && c && negb (br || negb (length more =? 0)%nat))%bool eqn:B.
  - injection E as <-. apply andb_true_iff in B as [B _]. apply andb_true_iff in B as [B1 B2]. subst ok c.
    split; auto. eapply order_made; eauto.
  - eapply IH; [| | |exact E].
    + intros x I. apply in_map_iff in I as (y & <- & I). apply filter_In in I as [I _].
      destruct (Nat.eqb (w_id y) (w_id nxt)); simpl; [apply marked_in|]; auto.
    + intros s I. apply set_add_in in I as [I| ->]; auto.
    + exact NX.
Qed.
End Made.

Lemma number_snd : forall X (l : list X) k, map snd (number k l) = l.
Proof. induction l as [|x l IH]; intros k; simpl; f_equal; auto. Qed.
Lemma dedup_incl : forall X (f : X -> X -> bool) l x, In x (dedup f l) -> In x l.
Proof.
  intros X f l x. unfold dedup.
  assert (G : forall acc, In x (dedup_acc f l acc) -> In x l \/ In x acc).
  { induction l as [|y l IH]; intros acc I; simpl in *; [auto|].
    destruct (memb f y acc); [destruct (IH _ I); auto|]. destruct (IH _ I) as [K|K]; auto. apply in_app_iff in K. destruct K as [K|[K|[]]]; auto. }
  intros I. destruct (G [] I) as [K|[]]; exact K.
Qed.
Lemma nv_init_in : forall (A : Arith) (g : list (seg A)) x, In x (nv_init g) -> In (w_cur x) g.
Proof.
  intros A g x I. unfold nv_init in I. apply in_map_iff in I as ([k s] & <- & I). simpl.
  apply (dedup_incl _ seg_sameb). rewrite <- (number_snd _ (dedup seg_sameb g) 0).
  apply in_map_iff. exists (k, s). auto.
Qed.

(*@ C46_walk *)
(** C46: whatever the order in which Python visits the sets, a polygon returned by walk_segments is
    closed and made of the given segments (some with exchanged end points). *)
Lemma walk_made : forall (A : Arith) (sch : sched A) fuel given start r, fair sch ->
  walk_segments sch fuel given start = Ok (Loop r) -> isclosed r = Ok true /\ made_of r given.
Proof.
  intros A sch fuel given start r F E. unfold walk_segments in E.
  destruct (match start with Some p => Ok p | None => _ end) as [st|]; [|discriminate]. cbn [bind] in E.
  destruct (filter _ (it_nv sch 0 (nv_init given))) as [|akt more] eqn:EF; [discriminate|].
  assert (I : In (w_cur akt) given).
  { apply nv_init_in. destruct F as [F1 _]. apply (Permutation_in _ (F1 0%nat _)).
    assert (K : In akt (akt :: more)) by (left; auto). rewrite <- EF in K. apply filter_In in K. tauto. }
  eapply (walk_loop_made given sch F); [| | |exact E].
  - intros x Ix. apply from_self, nv_init_in; auto.
  - intros s [<-|[]]. apply from_self; auto.
  - apply from_self; auto.
Qed.

(** * find_loops (any arithmetic) *)
Section Loops.
Context {A : Arith}.
Variable g : list (seg A).
Implicit Types (h : list (seg A)).

Lemma turned_refl : forall h, Forall2 turned h h.
Proof. induction h; constructor; auto. left; auto. Qed.
Lemma turned2_trans : forall (a b c : list (seg A)), Forall2 turned a b -> Forall2 turned b c -> Forall2 turned a c.
Proof.
  intros a b c H. revert c. induction H; intros c K; inversion K; subst; constructor; auto.
  eapply turned_trans; eauto.
Qed.
Lemma obj_turned : forall h' h k, Forall2 turned h' h -> Forall2 turned (obj h' k) (obj h k).
Proof.
  intros h' h k H. revert k. unfold obj. induction H; intros [|k]; simpl; auto.
Qed.
Lemma value_turned : forall h' h ids, Forall2 turned h' h -> Forall2 turned (value h' ids) (value h ids).
Proof.
  intros h' h ids H. induction ids as [|k ids IH]; simpl; [constructor|].
  apply Forall2_app; auto. apply obj_turned; auto.
Qed.
Definition inrange h (ids : list nat) : Prop := forall k, In k ids -> (k < length h)%nat.
Lemma obj_in : forall h k, (k < length h)%nat -> exists s, nth_error h k = Some s /\ obj h k = [s].
Proof.
  intros h k L. unfold obj. destruct (nth_error h k) eqn:E; eauto. apply nth_error_None in E. lia.
Qed.
Lemma upd_turned : forall h1 h k (s t : seg A), Forall2 turned h1 h -> nth_error h k = Some t -> turned s t -> Forall2 turned (upd k (fun _ => s) h1) h.
Proof.
  intros h1 h k s t H. revert k. induction H; intros [|k] E T; simpl in *; try discriminate; constructor; auto.
  injection E as ->. exact T.
Qed.
Lemma write_turned : forall ids vals h1 h, inrange h ids -> Forall2 turned h1 h -> Forall2 turned vals (value h ids) ->
  Forall2 turned (write h1 ids vals) h.
Proof.
  induction ids as [|k ids IH]; intros vals h1 h R H V; [destruct vals; exact H|].
  destruct (obj_in h k) as (t & E & O); [apply R; left; auto|]. simpl in V. rewrite O in V.
  inversion V as [|s t' ss ts T V' E1 E2]; subst. simpl. apply IH; auto.
  - intros j I. apply R. right; auto.
  - eapply upd_turned; eauto.
Qed.

Lemma hrotate_perm : forall fuel h (s : seg A) ids, Permutation (hrotate_to fuel h s ids) ids.
Proof.
  induction fuel as [|fuel IH]; intros h s ids; simpl; auto. destruct ids as [|x ids]; auto.
  destruct (existsb _ _); auto. etransitivity; [apply IH|]. apply rotate_right_perm.
Qed.

Lemma horder_turned : forall h ids b ids' h', inrange h ids -> horder h ids = Ok (b, ids', h') ->
  Forall2 turned h' h /\ incl ids' ids.
Proof.
  intros h ids b ids' h' R E. unfold horder in E.
  assert (T := order_objs_turned (value h ids)). unfold order_objs in T.
  destruct (value h ids) as [|akt v] eqn:EV; [discriminate|]. set (l := akt :: v) in *.
  change (match l with [] => _ | _ :: _ => _ end) with
    (match order_loop (2 * length l + 1) 0 (mko l 0 (sj akt) []) with Ok (inr segs) => segs | Ok (inl o) => o_segs o | Err _ => l end) in T.
  destruct (order_loop (2 * length l + 1) 0 (mko l 0 (sj akt) [])) as [[o|segs]|e] eqn:EL; [| |discriminate]; cbn [bind] in E.
  - cbv zeta in E. set (ret := flat_map _ (o_ret o)) in *.
    destruct (sort_by order_key_ltb _) as [|f t]; [discriminate|]. injection E as <- <- <-.
    split; [apply write_turned; auto using turned_refl; rewrite EV; exact T|].
    intros k I. apply (Permutation_in _ (hrotate_perm _ _ _ _)) in I.
    unfold ret in I. apply in_flat_map in I as (j & _ & I). destruct (nth_error ids j) eqn:EJ; [|destruct I].
    destruct I as [<-|[]]. eapply nth_error_In; eauto.
  - injection E as <- <- <-. split; [|apply incl_refl].
    apply write_turned; auto using turned_refl. rewrite EV. exact T.
Qed.

Definition good h (c : list nat) : Prop :=
  inrange h c /\ exists r, Forall2 turned (value h c) r /\ isclosed r = Ok true.
Definition LInv (st : lstate A) : Prop :=
  (forall s, In s (l_heap st) -> from g s) /\ inrange (l_heap st) (l_graph st) /\
  (forall c, In c (l_cycles st) -> good (l_heap st) c).

Lemma turned_inrange : forall h' h ids, Forall2 turned h' h -> inrange h ids -> inrange h' ids.
Proof. intros h' h ids H R k I. rewrite (Forall2_len _ _ _ _ _ H). apply R; auto. Qed.
Lemma turned_from : forall h' h, Forall2 turned h' h -> (forall s, In s h -> from g s) -> forall s, In s h' -> from g s.
Proof.
  intros h' h H F s I. destruct (In_nth_error _ _ I) as [k K].
  destruct (Forall2_nth_l _ _ _ _ _ H k s K) as (s' & E' & T'). apply from_turned with s'; auto.
  apply F. eapply nth_error_In; eauto.
Qed.
Lemma turned_good : forall h' h c, Forall2 turned h' h -> good h c -> good h' c.
Proof.
  intros h' h c H (R & r & V & C). split; [eapply turned_inrange; eauto|]. exists r. split; auto.
  eapply turned2_trans; [apply value_turned; eauto|]; auto.
Qed.

Lemma combinations_incl : forall X (l : list X) k c, In c (combinations k l) -> incl c l.
Proof.
  induction l as [|x l IH]; intros [|k] c I; simpl in I.
  - destruct I as [<-|[]]. intros y [].
  - destruct I.
  - destruct I as [<-|[]]. intros y [].
  - apply in_app_iff in I as [I|I].
    + apply in_map_iff in I as (d & <- & I). intros y [<-|Iy]; [left; auto|right]. eapply IH; eauto.
    + intros y Iy. right. eapply IH; eauto.
Qed.

Lemma try_comb_inv : forall st ids st', LInv st -> inrange (l_heap st) ids -> try_comb st ids = Ok st' ->
  LInv st' /\ length (l_heap st') = length (l_heap st).
Proof.
  intros st ids st' (F & R & C) RI E. unfold try_comb in E. cbv zeta in E.
  destruct (negb (twice (value (l_heap st) ids))); [injection E as <-; split; [repeat split; auto|auto]; apply C; auto|].
  destruct (horder (l_heap st) ids) as [[[b ids'] h']|e] eqn:EH; [|discriminate]. cbn [bind] in E.
  destruct (horder_turned _ _ _ _ _ RI EH) as [T IN].
  assert (L : length h' = length (l_heap st)) by (apply (Forall2_len _ _ _ _ _ T)).
  assert (S1 : LInv (mkl h' (l_graph st) (l_cycles st))).
  { split; [|split]; simpl.
    - eapply turned_from; eauto.
    - eapply turned_inrange; eauto.
    - intros c I. eapply turned_good; eauto. }
  destruct (negb b); [injection E as <-; auto|].
  destruct (poly_isvalid (value h' ids')) as [v|e]; [|discriminate]. cbn [bind] in E.
  destruct (if v then isclosed (value h' ids') else Ok false) as [c|e] eqn:EC; [|discriminate]. cbn [bind] in E.
  destruct (v && c && negb (in_cycles h' (l_cycles st) (value h' ids')))%bool eqn:B; [|injection E as <-; auto].
  apply andb_true_iff in B as [B _]. apply andb_true_iff in B as [-> ->].
  injection E as <-. split; [|exact L]. destruct S1 as (F1 & R1 & C1). simpl in *. split; [|split]; simpl; auto.
  - destruct (branch_free _ _); auto. intros k I. apply filter_In in I as [I _]. apply R1; auto.
  - intros c I. apply in_app_iff in I as [I|[<-|[]]]; auto. split.
    + intros k I. rewrite L. apply RI. apply IN; auto.
    + exists (value h' ids'). split; auto. apply turned_refl.
Qed.

Lemma foldM_inv : forall cs st st', LInv st -> (forall c, In c cs -> inrange (l_heap st) c) ->
  foldM try_comb cs st = Ok st' -> LInv st'.
Proof.
  induction cs as [|c cs IH]; intros st st' I R E; simpl in E; [injection E as <-; auto|].
  destruct (try_comb st c) as [s1|] eqn:E1; [|discriminate]. cbn [bind] in E.
  destruct (try_comb_inv _ _ _ I (R c (or_introl eq_refl)) E1) as [I1 L1].
  apply (IH s1 st' I1); auto. intros d Id k Ik. rewrite L1. eapply R; [right; eauto|]; auto.
Qed.

Lemma comb_rounds_inv : forall fuel n st st', LInv st -> comb_rounds fuel n st = Ok st' -> LInv st'.
Proof.
  induction fuel as [|fuel IH]; intros n st st' I E; cbn [comb_rounds] in E; [injection E as <-; auto|].
  destruct (Nat.leb n _); [|injection E as <-; auto].
  destruct (foldM try_comb _ st) as [s1|] eqn:E1; [|discriminate]. cbn [bind] in E.
  apply (IH (S n) s1); auto. eapply foldM_inv; [exact I| |exact E1].
  intros c Ic k Ik. apply combinations_incl in Ic. apply I. apply Ic; auto.
Qed.

Lemma value_app : forall h p ids, inrange h ids -> value (h ++ p) ids = value h ids.
Proof.
  induction ids as [|k ids IH]; intros R; simpl; auto. rewrite IH by (intros j I; apply R; right; auto).
  f_equal. unfold obj. rewrite nth_error_app1; auto. apply R; left; auto.
Qed.
Lemma value_seq : forall p h, value (h ++ p) (seq (length h) (length p)) = p.
Proof.
  induction p as [|s p IH]; intros h; simpl; auto. unfold obj at 1.
  rewrite nth_error_app2, Nat.sub_diag by lia. simpl. f_equal.
  replace (h ++ s :: p) with ((h ++ [s]) ++ p) by (rewrite <- app_assoc; reflexivity).
  replace (S (length h)) with (length (h ++ [s])) by (rewrite app_length; simpl; lia). apply IH.
Qed.

Lemma in_value : forall h ids (s : seg A), In s (value h ids) -> In s h.
Proof.
  intros h ids s I. unfold value in I. apply in_flat_map in I as (k & _ & I). unfold obj in I.
  destruct (nth_error h k) eqn:E; [|destruct I]. destruct I as [<-|[]]. eapply nth_error_In; eauto.
Qed.

Lemma walk_rounds_inv : forall schs wf, (forall k, fair (schs k)) -> forall fuel st st', LInv st ->
  walk_rounds schs wf fuel st = Ok (Some st') -> LInv st'.
Proof.
  intros schs wf FS. induction fuel as [|fuel IH]; intros st st' I E; cbn [walk_rounds] in E;
  destruct (walk_segments (schs _) wf (value (l_heap st) (l_graph st)) None) as [w|] eqn:EW; try discriminate; cbn [bind] in E;
  destruct w as [| |p]; try discriminate; try (injection E as <-; exact I);
  (destruct (in_cycles _ _ p); [injection E as <-; exact I|]); try discriminate.
  cbv zeta in E. eapply (IH _ st'); [|exact E].
  destruct I as (F & R & C). destruct (walk_made _ _ _ _ _ _ (FS (S fuel)) EW) as [CL MD].
  split; [|split]; simpl.
  - intros s Is. apply in_app_iff in Is as [Is|Is]; auto. destruct (MD s Is) as (s' & I' & T).
    apply from_turned with s'; auto. apply F. eapply in_value; eauto.
  - intros k Ik. apply filter_In in Ik as [Ik _]. rewrite app_length. specialize (R k Ik). lia.
  - intros c Ic. apply in_app_iff in Ic as [Ic|[<-|[]]].
    + destruct (C c Ic) as (Rc & r & V & K). split; [intros k Ik; rewrite app_length; specialize (Rc k Ik); lia|].
      exists r. rewrite value_app; auto.
    + split; [intros k Ik; apply in_seq in Ik; rewrite app_length; lia|]. exists p.
      rewrite value_seq. split; auto. apply turned_refl.
Qed.
End Loops.

Lemma insert_len : forall X (f : X -> nat) (x : X) l, StronglySorted (fun a b => (f a <= f b)%nat) l ->
  StronglySorted (fun a b => (f a <= f b)%nat) (insert_sorted (fun a b => Nat.ltb (f a) (f b)) x l).
Proof.
  intros X f x l H. induction H as [|y l H IH F]; simpl; [repeat constructor|].
  destruct (Nat.ltb_spec (f y) (f x)) as [L|L].
  - constructor; auto. rewrite Forall_forall in *. intros z I.
    assert (P : Permutation (insert_sorted (fun a b => Nat.ltb (f a) (f b)) x l) (x :: l)).
    { clear. induction l as [|y l IH]; simpl; auto. destruct (Nat.ltb _ _); auto. rewrite IH. apply perm_swap. }
    apply (Permutation_in _ P) in I. destruct I as [<-|I]; [lia|auto].
  - constructor; [constructor; auto|]. rewrite Forall_forall in *. intros z [<-|I]; [lia|]. specialize (F z I). lia.
Qed.
Lemma sort_len : forall X (f : X -> nat) (l : list X), StronglySorted (fun a b => (f a <= f b)%nat) (sort_by (fun a b => Nat.ltb (f a) (f b)) l).
Proof. intros X f l. induction l as [|x l IH]; simpl; [constructor|]. apply insert_len; auto. Qed.

(*@ C46_find_loops *)
(** C46: whatever the order in which Python visits the sets, the polygons returned by find_loops are
    sorted by their number of segments and made of the given segments, and each of them is closed once
    some of its segments are turned round (find_loops itself turns shared segments round again after
    it has found a polygon, see C46_shared_segment_refuted). *)
Lemma find_loops_made : forall (A : Arith) (schs : nat -> sched A) wf fuel given cs h, (forall k, fair (schs k)) ->
  find_loops schs wf fuel given = Ok (Some (cs, h)) ->
  StronglySorted (fun a b => (length a <= length b)%nat) (map (value h) cs) /\
  forall c, In c cs -> made_of (value h c) given /\
    exists r, Forall2 turned (value h c) r /\ isclosed r = Ok true.
Proof.
  intros A schs wf fuel given cs h FS E. unfold find_loops in E.
  assert (I0 : LInv given (mkl given (seq 0 (length given)) [])).
  { split; [|split]; simpl; [intros s I; apply from_self; auto|intros k I; apply in_seq in I; lia|intros c []]. }
  destruct (walk_rounds schs wf fuel (mkl given (seq 0 (length given)) [])) as [[st|]|] eqn:EW; try discriminate. cbn [bind] in E.
  pose proof (walk_rounds_inv given schs wf FS fuel _ st I0 EW) as I1.
  destruct (comb_rounds (length (l_graph st)) 1 st) as [st'|] eqn:EC; [|discriminate]. cbn [bind] in E.
  injection E as <- <-. destruct (comb_rounds_inv given _ _ _ _ I1 EC) as (F & R & C).
  assert (P : forall c, In c (sort_by (fun a b : list nat => Nat.ltb (length a) (length b)) (l_cycles st')) -> In c (l_cycles st')).
  { intros c I. eapply Permutation_in; [apply sort_by_perm|exact I]. }
  split.
  - pose proof (sort_len _ (@length nat) (l_cycles st')) as SS.
    assert (G : forall cs, StronglySorted (fun a b : list nat => (length a <= length b)%nat) cs -> (forall c, In c cs -> inrange (l_heap st') c) ->
      StronglySorted (fun a b => (length a <= length b)%nat) (map (value (l_heap st')) cs)).
    { assert (LN : forall c, inrange (l_heap st') c -> length (value (l_heap st') c) = length c).
      { induction c as [|k c IH]; intros Rc; simpl; auto. rewrite app_length, IH by (intros j I; apply Rc; right; auto).
        destruct (obj_in (l_heap st') k) as (s & _ & O); [apply Rc; left; auto|]. rewrite O. reflexivity. }
      clear -LN. intros cs H. induction H as [|c cs H IH F]; intros Q; simpl; constructor.
      - apply IH. intros; apply Q; right; auto.
      - rewrite Forall_forall in *. intros l I. apply in_map_iff in I as (d & <- & I).
        rewrite !LN by (apply Q; simpl; auto). auto. }
    apply G; auto. intros c I. apply C. auto.
  - intros c I. destruct (C c (P c I)) as (Rc & r & V & K). split.
    + intros s Is. apply F. eapply in_value; eauto.
    + exists r. auto.
Qed.
