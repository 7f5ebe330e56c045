(** keep_base_polygons: the rooms among the loops found. *)
From Coq Require Import Reals ZArith Lra Lia Bool List Psatz Permutation Arith.
From Verif Require Import Base Arith ArithR MPoint MLine MPoly MTri MGroup MCycles MBase Spec SpecGroup SpecCycles SpecTri SpecBase
  PPoint PLine PShape PMore POrder PGroup PCycles PWalk PEar2 PArea PRel PPath.
Import ListNotations.
Local Open Scope R_scope.
#[local] Existing Instance RA.

(** * Lists *)
Lemma sublist_refl : forall X (l : list X), sublist l l.
Proof. induction l; [apply sub_nil|apply sub_take; auto]. Qed.
Lemma sublist_nil : forall X (l : list X), sublist [] l.
Proof. induction l; [apply sub_nil|apply sub_skip; auto]. Qed.
Lemma sublist_trans : forall X (a b c : list X), sublist a b -> sublist b c -> sublist a c.
Proof.
  intros X a b c H1 H2. revert a H1. induction H2 as [|x b c H2 IH|x b c H2 IH]; intros a H1; auto.
  - apply sub_skip. auto.
  - inversion H1; subst; [apply sub_skip|apply sub_take]; auto.
Qed.
Lemma sublist_incl : forall X (a b : list X), sublist a b -> incl a b.
Proof. intros X a b H. induction H; intros y I; [destruct I|right; auto|]. destruct I as [->|I]; [left|right]; auto. Qed.
Lemma sublist_length : forall X (a b : list X), sublist a b -> (length a <= length b)%nat.
Proof. intros X a b H. induction H; cbn; lia. Qed.
Lemma sublist_full : forall X (a b : list X), sublist a b -> (length b <= length a)%nat -> a = b.
Proof.
  intros X a b H. induction H as [|x a b H IH|x a b H IH]; intros L; auto.
  - apply sublist_length in H. cbn in L. lia.
  - f_equal. apply IH. cbn in L. lia.
Qed.
Lemma sublist_NoDup : forall X (a b : list X), sublist a b -> NoDup b -> NoDup a.
Proof.
  intros X a b H. induction H as [|x a b H IH|x a b H IH]; intros N; auto; inversion N; subst; auto.
  constructor; auto. intros I. apply H2. eapply sublist_incl; eauto.
Qed.
Lemma sublist_app : forall X (a b c d : list X), sublist a b -> sublist c d -> sublist (a ++ c) (b ++ d).
Proof. intros X a b c d H. induction H; cbn; intros; auto; [apply sub_skip|apply sub_take]; auto. Qed.
Lemma sublist_flat_map : forall X Y (f : X -> list Y) a b, sublist a b -> sublist (flat_map f a) (flat_map f b).
Proof.
  intros X Y f a b H. induction H; cbn; [constructor| |].
  - change (flat_map f a) with ([] ++ flat_map f a). apply sublist_app; auto. apply sublist_nil.
  - apply sublist_app; auto. apply sublist_refl.
Qed.
Lemma sublist_pairs : forall X (R : X -> X -> Prop) a b, sublist a b -> ForallOrdPairs R b -> ForallOrdPairs R a.
Proof.
  intros X R a b H. induction H as [|x a b H IH|x a b H IH]; intros F; auto; inversion F as [|y l F1 F2]; subst; auto.
  constructor; auto. rewrite Forall_forall in *. intros y I. apply F1. eapply sublist_incl; eauto.
Qed.
Lemma sublist_filter : forall X (f : X -> bool) l, sublist (filter f l) l.
Proof. induction l as [|x l IH]; cbn; [constructor|]. destruct (f x); [apply sub_take|apply sub_skip]; auto. Qed.

Lemma combinations_sub : forall X (l : list X) k c, In c (combinations k l) <-> sublist c l /\ length c = k.
Proof.
  intros X l. induction l as [|x l IH]; intros k c.
  - destruct k; cbn; split.
    + intros [<-|[]]. split; [constructor|reflexivity].
    + intros [H L]. left. destruct c; [reflexivity|discriminate].
    + intros [].
    + intros [H L]. inversion H; subst. discriminate.
  - destruct k; cbn.
    + split; [intros [<-|[]]; split; [apply sublist_nil|reflexivity]|]. intros [H L]. left. destruct c; [reflexivity|discriminate].
    + rewrite in_app_iff, in_map_iff. split.
      * intros [(d & <- & I)|I]; apply IH in I as [H L]; split; cbn; auto; [apply sub_take|apply sub_skip]; auto.
      * intros [H L]. inversion H; subst; [right; apply IH; auto|left]. exists a. split; auto. apply IH. split; auto.
Qed.
Lemma combinations2_sublist : forall X (l : list X) x y, In (x, y) (combinations2 l) <-> sublist [x; y] l.
Proof.
  intros X l. induction l as [|z l IH]; intros x y; cbn; [split; [intros []|intros H; inversion H]|].
  rewrite in_app_iff, in_map_iff. split.
  - intros [(w & E & I)|I].
    + injection E as <- <-. apply sub_take. apply in_split in I as (a & b & ->).
      clear. induction a; cbn; [apply sub_take, sublist_nil|apply sub_skip; auto].
    + apply sub_skip, IH. auto.
  - intros H. inversion H; subst; [right; apply IH; auto|]. left. exists y. split; auto. eapply sublist_incl; [eassumption|left; auto].
Qed.

(** * order() on segment objects *)
Section HOrder.
Context {A : Arith}.
Implicit Types (h : list (seg A)) (ids : list nat).

Lemma value_cons : forall h k ids, value h (k :: ids) = obj h k ++ value h ids.
Proof. reflexivity. Qed.
Lemma value_perm : forall h a b, Permutation a b -> Permutation (value h a) (value h b).
Proof. intros h a b H. unfold value. apply Permutation_flat_map. auto. Qed.
Lemma value_length : forall h ids, inrange h ids -> length (value h ids) = length ids.
Proof.
  intros h ids. induction ids as [|k ids IH]; intros R; [reflexivity|]. rewrite value_cons, app_length, IH by (intros j I; apply R; right; auto).
  destruct (obj_in h k) as (s & _ & O); [apply R; left; auto|]. rewrite O. reflexivity.
Qed.
Lemma value_nth : forall h ids j k, inrange h ids -> nth_error ids j = Some k -> nth_error (value h ids) j = nth_error h k.
Proof.
  intros h ids. induction ids as [|i ids IH]; intros j k R N; [destruct j; discriminate|]. rewrite value_cons.
  destruct (obj_in h i) as (s & E & O); [apply R; left; auto|]. rewrite O. destruct j; cbn in *; [injection N as <-; auto|]. apply IH; auto.
  intros x I. apply R. right. auto.
Qed.
Lemma upd_length : forall X k (f : X -> X) l, length (upd k f l) = length l.
Proof. intros X k f l. revert k. induction l; intros [|k]; cbn; auto. Qed.
Lemma upd_same : forall X (f : X -> X) l k x, nth_error l k = Some x -> nth_error (upd k f l) k = Some (f x).
Proof. intros X f l. induction l; intros [|k] x E; cbn in *; try discriminate; auto. congruence. Qed.
Lemma upd_other : forall X (f : X -> X) l k j, j <> k -> nth_error (upd k f l) j = nth_error l j.
Proof. intros X f l. induction l; intros [|k] [|j] N; cbn; auto; congruence. Qed.
Lemma write_length : forall ids vals h, length (write h ids vals) = length h.
Proof. induction ids as [|k ids IH]; intros [|v vals] h; cbn; auto. rewrite IH, upd_length. auto. Qed.
Lemma write_other : forall ids vals h k, ~ In k ids -> nth_error (write h ids vals) k = nth_error h k.
Proof.
  induction ids as [|i ids IH]; intros [|v vals] h k N; cbn; auto. rewrite IH by (intros I; apply N; right; auto).
  apply upd_other. intros ->. apply N. left. auto.
Qed.
Lemma obj_nth : forall h h' k, nth_error h k = nth_error h' k -> obj h k = obj h' k.
Proof. intros h h' k E. unfold obj. rewrite E. auto. Qed.
Lemma value_ext : forall h h' ids, (forall k, In k ids -> nth_error h k = nth_error h' k) -> value h ids = value h' ids.
Proof.
  intros h h' ids. induction ids as [|k ids IH]; intros E; [reflexivity|]. rewrite !value_cons. f_equal; [apply obj_nth, E; left; auto|].
  apply IH. intros; apply E; right; auto.
Qed.
Lemma write_value : forall ids vals h, NoDup ids -> inrange h ids -> length vals = length ids -> value (write h ids vals) ids = vals.
Proof.
  induction ids as [|k ids IH]; intros [|v vals] h N R L; try discriminate; [reflexivity|]. cbn [write]. rewrite value_cons. inversion N; subst.
  assert (E : nth_error (write (upd k (fun _ => v) h) ids vals) k = Some v).
  { rewrite write_other by auto. destruct (obj_in h k) as (s & E & _); [apply R; left; auto|]. apply (upd_same _ (fun _ => v)) with s. auto. }
  unfold obj. rewrite E. cbn. f_equal. apply IH; auto. intros j I. rewrite upd_length. apply R. right. auto.
Qed.
Lemma value_map : forall h d ids, inrange h ids -> value h ids = map (fun k => nth k h d) ids.
Proof.
  intros h d ids. induction ids as [|k ids IH]; intros R; [reflexivity|]. rewrite value_cons, IH by (intros j I; apply R; right; auto).
  destruct (obj_in h k) as (s & E & O); [apply R; left; auto|]. rewrite O. cbn. f_equal. symmetry. apply nth_error_nth. auto.
Qed.
Lemma rotate_map : forall X Y (f : X -> Y) l, rotate_right (map f l) = map f (rotate_right l).
Proof. intros X Y f l. unfold rotate_right. rewrite <- map_rev. destruct (rev l); [reflexivity|]. cbn. rewrite map_rev. reflexivity. Qed.
Lemma rotate_in : forall X (l : list X) x, In x (rotate_right l) -> In x l.
Proof.
  intros X l x I. unfold rotate_right in I. apply in_rev. destruct (rev l); [destruct I|]. destruct I as [->|I]; [left; auto|right; apply in_rev; auto].
Qed.
Lemma hrotate_value : forall fuel h s ids, inrange h ids -> value h (hrotate_to fuel h s ids) = rotate_to fuel s (value h ids).
Proof.
  induction fuel as [|f IH]; intros h s ids R; [reflexivity|]. destruct ids as [|k ids]; [reflexivity|]. cbn [hrotate_to]. rewrite value_cons.
  destruct (obj_in h k) as (t & E & O); [apply R; left; auto|]. rewrite O. cbn [existsb orb app rotate_to]. rewrite orb_false_r.
  destruct (seg_eqb t s); [rewrite value_cons, O; reflexivity|].
  assert (R' : inrange h (rotate_right (k :: ids))) by (intros j I; apply R, rotate_in; auto).
  rewrite IH by auto. f_equal. change (t :: value h ids) with ([t] ++ value h ids). rewrite <- O, <- value_cons.
  rewrite !(value_map h t) by auto. symmetry. apply rotate_map.
Qed.
Lemma horder_order : forall h ids, NoDup ids -> inrange h ids ->
  match horder h ids with
  | Ok (b, ids', h') => order (value h ids) = Ok (b, value h' ids') /\ length h' = length h /\ (forall k, ~ In k ids -> nth_error h' k = nth_error h k)
  | Err e => order (value h ids) = Err e
  end.
Proof.
  intros h ids N R. unfold horder, order. assert (T := order_objs_turned (value h ids)). unfold order_objs in T.
  assert (LV := value_length h ids R).
  destruct (value h ids) as [|akt v] eqn:EV; [reflexivity|]. set (l := akt :: v) in *.
  change (match l with [] => _ | _ :: _ => _ end) with
    (match order_loop (2 * length l + 1) 0 (mko l 0 (sj akt) []) with Ok (inr segs) => segs | Ok (inl o) => o_segs o | Err _ => l end) in T.
  destruct (order_loop (2 * length l + 1) 0 (mko l 0 (sj akt) [])) as [[o|segs]|e] eqn:EL; cbn [bind]; [| |reflexivity].
  - cbv zeta. assert (LO : length (o_segs o) = length ids) by (rewrite (Forall2_len _ _ _ _ _ T); auto).
    set (h' := write h ids (o_segs o)). assert (V' : value h' ids = o_segs o) by (apply write_value; auto).
    assert (R' : inrange h' ids) by (intros j I; unfold h'; rewrite write_length; auto).
    set (ret := flat_map _ (o_ret o)).
    assert (RR : inrange h' ret).
    { intros k I. unfold ret in I. apply in_flat_map in I as (j & _ & I). destruct (nth_error ids j) eqn:EJ; [|destruct I]. destruct I as [<-|[]].
      apply R'. eapply nth_error_In; eauto. }
    assert (E : value h' ret = flat_map (fun k => match nth_error (o_segs o) k with Some s => [s] | None => [] end) (o_ret o)).
    { unfold ret. clear RR ret EL. induction (o_ret o) as [|k rt IH]; [reflexivity|]. cbn [flat_map]. rewrite <- IH. unfold value at 1. rewrite flat_map_app. fold (value h').
      fold (value h' (flat_map (fun k => match nth_error ids k with Some i => [i] | None => [] end) rt)). f_equal. rewrite <- V'.
      destruct (nth_error ids k) as [i|] eqn:EK.
      - rewrite (value_nth h' ids k i) by auto. cbn. rewrite app_nil_r. reflexivity.
      - cbn. destruct (nth_error (value h' ids) k) eqn:E2; auto. exfalso. assert (Q : nth_error (value h' ids) k <> None) by congruence.
        apply nth_error_Some in Q. rewrite value_length in Q by auto. apply nth_error_None in EK. lia. }
    rewrite <- E. destruct (sort_by order_key_ltb (value h' ret)) as [|f t]; [reflexivity|].
    split; [|split].
    + rewrite hrotate_value by auto. rewrite value_length by auto. reflexivity.
    + apply write_length.
    + intros k Nk. apply write_other. auto.
  - split; [|split].
    + rewrite write_value; auto. rewrite (Forall2_len _ _ _ _ _ T). auto.
    + apply write_length.
    + intros k Nk. apply write_other. auto.
Qed.
End HOrder.

(** * Polygons that are cycles *)
Lemma turned_sym : forall (s t : seg RA), turned s t -> turned t s.
Proof. intros [c a b] [c' a' b'] [E|E]; [left; auto|right]. cbn in *. congruence. Qed.
Lemma turned_joins : forall e (s t : seg RA), turned s t -> joins e t -> joins e s.
Proof. intros e s t [->| ->] J; auto. unfold joins in *. cbn. tauto. Qed.
Lemma cycle_turned : forall (l l' : list (seg RA)) vs, Forall2 turned l' l -> cycle_of l vs -> cycle_of l' vs.
Proof.
  intros l l' vs T (L & N & S' & cyc & J & P). split; [auto|split; [auto|split; [auto|]]].
  assert (F : exists cyc', Permutation l' cyc' /\ Forall2 turned cyc' cyc).
  { apply Permutation_sym in P.
    assert (T' : Forall2 (fun a b => turned b a) l l') by (clear -T; induction T; constructor; auto).
    destruct (Permutation_Forall2 (Permutation_sym P) T') as (c & P' & F). exists c. split; auto. clear -F. induction F; constructor; auto. }
  destruct F as (cyc' & P' & F). exists cyc'. split; auto. clear -J F. revert cyc' F. induction J; intros c F; inversion F; subst; constructor; auto.
  eapply turned_joins; eauto.
Qed.
Lemma cycle_perm : forall (l l' : list (seg RA)) vs, Permutation l' l -> cycle_of l vs -> cycle_of l' vs.
Proof. intros l l' vs P (L & N & S' & cyc & J & Q). split; [auto|split; [auto|split; [auto|]]]. exists cyc. split; auto. eapply perm_trans; eauto. Qed.

Lemma NoDup_map_inv' : forall X Y (f : X -> Y) l, NoDup (map f l) -> NoDup l.
Proof. exact NoDup_map_inv. Qed.
Lemma NoDup_value : forall (h : list (seg RA)) ids, inrange h ids -> NoDup (value h ids) -> NoDup ids.
Proof.
  intros h ids R N. destruct h as [|d h].
  - destruct ids as [|k ids]; [constructor|]. specialize (R k (or_introl eq_refl)). cbn in R. lia.
  - rewrite (value_map (d :: h) d) in N by auto. eapply NoDup_map_inv; eauto.
Qed.
Lemma horder_cycle : forall (h : list (seg RA)) ids vs, NoDup ids -> inrange h ids -> cycle_of (value h ids) vs ->
  exists ids' h', horder h ids = Ok (true, ids', h') /\ Permutation ids' ids /\ Forall2 turned h' h /\
    iscontinuous (value h' ids') = true /\ isclosed (value h' ids') = Ok true /\
    exists us, Permutation us vs /\ map (fun s => (si s, sj s)) (value h' ids') = cycle_edges us.
Proof.
  intros h ids vs N R (L & NV & S' & cyc & J & P).
  destruct (order_spec vs (value h ids) cyc L NV S' J P) as (us & r & E & RA' & PU & M & C1 & C2 & _).
  pose proof (horder_order h ids N R) as HO. destruct (horder h ids) as [[[b ids'] h']|e] eqn:EH; [|congruence].
  destruct HO as (E' & LH & OT). rewrite E in E'. injection E' as <- V. exists ids', h'.
  destruct (horder_turned _ _ _ _ _ R EH) as [T I].
  assert (R' : inrange h' ids') by (intros k Ik; rewrite LH; apply R, I; auto).
  assert (NI : NoDup ids').
  { apply (NoDup_value h'); auto. rewrite <- V. apply (NoDup_map_inv (fun s : seg RA => (si s, sj s))). rewrite M.
    apply (NoDup_map_inv fst). rewrite cycle_fst. eapply Permutation_NoDup; [apply Permutation_sym; eauto|auto]. }
  split; auto. split.
  - apply NoDup_Permutation_bis; auto. rewrite <- (value_length h' ids') by auto. rewrite <- V. destruct RA' as (g' & PG & FG).
    rewrite (Forall2_len _ _ _ _ _ FG), (Permutation_length PG), value_length by auto. auto.
  - rewrite <- V. split; [|split; [|split]]; auto. exists us. auto.
Qed.

(** What order() leaves alone: the segments up to reversal, and which segments a polygon has. *)
Definition kin (st st0 : bstate RA) : Prop :=
  Forall2 turned (b_heap st) (b_heap st0) /\ Forall2 (@Permutation nat) (b_ids st) (b_ids st0).
Lemma kin_refl : forall st, kin st st.
Proof. intros st. split; [apply turned_refl|]. induction (b_ids st); constructor; auto. Qed.
Lemma kin_trans : forall a b c, kin a b -> kin b c -> kin a c.
Proof.
  intros a b c [T1 P1] [T2 P2]. split; [eapply turned2_trans; eauto|]. clear -P1 P2. revert P2. generalize (b_ids c). induction P1; intros m P2; inversion P2; subst; constructor; auto.
  eapply perm_trans; eauto.
Qed.
Lemma Forall2_nth_d : forall X Y (R : X -> Y -> Prop) a b k d e, Forall2 R a b -> (k < length a)%nat -> R (nth k a d) (nth k b e).
Proof. intros X Y R a b k d e F. revert k. induction F; intros [|k] L; cbn in *; try lia; auto. apply IHF. lia. Qed.
Lemma kin_ids : forall st st0 k, kin st st0 -> Permutation (nth k (b_ids st) []) (nth k (b_ids st0) []).
Proof.
  intros st st0 k [T P]. destruct (Nat.lt_ge_cases k (length (b_ids st))) as [L|L]; [apply Forall2_nth_d; auto|].
  rewrite !nth_overflow; auto. rewrite <- (Forall2_len _ _ _ _ _ P). auto.
Qed.
Lemma value_rearranged : forall (h h' : list (seg RA)) a b, Forall2 turned h' h -> Permutation a b -> rearranged (value h' a) (value h b).
Proof. intros h h' a b T P. exists (value h a). split; [apply value_perm; auto|]. apply value_turned. auto. Qed.
Lemma kin_val : forall st st0 k, kin st st0 -> rearranged (val st k) (val st0 k).
Proof. intros st st0 k K. apply value_rearranged; [apply K|apply kin_ids; auto]. Qed.

(** A polygon object that is a cycle. *)
Definition cyclic (st : bstate RA) (p : nat) : Prop :=
  (p < length (b_ids st))%nat /\ let ids := nth p (b_ids st) [] in NoDup ids /\ inrange (b_heap st) ids /\ exists vs, cycle_of (value (b_heap st) ids) vs.
Lemma kin_cyclic : forall st st0 p, kin st st0 -> cyclic st0 p -> cyclic st p.
Proof.
  intros st st0 p K (L & N & R & vs & C). pose proof (kin_ids st st0 p K) as P. destruct K as [T F]. split; [rewrite (Forall2_len _ _ _ _ _ F); auto|]. cbv zeta.
  split; [eapply Permutation_NoDup; [apply Permutation_sym; eauto|auto]|]. split.
  - intros k I. rewrite (Forall2_len _ _ _ _ _ T). apply R. eapply Permutation_in; eauto.
  - exists vs. apply cycle_turned with (value (b_heap st0) (nth p (b_ids st) [])); [apply value_turned; auto|].
    eapply cycle_perm; [apply value_perm; eauto|auto].
Qed.
Lemma order_at_ok : forall st p, cyclic st p -> exists st', order_at st p = Ok st' /\ kin st' st /\
  iscontinuous (val st' p) = true /\ isclosed (val st' p) = Ok true.
Proof.
  intros st p (L & N & R & vs & C). destruct (horder_cycle _ _ _ N R C) as (ids' & h' & E & P & T & C1 & C2 & _).
  unfold order_at. rewrite E. cbn [bind]. eexists. split; [reflexivity|]. unfold val, kin. cbn [b_heap b_ids].
  assert (E' : nth p (upd p (fun _ => ids') (b_ids st)) [] = ids').
  { apply nth_error_nth. destruct (nth_error (b_ids st) p) eqn:EN; [|apply nth_error_None in EN; lia]. apply (upd_same _ (fun _ => ids') _ _ l). auto. }
  rewrite E'. repeat split; auto.
  clear -P L. revert p P L. induction (b_ids st) as [|x l IH]; intros [|p] P L; cbn in *; try lia; constructor; auto.
  - clear. induction l; constructor; auto.
  - apply IH; auto. lia.
Qed.
Lemma order_all : forall ps st, (forall p, In p ps -> cyclic st p) -> exists st', foldM order_at ps st = Ok st' /\ kin st' st.
Proof.
  induction ps as [|p ps IH]; intros st C; [exists st; split; [reflexivity|apply kin_refl]|].
  destruct (order_at_ok st p) as (st1 & E & K & _); [apply C; left; auto|]. cbn [foldM]. rewrite E. cbn [bind].
  destruct (IH st1) as (st2 & E2 & K2); [intros q I; apply kin_cyclic with st; auto; apply C; right; auto|]. exists st2. split; auto. eapply kin_trans; eauto.
Qed.
Lemma rearranged_trans : forall (a b c : list (seg RA)), rearranged a b -> rearranged b c -> rearranged a c.
Proof.
  intros a b c (g & P & F) (g' & P' & F').
  assert (Q : exists k, Permutation k g' /\ Forall2 turned g k).
  { assert (F2 : Forall2 (fun x y : seg RA => turned x y) b g') by exact F'.
    destruct (Permutation_Forall2 (Permutation_sym P) F2) as (k & Pk & Fk). exists k. split; auto. apply Permutation_sym; auto. }
  destruct Q as (k & Pk & Fk). exists k. split; [eapply perm_trans; eauto|]. apply (turned2_trans a g k); auto.
Qed.
Lemma copies : forall best st acc, (forall p, In p best -> cyclic st p) -> exists st' rs, foldM copy_step best (st, acc) = Ok (st', acc ++ rs) /\ kin st' st /\
  Forall2 (fun p r => room_of r (val st p)) best rs.
Proof.
  induction best as [|p ps IH]; intros st acc C.
  - exists st, []. cbn. rewrite app_nil_r. split; auto. split; [apply kin_refl|constructor].
  - destruct (order_at_ok st p) as (st1 & E & K & C1 & C2); [apply C; left; auto|]. cbn [foldM]. unfold copy_step at 1. cbn [fst snd]. rewrite E. cbn [bind].
    unfold closed_copy. rewrite C2. cbn [bind].
    destruct (IH st1 (acc ++ [val st1 p])) as (st2 & rs & E2 & K2 & F); [intros q I; apply kin_cyclic with st; auto; apply C; right; auto|].
    exists st2, (val st1 p :: rs). rewrite E2, <- app_assoc. split; [reflexivity|]. split; [eapply kin_trans; eauto|]. constructor.
    + split; [apply kin_val; auto|auto].
    + clear -F K. induction F as [|q r l l' (R1 & R2) F IHF]; constructor; auto. split; auto. eapply rearranged_trans; [eauto|apply kin_val; auto].
Qed.

(** * The polygons kept *)
Lemma hset_mem_In : forall X (eqb : X -> X -> bool) h x s, hset_mem eqb h x s = true -> exists y, In (h, y) s /\ eqb y x = true.
Proof.
  intros X eqb h x s M. unfold hset_mem in M. apply existsb_exists in M as ([h' y] & I & E). apply andb_prop in E as [E1 E2]. apply Z.eqb_eq in E1. subst. eauto.
Qed.
Lemma hset_add_In : forall X (eqb : X -> X -> bool) h x s e, In e (hset_add eqb h x s) -> In e s \/ e = (h, x).
Proof. intros X eqb h x s e I. unfold hset_add in I. destruct (hset_mem eqb h x s); auto. apply in_app_iff in I as [I|[I|[]]]; auto. Qed.
Lemma hset_add_old : forall X (eqb : X -> X -> bool) h x s e, In e s -> In e (hset_add eqb h x s).
Proof. intros X eqb h x s e I. unfold hset_add. destruct (hset_mem eqb h x s); auto. apply in_app_iff. auto. Qed.
Lemma hset_of_In : forall X (eqb : X -> X -> bool) H xs k s e, In e (snd (hset_of eqb H k s xs)) -> In e s \/ In (snd e) xs.
Proof.
  intros X eqb H. induction xs as [|x xs IH]; intros k s e I; [left; auto|]. cbn in I. apply IH in I as [I|I]; [|right; right; auto].
  apply hset_add_In in I as [I| ->]; [left; auto|right; left; auto].
Qed.
Lemma hset_of_old : forall X (eqb : X -> X -> bool) H xs k s e, In e s -> In e (snd (hset_of eqb H k s xs)).
Proof. intros X eqb H. induction xs as [|x xs IH]; intros k s e I; auto. cbn. apply IH. apply hset_add_old. auto. Qed.
(** Every element is there, or an equal one. *)
Lemma hset_of_has : forall X (eqb : X -> X -> bool) H, (forall x, eqb x x = true) -> forall xs k s x, In x xs -> exists h y, In (h, y) (snd (hset_of eqb H k s xs)) /\ eqb y x = true.
Proof.
  intros X eqb H RF. induction xs as [|x xs IH]; intros k s z I; [destruct I|]. cbn. destruct I as [<-|I]; [|apply IH; auto].
  destruct (hset_mem eqb (hash_at H k x) x s) eqn:M.
  - apply hset_mem_In in M as (y & Iy & E). exists (hash_at H k x), y. split; auto. apply hset_of_old, hset_add_old. auto.
  - exists (hash_at H k x), x. split; auto. apply hset_of_old. unfold hset_add. rewrite M. apply in_app_iff. right. left. auto.
Qed.

Section Kept.
Context (H : hashing nat) (st : bstate RA) (polys : list nat).
Definition doubled (y : nat) : Prop := exists z, In z polys /\ equal st y z = false /\ loosely st y z = Ok true.
Lemma mark_row_inv : forall pe zs acc acc', incl zs polys -> (forall z, In z zs -> equal st pe z = false) -> In pe polys ->
  (forall e, In e (snd acc) -> In (snd e) polys /\ doubled (snd e)) -> mark_row H st pe zs acc = Ok acc' ->
  forall e, In e (snd acc') -> In (snd e) polys /\ doubled (snd e).
Proof.
  intros pe zs. induction zs as [|z zs IH]; intros [k s] acc' IZ NE IP INV E; cbn [mark_row] in E; [injection E as <-; auto|].
  destruct (loosely st pe z) as [b|] eqn:EL; [|discriminate]. cbn [bind] in E.
  eapply IH; [| | | |exact E]; auto; [intros y I; apply IZ; right; auto|intros y I; apply NE; right; auto|]. clear E IH.
  destruct b; [|exact INV]. destruct (hset_mem _ _ _ _); [exact INV|]. cbn [snd]. intros e I. apply hset_add_In in I as [I| ->]; auto. cbn.
  split; auto. exists z. split; [apply IZ; left; auto|]. split; auto. apply NE. left. auto.
Qed.
Lemma mark_inv : forall k s, mark H st polys = Ok (k, s) -> forall e, In e s -> In (snd e) polys /\ doubled (snd e).
Proof.
  intros k s E. assert (G : forall ps acc acc', incl ps polys -> (forall e, In e (snd acc) -> In (snd e) polys /\ doubled (snd e)) ->
    foldM (fun acc pe => mark_row H st pe (filter (fun x => negb (equal st pe x)) polys) acc) ps acc = Ok acc' -> forall e, In e (snd acc') -> In (snd e) polys /\ doubled (snd e)).
  { induction ps as [|p ps IH]; intros acc acc' IC INV F; cbn [foldM] in F; [injection F as <-; auto|].
    destruct (mark_row H st p _ acc) as [a1|] eqn:E1; [|discriminate]. cbn [bind] in F. eapply IH; [| |exact F]; [intros y I; apply IC; right; auto|].
    eapply mark_row_inv; [| | | |exact E1]; auto.
    - intros y I. apply filter_In in I. tauto.
    - intros y I. apply filter_In in I as [_ I]. apply negb_true_iff in I. auto.
    - apply IC. left. auto. }
  apply (G polys (0%nat, []) (k, s)); auto; [apply incl_refl|intros e []].
Qed.
Lemma mark_ok : exists k s, mark H st polys = Ok (k, s).
Proof.
  assert (R : forall pe zs acc, exists acc', mark_row H st pe zs acc = Ok acc').
  { intros pe. induction zs as [|z zs IH]; intros [k s]; [eexists; reflexivity|]. cbn [mark_row]. unfold loosely, poly_loose_equal.
    destruct (negb _); cbn [bind]; apply IH. }
  unfold mark. generalize polys at 2. intros ps. generalize (0%nat, @nil (Z * nat)). induction ps as [|p ps IH]; intros acc.
  - destruct acc as [k s]. exists k, s. reflexivity.
  - cbn [foldM]. destruct (R p (filter (fun x => negb (equal st p x)) polys) acc) as (a & E). rewrite E. cbn [bind]. apply IH.
Qed.
Lemma unmarked_spec : forall s l k k' l', unmarked H st s k l = (k', l') -> sublist l' l /\
  forall x, In x l -> In x l' \/ exists e, In e s /\ same st (snd e) x = true.
Proof.
  intros s. induction l as [|x l IH]; intros k k' l' E; cbn [unmarked] in E; [injection E as <- <-; split; [constructor|intros x []]|].
  destruct (unmarked H st s (S k) l) as [k1 l1] eqn:E1. destruct (IH _ _ _ E1) as [SL C].
  destruct (hset_mem (same st) (hash_at H k x) x s) eqn:M; injection E as <- <-.
  - split; [apply sub_skip; auto|]. intros y [<-|I]; auto. right. apply hset_mem_In in M as (y & I & E'). eexists. split; [exact I|]. auto.
  - split; [apply sub_take; auto|]. intros y [<-|I]; [left; left; auto|]. destruct (C y I); [left; right; auto|right; auto].
Qed.

Context (tris : nat -> list (list (seg RA))) (area_of : nat -> R).
Lemma remove_first_spec : forall p l, sublist (remove_first st p l) l /\ forall x, In x l -> In x (remove_first st p l) \/ same st x p = true.
Proof.
  intros p l. induction l as [|y l [SL C]]; cbn; [split; [constructor|intros x []]|]. destruct (same st y p) eqn:E.
  - split; [apply sub_skip, sublist_refl|]. intros x [<-|I]; auto.
  - split; [apply sub_take; auto|]. intros x [<-|I]; [left; left; auto|]. destruct (C x I); auto. left. right. auto.
Qed.
Lemma sweep_spec : forall total n i l, sublist (sweep area_of st total n i l) l /\
  forall x, In x l -> In x (sweep area_of st total n i l) \/ exists p, In p l /\ same st x p = true /\ (Rabs (area_of p - total) < 1 / 10^8).
Proof.
  intros total n. induction n as [|n IH]; intros i l; cbn [sweep]; [split; [apply sublist_refl|auto]|].
  destruct (nth_error l i) as [p|] eqn:EN; [|split; [apply sublist_refl|auto]].
  assert (IP := nth_error_In _ _ EN).
  match goal with |- context [if ?c then _ else _] => destruct c eqn:EC end; [|apply IH].
  destruct (remove_first_spec p l) as [SR CR]. destruct (IH (S i) (remove_first st p l)) as [SL C]. split; [eapply sublist_trans; eauto|].
  intros x I. assert (Q : Rabs (area_of p - total) < 1 / 10 ^ 8) by (revert EC; unfold EPS; ra; rewrite Rltb_true; intros; lra).
  destruct (CR x I) as [I'|E]; [|right; exists p; auto].
  destruct (C x I') as [|(q & Iq & E & B)]; auto. right. exists q. split; auto. eapply sublist_incl; eauto.
Qed.
(** The area of a polygon is the total area of several polygons. *)
Definition summed (l : list nat) (x : nat) : Prop :=
  exists comb a, sublist comb l /\ (2 <= length comb)%nat /\ total_area (flat_map tris comb) a /\ Rabs (area_of x - a) < 1 / 10^8.
Lemma mapM_all : forall X Y (f : X -> res Y) l r, mapM f l = Ok r <-> Forall2 (fun x y => f x = Ok y) l r.
Proof.
  intros X Y f l. induction l as [|x l IH]; intros r; cbn [mapM].
  - split; [intros E; injection E as <-; constructor|intros F; inversion F; reflexivity].
  - split.
    + intros E. destruct (f x) as [y|] eqn:EF; [|discriminate]. cbn [bind] in E. destruct (mapM f l) as [ys|] eqn:EM; [|discriminate]. injection E as <-.
      constructor; auto. apply IH. auto.
    + intros F. inversion F as [|? y ? ys E F']; subst. rewrite E. cbn [bind]. apply IH in F'. rewrite F'. reflexivity.
Qed.
Lemma total_nsum : forall ts as_, mapM triangle_area ts = Ok as_ -> total_area ts (nsum as_).
Proof.
  intros ts as_ E. exists as_. split; [|apply nsum_R]. apply mapM_all. auto.
Qed.
Lemma sweep_fold : forall combs l0 l l', (forall c, In c combs -> sublist c l0 /\ (2 <= length c)%nat) -> sublist l l0 ->
  foldM (sweep_comb tris area_of st) combs l = Ok l' ->
  sublist l' l /\ forall x, In x l -> In x l' \/ exists p, In p l /\ same st x p = true /\ summed l0 p.
Proof.
  induction combs as [|c combs IH]; intros l0 l l' HC SL E; cbn [foldM] in E; [injection E as <-; split; [apply sublist_refl|auto]|].
  unfold sweep_comb at 1 in E. destruct (mapM triangle_area (flat_map tris c)) as [as_|] eqn:EA; [|discriminate]. cbn [bind] in E.
  destruct (sweep_spec (nsum as_) (length l) 0 l) as [S1 C1].
  destruct (IH l0 _ l' (fun d I => HC d (or_intror I)) (sublist_trans _ _ _ _ S1 SL) E) as [S2 C2]. split; [eapply sublist_trans; eauto|].
  intros x I. destruct (C1 x I) as [I1|(p & Ip & Es & B)].
  - destruct (C2 x I1) as [|(q & Iq & R)]; auto. right. exists q. split; auto. eapply sublist_incl; eauto.
  - right. exists p. split; auto. split; auto. destruct (HC c (or_introl eq_refl)). exists c, (nsum as_). repeat split; auto. apply total_nsum. auto.
Qed.
Lemma summed_sub : forall l l' x, sublist l l' -> summed l x -> summed l' x.
Proof. intros l l' x SL (c & a & S1 & R). exists c, a. split; auto. eapply sublist_trans; eauto. Qed.
Lemma sweeps_spec : forall fuel n l l', (1 <= n)%nat -> sweeps tris area_of st fuel n l = Ok l' ->
  sublist l' l /\ forall x, In x l -> In x l' \/ exists p, In p l /\ same st x p = true /\ summed l p.
Proof.
  induction fuel as [|f IH]; intros n l l' N E; cbn [sweeps] in E; [injection E as <-; split; [apply sublist_refl|auto]|].
  destruct (Nat.ltb n (S (length l))); [|injection E as <-; split; [apply sublist_refl|auto]].
  destruct (foldM _ _ l) as [l1|] eqn:E1; [|discriminate]. cbn [bind] in E.
  destruct (sweep_fold (combinations (S n) l) l l l1) as [S1 C1]; [|apply sublist_refl|exact E1|].
  { intros c I. apply combinations_sub in I as [S' L]. split; auto. lia. }
  destruct (IH (S n) l1 l') as [S2 C2]; auto. split; [eapply sublist_trans; eauto|].
  intros x I. destruct (C1 x I) as [I1|D]; auto. destruct (C2 x I1) as [|(q & Iq & Es & D)]; auto. right. exists q.
  split; [eapply sublist_incl; eauto|]. split; auto. eapply summed_sub; eauto.
Qed.
End Kept.

(** * The combination chosen *)
Lemma filterM_In : forall X (f : X -> res bool) l r, filterM f l = Ok r -> sublist r l /\ (forall x, In x r <-> In x l /\ f x = Ok true) /\ forall x, In x l -> exists b, f x = Ok b.
Proof.
  intros X f l. induction l as [|y l IH]; intros r E; cbn [filterM] in E.
  - injection E as <-. split; [constructor|]. split; [intros x; cbn; tauto|intros x []].
  - destruct (f y) as [b|] eqn:EF; [|discriminate]. cbn [bind] in E. destruct (filterM f l) as [ys|] eqn:EM; [|discriminate]. cbn [bind] in E.
    destruct (IH ys eq_refl) as (S1 & C1 & T1). injection E as <-. destruct b.
    + split; [apply sub_take; auto|]. split; [|intros x [<-|I]; eauto]. intros x. cbn [In]. rewrite C1. split.
      * intros [<-|[I E]]; split; auto.
      * intros [[<-|I] E]; auto.
    + split; [apply sub_skip; auto|]. split; [|intros x [<-|I]; eauto]. intros x. cbn [In]. rewrite C1. split.
      * intros [I E]; split; auto.
      * intros [[<-|I] E]; auto. congruence.
Qed.
Lemma existsM_all : forall X (f : X -> res bool) l, (forall x, In x l -> f x = Ok false) -> existsM f l = Ok false.
Proof. intros X f l. induction l as [|y l IH]; intros H; [reflexivity|]. cbn. rewrite H by (left; auto). cbn. apply IH. intros; apply H; right; auto. Qed.
Lemma pairs_combinations2 : forall X (P : X -> X -> Prop) l, ForallOrdPairs P l -> forall x y, In (x, y) (combinations2 l) -> P x y.
Proof.
  intros X P l F. induction F as [|z l F1 F IH]; intros x y I; [destruct I|]. cbn in I. apply in_app_iff in I as [I|I]; auto.
  apply in_map_iff in I as (w & E & I). injection E as <- <-. rewrite Forall_forall in F1. auto.
Qed.

Section Chosen.
Context (H : hashing nat) (HC : hashing (list nat)) (inside : list (seg RA) -> pt RA -> res bool).
Context (st : bstate RA) (tris : nat -> list (list (seg RA))) (area_of : nat -> R).

Lemma clash_false : forall ts, clash inside ts = Ok false <-> clash_free inside ts.
Proof.
  intros ts. unfold clash, clash_free. split.
  - intros E. apply combinations2_In. intros x y I. apply (existsM_false _ _ _ E) in I. cbn in I. destruct (congruent x y); [discriminate|]. auto.
  - intros F. apply existsM_all. intros [x y] I. destruct (pairs_combinations2 _ _ _ F x y I) as [-> ->]. reflexivity.
Qed.
Lemma disjunct_true : forall ts, clash_free inside ts -> poly_disjunct (fun _ _ => inside) ts = Ok true.
Proof.
  intros ts F. unfold poly_disjunct. rewrite existsM_all; [reflexivity|]. intros [k [x y]] I. apply in_combine_r in I.
  destruct (pairs_combinations2 _ _ _ F x y I) as [-> ->]. reflexivity.
Qed.
Context (dom : list nat).
Hypothesis D : forall a b, In a dom -> In b dom -> same st a b = true -> a = b.
Lemma same_refl : forall z, same st z z = true.
Proof. intros z. unfold same. rewrite Nat.eqb_refl. reflexivity. Qed.
Lemma any_subset_hit : forall ov k x, (forall a b, In (a, b) ov -> In a dom /\ In b dom) -> incl x dom -> snd (any_subset H st k ov x) = true ->
  exists a b, In (a, b) ov /\ In a x /\ In b x.
Proof.
  induction ov as [|[a b] ov IH]; intros k x IO IX E; [discriminate|]. cbn [any_subset] in E. unfold subset in E.
  set (r := hset_of (same st) H k [] [a; b]) in E. assert (ER : r = hset_of (same st) H k [] [a; b]) by reflexivity. clearbody r. destruct r as [k1 sy].
  set (r2 := hset_of (same st) H k1 [] x) in E. assert (ER2 : r2 = hset_of (same st) H k1 [] x) by reflexivity. clearbody r2. destruct r2 as [k2 sx].
  destruct (forallb _ sy) eqn:EF; [|destruct (IH _ _ (fun c d I => IO c d (or_intror I)) IX E) as (c & d & I & R); exists c, d; split; [right; auto|auto]].
  exists a, b. split; [left; auto|]. rewrite forallb_forall in EF. destruct (IO a b (or_introl eq_refl)) as [Ia Ib].
  assert (G : forall z, In z [a; b] -> In z dom -> In z x).
  { intros z Iz Dz. destruct (hset_of_has _ (same st) H same_refl [a; b] k [] z Iz) as (h & y & Iy & Ey). rewrite <- ER in Iy. cbn [snd] in Iy.
    pose proof (hset_of_In _ (same st) H [a; b] k [] (h, y)) as Q. rewrite <- ER in Q. destruct (Q Iy) as [[]|Q']. cbn [snd] in Q'.
    assert (y = z) as -> by (apply D; auto; destruct Q' as [<-|[<-|[]]]; auto).
    pose proof (EF _ Iy) as M. cbn in M. apply hset_mem_In in M as (w & Iw & Ew).
    pose proof (hset_of_In _ (same st) H x k1 [] (h, w)) as Q2. rewrite <- ER2 in Q2. destruct (Q2 Iw) as [[]|Q3]. cbn [snd] in Q3.
    rewrite <- (D w z); auto. }
  split; apply G; cbn; auto.
Qed.
Lemma sublist_two : forall (c k : list nat) a b, sublist c k -> NoDup k -> sublist [a; b] k -> In a c -> In b c -> sublist [a; b] c.
Proof.
  intros c k a b S1. induction S1 as [|x c k S1 IH|x c k S1 IH]; intros N S2 Ia Ib; auto; inversion N; subst.
  - apply IH; auto. inversion S2; subst; auto. exfalso. apply H2. eapply sublist_incl; [exact S1|auto].
  - inversion S2; subst.
    + destruct Ia as [->|Ia]; [exfalso; apply H2; eapply sublist_incl; [eassumption|left; auto]|].
      destruct Ib as [->|Ib]; [exfalso; apply H2; eapply sublist_incl; [eassumption|right; left; auto]|].
      apply sub_skip, IH; auto.
    + apply sub_take. destruct Ib as [->|Ib].
      * exfalso. apply H2. eapply sublist_incl; [eassumption|left; auto].
      * clear -Ib. induction c as [|y c IH]; [destruct Ib|]. destruct Ib as [->|Ib]; [apply sub_take, sublist_nil|apply sub_skip; auto].
Qed.
Context (kept : list nat).
Hypothesis KD : incl kept dom.
Hypothesis KN : NoDup kept.
Lemma overlap_no_hit : forall ov k c, overlapping inside tris kept = Ok ov -> sublist c kept -> clash_free inside (flat_map tris c) ->
  snd (any_subset H st k ov c) = false.
Proof.
  intros ov k c E SC F. destruct (snd (any_subset H st k ov c)) eqn:EA; auto. exfalso.
  unfold overlapping in E. apply filterM_In in E as (SO & CO & _).
  destruct (any_subset_hit ov k c) as (a & b & I & Ia & Ib); auto.
  - intros a b I. apply CO in I as [I _]. apply combinations2_sublist in I. apply sublist_incl in I. split; apply KD, I; cbn; auto.
  - intros z I. apply KD. eapply sublist_incl; eauto.
  - apply CO in I as [I E]. apply combinations2_sublist in I. pose proof (sublist_two c kept a b SC KN I Ia Ib) as S2.
    apply (sublist_flat_map _ _ tris) in S2. cbn [flat_map] in S2. rewrite app_nil_r in S2.
    rewrite disjunct_true in E; [discriminate|]. eapply sublist_pairs; eauto.
Qed.
Lemma same_comb_eq : forall a b, incl a dom -> incl b dom -> same_comb st a b = true -> a = b.
Proof.
  intros a b IA IB E. unfold same_comb in E. apply andb_prop in E as [L E]. apply Nat.eqb_eq in L. revert b IB L E.
  induction a as [|x a IH]; intros [|y b] IB L E; try discriminate; auto. cbn in E. apply andb_prop in E as [E1 E2]. f_equal.
  - apply D; auto; [apply IA|apply IB]; left; auto.
  - apply IH; auto; [intros z I; apply IA; right; auto|intros z I; apply IB; right; auto].
Qed.
Lemma same_comb_refl : forall a, same_comb st a a = true.
Proof. intros a. unfold same_comb. rewrite Nat.eqb_refl. cbn. induction a; cbn; auto. rewrite same_refl. auto. Qed.
Lemma candidates_inv : forall ov combs k kc ret k' kc' ret', overlapping inside tris kept = Ok ov -> (forall c, In c combs -> sublist c kept) ->
  foldM (comb_step H HC inside tris st ov) combs (k, kc, ret) = Ok (k', kc', ret') ->
  (forall e, In e ret -> In e ret') /\
  (forall e, In e ret' -> In e ret \/ (In (snd e) combs /\ clash_free inside (flat_map tris (snd e)))) /\
  (forall c, In c combs -> clash_free inside (flat_map tris c) -> exists e, In e ret' /\ same_comb st (snd e) c = true).
Proof.
  intros ov combs. induction combs as [|c combs IH]; intros k kc ret k' kc' ret' EO SC E; cbn [foldM] in E.
  - injection E as <- <- <-. split; auto. split; auto. intros c [].
  - unfold comb_step at 1 in E. destruct (any_subset H st k ov c) as [k1 hit] eqn:EA.
    assert (NH : clash_free inside (flat_map tris c) -> hit = false).
    { intros F. pose proof (overlap_no_hit ov k c EO (SC c (or_introl eq_refl)) F) as Q. rewrite EA in Q. exact Q. }
    assert (SC' : forall d, In d combs -> sublist d kept) by (intros; apply SC; right; auto).
    destruct hit.
    + cbn [bind] in E. destruct (IH _ _ _ _ _ _ EO SC' E) as (I1 & I2 & I3). split; auto. split.
      * intros e I. destruct (I2 e I) as [|[]]; auto. right. split; auto. right. auto.
      * intros d [<-|I] F; [discriminate (NH F)|auto].
    + destruct (clash inside (flat_map tris c)) as [b|] eqn:EC; [|discriminate]. cbn [bind] in E. destruct b.
      * destruct (IH _ _ _ _ _ _ EO SC' E) as (I1 & I2 & I3). split; auto. split.
        -- intros e I. destruct (I2 e I) as [|[]]; auto. right. split; auto. right. auto.
        -- intros d [<-|I] F; auto. apply clash_false in F. congruence.
      * destruct (IH _ _ _ _ _ _ EO SC' E) as (I1 & I2 & I3). split; [|split].
        -- intros e I. apply I1, hset_add_old. auto.
        -- intros e I. destruct (I2 e I) as [I'|[]]; [|right; split; auto; right; auto].
           apply hset_add_In in I' as [I'| ->]; auto. right. cbn. split; [left; auto|]. apply clash_false. auto.
        -- intros d [<-|I] F; auto. unfold hset_add in I1. destruct (hset_mem (same_comb st) (hash_at HC kc c) c ret) eqn:M.
           ++ apply hset_mem_In in M as (y & Iy & Ey). eexists. split; [apply I1; exact Iy|]. auto.
           ++ eexists. split; [apply I1, in_app_iff; right; left; reflexivity|]. apply same_comb_refl.
Qed.
Lemma all_combs : forall c, In c (flat_map (fun n => combinations n kept) (seq 1 (length kept))) <-> sublist c kept /\ c <> [].
Proof.
  intros c. rewrite in_flat_map. split.
  - intros (n & I & C). apply combinations_sub in C as [SC L]. split; auto. intros ->. apply in_seq in I. cbn in L. lia.
  - intros [SC N]. exists (length c). split; [|apply combinations_sub; auto]. apply in_seq. pose proof (sublist_length _ _ _ SC). destruct c; [congruence|cbn in *; lia].
Qed.
Local Notation area_sum := (area_sum area_of).
Local Notation not_worse := (not_worse area_of).
Lemma larger_iff : forall a b, @larger RA area_of a b = true <-> (length b < length a)%nat \/ (length a = length b /\ area_sum b < area_sum a).
Proof.
  intros a b. unfold larger. destruct (Nat.eqb (length a) (length b)) eqn:E.
  - apply Nat.eqb_eq in E. ra. rewrite Rltb_true, !nsum_R. unfold SpecBase.area_sum. split; [intros; right; auto|]. intros [L|[_ L]]; [lia|auto].
  - apply Nat.eqb_neq in E. rewrite Nat.ltb_lt. split; [auto|]. intros [L|[L _]]; [auto|lia].
Qed.
Lemma choose_spec : forall kc ret best, lists_all HC -> choose HC area_of kc ret = Ok best ->
  (exists e, In e ret /\ snd e = best) /\ forall e, In e ret -> not_worse best (snd e).
Proof.
  intros kc ret best LA E. unfold choose, get in E. destruct (sort_by (@larger RA area_of) (listed HC kc (map snd ret))) as [|b t] eqn:ES; [discriminate|].
  injection E as <-. assert (P : Permutation (b :: t) (map snd ret)) by (rewrite <- ES; eapply perm_trans; [apply sort_by_perm|apply LA]). split.
  - assert (I : In b (map snd ret)) by (eapply Permutation_in; [exact P|left; auto]). apply in_map_iff in I as (e & <- & I). eauto.
  - intros e I. assert (K : @larger RA area_of (snd e) b = false).
    { refine (sort_by_head _ (@larger RA area_of) _ _ _ b t ES (snd e) _).
      - intros x y z. rewrite !larger_iff. intros [L|[L M]].
        + destruct (Nat.lt_ge_cases (length y) (length x)) as [L1|L1]; auto. right. left. lia.
        + destruct (Nat.lt_trichotomy (length y) (length x)) as [L1|[L1|L1]]; auto.
          * destruct (Rlt_dec (area_sum y) (area_sum x)); [left; right; auto|right; right; split; [lia|lra]].
          * right. left. lia.
      - intros x y K. destruct (@larger RA area_of y x) eqn:E2; auto. exfalso. apply larger_iff in K. apply larger_iff in E2. lia || (destruct K as [|[]], E2 as [|[]]; try lia; lra).
      - apply (Permutation_in (l := map snd ret)); [apply Permutation_sym, LA|]. apply in_map. auto. }
    unfold SpecBase.not_worse. destruct (Nat.lt_trichotomy (length (snd e)) (length b)) as [L|[L|L]]; auto.
    + right. split; auto. apply Rnot_lt_le. intros M. assert (@larger RA area_of (snd e) b = true) by (apply larger_iff; auto). congruence.
    + exfalso. assert (@larger RA area_of (snd e) b = true) by (apply larger_iff; auto). congruence.
Qed.
Lemma chosen_spec : forall ov k k' kc ret best, lists_all HC -> overlapping inside tris kept = Ok ov ->
  candidates_of H HC inside tris st k ov kept = Ok (k', kc, ret) -> choose HC area_of kc ret = Ok best ->
  sublist best kept /\ best <> [] /\ clash_free inside (flat_map tris best) /\
  forall c, sublist c kept -> c <> [] -> clash_free inside (flat_map tris c) -> not_worse best c.
Proof.
  intros ov k k' kc ret best LA EO EC ES. unfold candidates_of in EC.
  destruct (candidates_inv ov _ _ _ _ _ _ _ EO (fun c I => proj1 (proj1 (all_combs c) I)) EC) as (_ & I2 & I3).
  destruct (choose_spec _ _ _ LA ES) as ((e & Ie & <-) & M).
  destruct (I2 e Ie) as [[]|[IC F]]. apply all_combs in IC as [SC NE]. split; auto. split; auto. split; auto.
  intros c S1 N1 F1. destruct (I3 c) as (e' & Ie' & Es); auto; [apply all_combs; auto|].
  assert (snd e' = c) as <-; [|apply M; auto]. destruct (I2 e' Ie') as [[]|[IC' _]]. apply all_combs in IC' as [S2 _].
  apply same_comb_eq; auto; intros z I; apply KD; [eapply sublist_incl; [exact S2|]|eapply sublist_incl; [exact S1|]]; auto.
Qed.
End Chosen.
