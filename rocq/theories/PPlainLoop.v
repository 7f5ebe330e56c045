(** Vessels whose walls form exactly one loop. *)
From Coq Require Import String Reals ZArith Lra Lia Bool List Psatz Permutation Arith Classical.
From Verif Require Import Base Arith ArithR ArithF MPoint MLine MPoly MTri MGroup MCycles MBase MContain MRaum MRooms
  Spec SpecGroup SpecLoops SpecBase SpecRooms SpecRing PPoint PLine PShape PConvex POrder PInside PGroup PWalk PComponent PHead PCommon PCollinear PLoops POneRoom.
From Verif Require PMore.
Import ListNotations.
Local Open Scope list_scope.
#[local] Existing Instance RA.

(** * order() on edges of a path *)
Definition placed (N : nat) (F : nat -> seg RA) (f : nat -> nat) (l : list (seg RA)) : Prop :=
  (forall p x, nth_error l p = Some x -> (f p < N)%nat /\ turned x (F (f p))) /\
  (forall p q, (p < length l)%nat -> (q < length l)%nat -> f p = f q -> p = q).
Definition above (f : nat -> nat) (l : list (seg RA)) (p : nat) : list nat := filter (fun q => Nat.ltb (f p) (f q)) (seq 0 (length l)).

Lemma turned_rev : forall x y : seg RA, turned x y -> turned (seg_reverse x) y.
Proof. intros x [c i j] [-> | ->]; unfold seg_reverse; simpl; [right|left]; reflexivity. Qed.
Lemma upd_length : forall X k (f : X -> X) l, length (upd k f l) = length l.
Proof. intros X k f. revert k. induction k as [|k IH]; intros [|x l]; simpl; auto. Qed.
Lemma upd_nth_eq : forall X (f : X -> X) l k x, nth_error l k = Some x -> nth_error (upd k f l) k = Some (f x).
Proof. intros X f. induction l as [|y l IH]; intros [|k] x E; simpl in *; try discriminate; [congruence|auto]. Qed.
Lemma upd_nth_ne : forall X (f : X -> X) l k j, j <> k -> nth_error (upd k f l) j = nth_error l j.
Proof. intros X f. induction l as [|y l IH]; intros [|k] [|j] N; simpl; auto; congruence. Qed.

Section Path.
Variables (N : nat) (w : nat -> pt RA) (F : nat -> seg RA).
Hypothesis sepw : forall i j, (i <= N)%nat -> (j <= N)%nat -> pt_eqb (w i) (w j) = true -> i = j.
Hypothesis FJ : forall t, (t < N)%nat -> joins (w t, w (S t)) (F t).

Lemma path_ends : forall t x, (t < N)%nat -> turned x (F t) -> (si x = w t /\ sj x = w (S t)) \/ (si x = w (S t) /\ sj x = w t).
Proof. intros t x L [-> | ->]; destruct (FJ t L) as [[A B]|[A B]]; simpl in *; auto. Qed.
Lemma path_eqb : forall s t x y, (s < N)%nat -> (t < N)%nat -> turned x (F s) -> turned y (F t) -> seg_eqb x y = true -> s = t.
Proof.
  intros s t x y Ls Lt Tx Ty E. unfold seg_eqb in E. apply andb_true_iff in E as [E EJ]. apply andb_true_iff in E as [_ EI].
  destruct (path_ends s x Ls Tx) as [[A B]|[A B]]; destruct (path_ends t y Lt Ty) as [[C D]|[C D]]; rewrite A, C in EI; rewrite B, D in EJ;
  apply sepw in EI; try lia; apply sepw in EJ; lia.
Qed.

Lemma up_loop : forall d f m c o p x, placed N F f (o_segs o) -> o_akt o = p -> nth_error (o_segs o) p = Some x -> o_end o = w (S (f p)) ->
  (forall q, In q (o_ret o) -> (q < length (o_segs o))%nat /\ (f q <= f p)%nat) -> (length (above f (o_segs o) p) <= d)%nat -> (d < m)%nat -> (c + d <= 500)%nat ->
  exists l', order_loop m c o = Ok (inr l') /\ length l' = length (o_segs o) /\
    forall q y, nth_error l' q = Some y -> exists old, nth_error (o_segs o) q = Some old /\
      (y = old \/ (y = seg_reverse old /\ sj y = w (S (f q)) /\ (f p < f q)%nat)).
Proof.
  induction d as [d IH] using lt_wf_ind; intros f m c o p x PL EA Ex EE RET LD LM LC.
  destruct m as [|m]; [lia|]. cbn [order_loop]. unfold order_step. rewrite EA, Ex. cbv zeta. rewrite EE.
  pose proof PL as [PF PI]. destruct (PF p x Ex) as [Lp Tx].
  assert (NEXT : forall k y, nth_error (o_segs o) k = Some y -> pt_eqb (si y) (w (S (f p))) = true \/ pt_eqb (sj y) (w (S (f p))) = true -> seg_eqb y x = false -> f k = S (f p)).
  { intros k y Ey T NE. destruct (PF k y Ey) as [Lk Ty]. assert (f k <> f p).
    { intros E. assert (k = p) by (apply PI; auto; apply nth_error_Some; congruence). subst k. assert (y = x) by congruence. subst y. rewrite seg_eqb_refl in NE. discriminate. }
    destruct (path_ends _ _ Lk Ty) as [[A B]|[A B]]; rewrite A, B in T; destruct T as [T|T]; apply sepw in T; lia. }
  assert (LESS : forall k y, nth_error (o_segs o) k = Some y -> f k = S (f p) -> (length (above f (o_segs o) k) < length (above f (o_segs o) p))%nat).
  { intros k y Ey Ek. change (length (k :: above f (o_segs o) k) <= length (above f (o_segs o) p))%nat. apply NoDup_incl_length.
    - constructor; [|apply NoDup_filter, seq_NoDup]. unfold above. rewrite filter_In, Nat.ltb_lt. lia.
    - intros q [<-|Q]; unfold above in *; rewrite ?filter_In, ?Nat.ltb_lt, ?in_seq in *.
      + assert (k < length (o_segs o))%nat by (apply nth_error_Some; congruence). lia.
      + lia. }
  assert (FRESH : forall k y, nth_error (o_segs o) k = Some y -> f k = S (f p) ->
    existsb (fun r => (Nat.eqb r k || match nth_error (o_segs o) r with Some z => seg_eqb z y | None => false end)%bool) (o_ret o) = false).
  { intros k y Ey Ek. apply not_true_iff_false. intros E. apply existsb_exists in E as (r & Ir & E). destruct (RET r Ir) as [Lr Fr]. apply orb_true_iff in E as [E|E].
    - apply Nat.eqb_eq in E. subst r. lia.
    - destruct (nth_error (o_segs o) r) as [z|] eqn:Ez; [|discriminate]. destruct (PF r z Ez) as [L1 T1]. destruct (PF k y Ey) as [L2 T2].
      apply (path_eqb _ _ _ _ L1 L2 T1 T2) in E. lia. }
  assert (NX : (S m = m + 1)%nat) by lia. clear NX.
  destruct (find_from (fun x0 => pt_eqb (si x0) (w (S (f p))) && negb (seg_eqb x0 x)) 0 (o_segs o)) as [k|] eqn:E1.
  - destruct (find_from_some _ _ _ _ _ E1) as [_ (z & Ez & Fz)]. rewrite Nat.sub_0_r in Ez. apply andb_true_iff in Fz as [Fz Gz]. apply negb_true_iff in Gz.
    pose proof (NEXT k z Ez (or_introl Fz) Gz) as Ek. rewrite Ez, (FRESH k z Ez Ek). cbn [negb andb]. rewrite Ez.
    destruct (Nat.ltb_spec 500 (S c)) as [|_]; [pose proof (LESS k z Ez Ek); lia|].
    destruct (PF k z Ez) as [Lk Tz]. pose proof (LESS k z Ez Ek) as LS.
    destruct (IH (length (above f (o_segs o) k)) ltac:(lia) f m (S c) (mko (o_segs o) k (sj z) (o_ret o ++ [k])) k z) as (l' & EL & LL & Q); auto; try lia.
    + cbn [o_end]. destruct (path_ends _ _ Lk Tz) as [[A B]|[A B]]; [exact B|]. rewrite A in Fz. apply sepw in Fz; lia.
    + cbn [o_ret o_segs]. intros q Iq. apply in_app_iff in Iq as [Iq|[<-|[]]]; [destruct (RET q Iq); lia|]. split; [apply nth_error_Some; congruence|lia].
    + exists l'. split; [exact EL|]. split; [exact LL|]. intros q y Ey. destruct (Q q y Ey) as (old & Eo & [->|(A & B & C)]); exists old; (split; [exact Eo|]); [left; auto|right]. split; auto. split; auto. lia.
  - destruct (find_from (fun x0 => pt_eqb (sj x0) (w (S (f p))) && negb (seg_eqb x0 x)) 0 (o_segs o)) as [k|] eqn:E2.
    + destruct (find_from_some _ _ _ _ _ E2) as [_ (z & Ez & Fz)]. rewrite Nat.sub_0_r in Ez. apply andb_true_iff in Fz as [Fz Gz]. apply negb_true_iff in Gz.
      pose proof (NEXT k z Ez (or_intror Fz) Gz) as Ek. rewrite Ez, (FRESH k z Ez Ek). cbn [negb andb].
      set (l1 := upd k seg_reverse (o_segs o)). assert (E1' : nth_error l1 k = Some (seg_reverse z)) by (apply upd_nth_eq; auto). rewrite E1'.
      destruct (Nat.ltb_spec 500 (S c)) as [|_]; [pose proof (LESS k z Ez Ek); lia|].
      destruct (PF k z Ez) as [Lk Tz]. pose proof (LESS k z Ez Ek) as LS.
      assert (L1 : length l1 = length (o_segs o)) by apply upd_length.
      assert (AB : forall q, above f l1 q = above f (o_segs o) q) by (intros; unfold above; rewrite L1; reflexivity).
      assert (SJ : sj (seg_reverse z) = w (S (f k))).
      { simpl. destruct (path_ends _ _ Lk Tz) as [[A B]|[A B]]; [|exact A]. rewrite B in Fz. apply sepw in Fz; lia. }
      assert (PL1 : placed N F f l1).
      { split; [|rewrite L1; exact PI]. intros q y Ey. destruct (Nat.eq_dec q k) as [->|NE].
        - rewrite E1' in Ey. injection Ey as <-. split; auto. apply turned_rev; auto.
        - unfold l1 in Ey. rewrite upd_nth_ne in Ey by auto. apply PF; auto. }
      destruct (IH (length (above f (o_segs o) k)) ltac:(lia) f m (S c) (mko l1 k (sj (seg_reverse z)) (o_ret o ++ [k])) k (seg_reverse z)) as (l' & EL & LL & Q); auto; try lia.
      * cbn [o_ret o_segs]. intros q Iq. rewrite L1. apply in_app_iff in Iq as [Iq|[<-|[]]]; [destruct (RET q Iq); lia|]. split; [apply nth_error_Some; congruence|lia].
      * cbn [o_segs]. rewrite AB. lia.
      * exists l'. split; [exact EL|]. cbn [o_segs] in LL, Q. split; [congruence|]. intros q y Ey. destruct (Q q y Ey) as (old & Eo & D).
        destruct (Nat.eq_dec q k) as [->|NE].
        -- rewrite E1' in Eo. injection Eo as <-. exists z. split; auto. right. destruct D as [->|(_ & _ & C)]; [|lia]. split; auto. split; auto. lia.
        -- unfold l1 in Eo. rewrite upd_nth_ne in Eo by auto. exists old. split; auto. destruct D as [->|(A & B & C)]; [left; auto|right]. split; auto. split; auto. lia.
    + exists (o_segs o). split; [reflexivity|]. split; [reflexivity|]. intros q y Ey. exists y. auto.
Qed.
End Path.

Lemma order_path : forall N w F f (l : list (seg RA)),
  (forall i j, (i <= N)%nat -> (j <= N)%nat -> pt_eqb (w i) (w j) = true -> i = j) ->
  (forall t, (t < N)%nat -> joins (w t, w (S t)) (F t)) -> placed N F f l -> l <> [] -> (length l < 250)%nat ->
  exists l' a, order l = Ok (false, l') /\ order_objs l = l' /\ length l' = length l /\ nth_error l 0 = Some a /\
    forall q y, nth_error l' q = Some y -> exists old, nth_error l q = Some old /\
      (y = old \/ (y = seg_reverse old /\ ((sj y = w (S (f q)) /\ sj a = w (S (f 0%nat))) \/ (sj y = w (f q) /\ sj a = w (f 0%nat) /\ (f q < f 0)%nat)))).
Proof.
  intros N w F f [|a l0] sepw FJ PL NE LB; [congruence|]. set (l := a :: l0) in *.
  pose proof PL as [PF PI]. destruct (PF 0%nat a eq_refl) as [L0 T0].
  assert (AB : forall g, (length (above g l 0) <= length l)%nat).
  { intros g. unfold above. rewrite <- (seq_length (length l) 0) at 2. generalize (seq 0 (length l)). induction l1 as [|x l1 IH]; simpl; auto. destruct (Nat.ltb _ _); simpl; lia. }
  assert (Q : exists l', order_loop (2 * length l + 1) 0 (mko l 0 (sj a) []) = Ok (inr l') /\ length l' = length l /\
    forall q y, nth_error l' q = Some y -> exists old, nth_error l q = Some old /\
      (y = old \/ (y = seg_reverse old /\ ((sj y = w (S (f q)) /\ sj a = w (S (f 0%nat))) \/ (sj y = w (f q) /\ sj a = w (f 0%nat) /\ (f q < f 0)%nat))))).
  { destruct (path_ends N w F FJ _ _ L0 T0) as [[A B]|[A B]].
    - destruct (up_loop N w F sepw FJ (length (above f l 0)) f (2 * length l + 1) 0 (mko l 0 (sj a) []) 0%nat a) as (l' & E & LL & H); auto.
      + intros q [].
      + specialize (AB f). lia.
      + specialize (AB f). lia.
      + exists l'. split; auto. split; auto. intros q y Ey. destruct (H q y Ey) as (old & Eo & [->|(C & D & _)]); exists old; split; auto.
    - set (f' := fun p => (N - 1 - f p)%nat).
      destruct (up_loop N (fun t => w (N - t)%nat) (fun t => F (N - 1 - t)%nat)) with (d := length (above f' l 0)) (f := f') (m := (2 * length l + 1)%nat)
        (c := 0%nat) (o := mko l 0 (sj a) []) (p := 0%nat) (x := a) as (l' & E & LL & H); auto.
      + intros i j Li Lj E. apply sepw in E; lia.
      + intros t Lt. destruct (FJ (N - 1 - t)%nat ltac:(lia)) as [[C D]|[C D]]; simpl in C, D;
          replace (S (N - 1 - t)) with (N - t)%nat in * by lia; replace (N - S t)%nat with (N - 1 - t)%nat by lia; [right|left]; simpl; auto.
      + split.
        * intros p x Ex. destruct (PF p x Ex) as [Lp Tp]. unfold f'. split; [lia|]. replace (N - 1 - (N - 1 - f p))%nat with (f p) by lia. auto.
        * intros p q Lp Lq E. destruct (nth_error l p) as [x|] eqn:Ex; [|apply nth_error_None in Ex; cbn [o_segs] in Lp; lia].
          destruct (nth_error l q) as [y|] eqn:Ey; [|apply nth_error_None in Ey; cbn [o_segs] in Lq; lia].
          destruct (PF p x Ex) as [L1 _]. destruct (PF q y Ey) as [L2 _]. apply PI; auto. unfold f' in E. lia.
      + cbn [o_end]. rewrite B. f_equal. unfold f'. lia.
      + intros q [].
      + specialize (AB f'). lia.
      + specialize (AB f'). lia.
      + exists l'. split; auto. split; auto. intros q y Ey. destruct (H q y Ey) as (old & Eo & [->|(C & D & G)]); exists old; split; auto.
        cbn [o_segs] in Eo. destruct (PF q old Eo) as [Lq _]. right. split; auto. right. unfold f' in D, G. split; [rewrite D; f_equal; lia|]. split; auto. lia. }
  destruct Q as (l' & E & LL & H). exists l', a. unfold order, order_objs.
  change (match l with [] => Err IndexError | _ :: _ => _ end) with
    (r <- order_loop (2 * length l + 1) 0 (mko l 0 (sj a) []) ;; 
     match r with inr segs => Ok (false, segs) | inl o =>
      let ret := flat_map (fun k => match nth_error (o_segs o) k with Some s => [s] | None => [] end) (o_ret o) in
      match sort_by order_key_ltb ret with [] => Err IndexError | first :: _ => Ok (true, rotate_to (length ret) first ret) end end).
  change (match l with [] => [] | _ :: _ => _ end) with
    (match order_loop (2 * length l + 1) 0 (mko l 0 (sj a) []) with Ok (inr segs) => segs | Ok (inl o) => o_segs o | Err _ => l end).
  rewrite E. cbn [bind]. split; [reflexivity|]. split; [reflexivity|]. split; [exact LL|]. split; [reflexivity|]. exact H.
Qed.

Lemma placed_map : forall N F (E : nat -> seg RA) (s : list nat), NoDup s -> (forall k, In k s -> (k < N)%nat /\ turned (E k) (F k)) ->
  placed N F (fun p => nth p s 0%nat) (map E s).
Proof.
  intros N F E s ND H. split.
  - intros p x Ex. rewrite nth_error_map in Ex. destruct (nth_error s p) as [k|] eqn:Ek; [|discriminate]. injection Ex as <-.
    rewrite (nth_error_nth _ _ _ Ek). apply H. eapply nth_error_In; eauto.
  - intros p q Lp Lq. rewrite map_length in Lp, Lq. apply (proj1 (NoDup_nth s 0%nat)); auto.
Qed.

Lemma marked_at : forall (ls : list (seg RA * bool)) (objs : list (seg RA)) vis x d, length objs = length ls ->
  Permutation ls (map (fun s => (s, false)) vis ++ [(x, true)]) ->
  exists q, nth_error ls q = Some (x, true) /\ nth_error objs q = Some (marked ls objs d).
Proof.
  intros ls objs vis x d LL P. unfold marked.
  assert (F1 : Permutation (filter (fun y : seg RA * bool => snd y) ls) [(x, true)]).
  { rewrite (perm_filter _ _ _ _ P), filter_app. simpl. rewrite filter_none; [reflexivity|]. intros y I. apply in_map_iff in I as (z & <- & _). reflexivity. }
  apply Permutation_sym, Permutation_length_1_inv in F1. clear P. revert objs LL F1.
  induction ls as [|[y b] ls IH]; intros [|o objs] LL F1; try discriminate. cbn [combine filter] in *. cbn [snd] in F1. destruct b.
  - injection F1 as -> F1. exists 0%nat. simpl. auto.
  - destruct (IH objs ltac:(simpl in LL; lia) F1) as (q & A & B). exists (S q). simpl. auto.
Qed.

(** branches never give a loop *)
Lemma branch_no_loop : forall (sch : sched RA) fuel k nv vis akt p r, walk_loop sch fuel k nv vis akt p true <> Ok (Loop r).
Proof.
  intros sch. induction fuel as [|fuel IH]; intros k [|x nv] vis akt p r; cbn [walk_loop]; try discriminate.
  destruct (candidates akt p (it_nv sch k (x :: nv))) as [|nxt more]; [discriminate|]. cbv zeta. cbn [orb].
  destruct (filter _ (ij (w_cur nxt))) as [|p' ?]; [discriminate|].
  destruct (order _) as [[ok poly]|]; [|discriminate]. cbn [bind]. destruct (if ok then isclosed poly else Ok false) as [cl|]; [|discriminate]. cbn [bind negb].
  rewrite andb_false_r. apply IH.
Qed.

(** * Walking along a cycle of edges that run in any directions *)
Section Round.
Variables (n : nat) (u : nat -> pt RA) (E : nat -> seg RA).
Hypothesis n3 : (3 <= n)%nat.
Hypothesis nB : (n < 250)%nat.
Hypothesis sep : forall i j, (i < n)%nat -> (j < n)%nat -> pt_eqb (u i) (u j) = true -> i = j.
Hypothesis EJ : forall t, (t < n)%nat -> joins (u (prv n t), u t) (E t).

Lemma rprv : forall t, (t < n)%nat -> (prv n t < n)%nat /\ prv n t <> t.
Proof. intros [|t] L; simpl; lia. Qed.
Lemma rends : forall t x, (t < n)%nat -> turned x (E t) -> (si x = u (prv n t) /\ sj x = u t) \/ (si x = u t /\ sj x = u (prv n t)).
Proof. intros t x L [-> | ->]; destruct (EJ t L) as [[A B]|[A B]]; simpl in *; auto. Qed.
Lemma ru : forall i j, (i < n)%nat -> (j < n)%nat -> pt_eqb (u i) (u j) = Nat.eqb i j.
Proof.
  intros i j Li Lj. destruct (Nat.eqb_spec i j) as [->|N]; [apply pt_eqb_refl|].
  apply not_true_iff_false. intros H. apply N, sep; auto.
Qed.
Lemma reqb : forall s t x y, (s < n)%nat -> (t < n)%nat -> turned x (E s) -> turned y (E t) -> seg_eqb x y = true -> s = t /\ x = y.
Proof.
  intros s t x y Ls Lt Tx Ty H. unfold seg_eqb in H. apply andb_true_iff in H as [H HJ]. apply andb_true_iff in H as [_ HI].
  pose proof (rprv s Ls) as [P1 P2]. pose proof (rprv t Lt) as [Q1 Q2].
  assert (s = t).
  { destruct (rends s x Ls Tx) as [[A B]|[A B]]; destruct (rends t y Lt Ty) as [[C D]|[C D]]; rewrite A, C in HI; rewrite B, D in HJ;
    apply sep in HI; auto; apply sep in HJ; auto. exfalso. destruct s as [|s], t as [|t]; simpl in *; lia. exfalso. destruct s as [|s], t as [|t]; simpl in *; lia. }
  subst t. split; auto.
  assert (NE : pt_eqb (si (E s)) (sj (E s)) = false /\ pt_eqb (sj (E s)) (si (E s)) = false).
  { destruct (rends s (E s) Ls (or_introl eq_refl)) as [[A B]|[A B]]; rewrite A, B, !ru by auto; split; apply Nat.eqb_neq; auto. }
  destruct Tx as [-> | ->]; destruct Ty as [-> | ->]; auto; simpl in HI; destruct NE; congruence.
Qed.
Lemma rinj : forall s t, (s < n)%nat -> (t < n)%nat -> E s = E t -> s = t.
Proof. intros s t Ls Lt H. apply (reqb s t (E s) (E t)); auto; try (left; reflexivity). rewrite H. apply seg_eqb_refl. Qed.

(** what order() does to the first t + 2 edges *)
Lemma round_order : forall t l, (S (S t) < n)%nat -> Permutation l (map E (seq 0 (S (S t)))) ->
  exists l', order l = Ok (false, l') /\ order_objs l = l' /\ length l' = length l /\
    forall q y, nth_error l q = Some (E (S t)) -> nth_error l' q = Some y -> y = E (S t) \/ (y = seg_reverse (E (S t)) /\ sj y = u (S t)).
Proof.
  intros t l T P. apply Permutation_map_inv in P as (s & -> & P).
  assert (NS : NoDup s) by (apply (Permutation_NoDup P), seq_NoDup).
  assert (IS : forall k, In k s -> (k < S (S t))%nat) by (intros k K; apply (Permutation_in _ (Permutation_sym P)), in_seq in K; lia).
  set (w := fun k => match k with O => u (n - 1)%nat | S k' => u k' end).
  destruct (order_path (S (S t)) w E (fun p => nth p s 0%nat) (map E s)) as (l' & a & E1 & E2 & LL & _ & H).
  - intros [|i] [|j] Li Lj Q; simpl in Q; auto; apply sep in Q; lia.
  - intros [|k] Lk; apply EJ; lia.
  - apply placed_map; auto. intros k K. split; [auto|left; auto].
  - intros Q. apply map_eq_nil in Q. subst s. apply Permutation_sym, Permutation_nil in P. discriminate.
  - rewrite map_length, <- (Permutation_length P), seq_length. lia.
  - exists l'. split; auto. split; auto. split; auto. intros q y Eq Ey.
    destruct (H q y Ey) as (old & Eo & D). rewrite Eq in Eo. injection Eo as <-.
    rewrite nth_error_map in Eq. destruct (nth_error s q) as [k|] eqn:Ek; [|discriminate]. injection Eq as Eq.
    assert (k = S t) by (apply rinj; auto; [apply nth_error_In, IS in Ek|]; lia). subst k.
    rewrite (nth_error_nth _ _ _ Ek) in D. destruct D as [->|(A & [(B & _)|(_ & _ & B)])]; auto.
    exfalso. assert (J : In (nth 0 s 0%nat) s) by (apply nth_In; destruct s; [destruct q; discriminate|simpl; lia]). apply IS in J. lia.
Qed.

Definition rok (t : nat) (nv : list (welt RA)) : Prop :=
  NoDup (map w_id nv) /\
  (forall x, In x nv -> exists s, (s < n)%nat /\ w_key x = E s /\ (w_cur x = E s \/ (w_cur x = seg_reverse (E s) /\ sj (w_cur x) = u s /\ (s <= t)%nat))) /\
  (forall x y, In x nv -> In y nv -> w_key x = w_key y -> x = y) /\
  (forall s, (t < s < n)%nat -> exists x, In x nv /\ w_key x = E s).

Lemma round_candidates : forall t nv it, (S t < n)%nat -> rok t nv -> Permutation it nv ->
  exists nxt, In nxt (candidates (E t) (u t) it) /\ w_key nxt = E (S t) /\ w_cur nxt = E (S t) /\ In nxt nv.
Proof.
  intros t nv it T (ND & OK & UQ & PR) PI.
  destruct (PR (S t) ltac:(lia)) as (nxt & IX & KX). destruct (OK nxt IX) as (s & Ls & Ks & C).
  assert (s = S t) by (apply rinj; auto; congruence). subst s.
  assert (CX : w_cur nxt = E (S t)) by (destruct C as [C|(_ & _ & C)]; [auto|lia]). clear C.
  exists nxt. split; [|auto].
  assert (IT : In nxt it) by (apply (Permutation_in _ (Permutation_sym PI)); auto).
  assert (NQ : seg_eqb (w_cur nxt) (E t) = false).
  { apply not_true_iff_false. intros H. apply (reqb (S t) t) in H; try (left; auto; fail); try lia. }
  unfold candidates. destruct (filter _ it) as [|x l] eqn:EF.
  - apply filter_In. split; auto. rewrite NQ, andb_true_r. rewrite CX.
    destruct (rends (S t) (E (S t)) T (or_introl eq_refl)) as [[A B]|[A B]]; simpl in A, B; rewrite A, B, pt_eqb_refl, ?orb_true_r; reflexivity.
  - rewrite <- EF. assert (J : In x (x :: l)) by (left; auto). rewrite <- EF in J. pose proof J as J'. apply filter_In in J as [Jx Fx].
    apply andb_true_iff in Fx as [Fx Gx]. apply negb_true_iff in Gx.
    assert (Ix : In x nv) by (apply (Permutation_in _ PI); auto). destruct (OK x Ix) as (s & Ls' & Kx & C).
    assert (x = nxt); [|subst x; exact J']. apply UQ; auto. rewrite Kx, KX. f_equal.
    pose proof (rprv s Ls') as [P1 P2].
    destruct C as [C|(C & D & G)].
    + destruct (rends s (E s) Ls' (or_introl eq_refl)) as [[A B]|[A B]]; rewrite C, A in Fx; apply sep in Fx; try lia.
      * destruct s as [|s]; simpl in Fx; lia.
      * subst s. rewrite C, seg_eqb_refl in Gx. discriminate.
    + assert (TX : turned (w_cur x) (E s)) by (rewrite C; apply turned_rev; left; auto).
      destruct (rends s _ Ls' TX) as [[A B]|[A B]].
      * rewrite A in Fx. apply sep in Fx; try lia. destruct s as [|s]; simpl in Fx; lia.
      * rewrite B in D. exfalso. apply P2. apply sep; auto. rewrite D. apply pt_eqb_refl.
Qed.

Lemma ids_inj : forall (nv : list (welt RA)) x y, NoDup (map w_id nv) -> In x nv -> In y nv -> w_id x = w_id y -> x = y.
Proof.
  intros nv x y N Ix Iy H. destruct (In_nth_error _ _ Ix) as [a Ka]. destruct (In_nth_error _ _ Iy) as [b Kb].
  assert (a = b); [|congruence]. apply (proj1 (NoDup_nth_error (map w_id nv)) N).
  - rewrite map_length. apply nth_error_Some. congruence.
  - rewrite !nth_error_map, Ka, Kb. simpl. congruence.
Qed.
Lemma ids_filter : forall (p : welt RA -> bool) nv, NoDup (map w_id nv) -> NoDup (map w_id (filter p nv)).
Proof.
  intros p nv N. induction nv as [|x nv IH]; simpl; [constructor|]. simpl in N. inversion N as [|? ? N1 N2]; subst.
  destruct (p x); auto. simpl. constructor; auto. intros I. apply N1.
  apply in_map_iff in I as (y & <- & I). apply filter_In in I as [I _]. apply in_map; auto.
Qed.

Lemma rok_next : forall t nv nxt c, (S t < n)%nat -> rok t nv -> In nxt nv -> w_key nxt = E (S t) ->
  c = E (S t) \/ (c = seg_reverse (E (S t)) /\ sj c = u (S t)) ->
  rok (S t) (map (fun x => if Nat.eqb (w_id x) (w_id nxt) then mkw (w_id x) (w_key x) c else x) (discard (E t) nv)).
Proof.
  intros t nv nxt c T (ND & OK & UQ & PR) IX KX C.
  set (up := fun x : welt RA => if Nat.eqb (w_id x) (w_id nxt) then mkw (w_id x) (w_key x) c else x).
  assert (UI : forall x, w_id (up x) = w_id x) by (intros x; unfold up; destruct (Nat.eqb _ _); reflexivity).
  assert (UK : forall x, w_key (up x) = w_key x) by (intros x; unfold up; destruct (Nat.eqb _ _); reflexivity).
  split; [|split; [|split]].
  - rewrite map_map, (map_ext _ _ UI). apply ids_filter. exact ND.
  - intros y I. apply in_map_iff in I as (x & <- & I). unfold discard in I. apply filter_In in I as [I _]. rewrite UK.
    destruct (OK x I) as (s & Ls & Kx & Cx). exists s. split; auto. split; auto. unfold up.
    destruct (Nat.eqb_spec (w_id x) (w_id nxt)) as [EI|_].
    + assert (x = nxt) by (eapply ids_inj; eauto). subst x. cbn [w_cur]. assert (s = S t) by (apply rinj; auto; congruence). subst s. destruct C as [C|[C1 C2]]; [left; auto|right; auto].
    + destruct Cx as [|(A & B & G)]; auto.
  - intros y1 y2 I1 I2. apply in_map_iff in I1 as (x1 & <- & I1), I2 as (x2 & <- & I2). rewrite !UK. intros H.
    unfold discard in I1, I2. apply filter_In in I1 as [I1 _], I2 as [I2 _]. f_equal. auto.
  - intros s Ls. destruct (PR s ltac:(lia)) as (x & I & Kx). exists (up x). rewrite UK. split; auto. apply in_map. unfold discard. apply filter_In. split; auto.
    apply negb_true_iff, not_true_iff_false. intros H. apply andb_true_iff in H as [_ H]. destruct (OK x I) as (s' & Ls' & Kx' & Cx).
    assert (s' = s) by (apply rinj; try lia; congruence). subst s'.
    assert (TX : turned (w_cur x) (E s)) by (destruct Cx as [->|(-> & _)]; [left; auto|apply turned_rev; left; auto]).
    apply (reqb s t) in H; try lia; auto. left; auto.
Qed.

Hypothesis FULL : forall l, Permutation l (map E (seq 0 n)) -> exists r, order l = Ok (true, r) /\ isclosed r = Ok true.
Lemma rmemb : forall t, (t < n)%nat -> memb seg_sameb (E t) (map E (seq 0 t)) = false.
Proof.
  intros t L. apply not_true_iff_false. intros M. apply (memb_In _ _ seg_sameb_iff) in M.
  apply in_map_iff in M as (s & H & I). apply in_seq in I. apply rinj in H; lia.
Qed.
Lemma rset_add : forall t vis, (t < n)%nat -> (vis = map E (seq 0 t) \/ (t = 0%nat /\ vis = [E 0])) -> set_add vis (E t) = map E (seq 0 (S t)).
Proof.
  intros t vis L [->|[-> ->]]; unfold set_add.
  - rewrite rmemb, seq_S, map_app by auto. reflexivity.
  - simpl. rewrite (proj2 (seg_sameb_iff _ _) eq_refl). reflexivity.
Qed.

Lemma walk_round : forall sch r, fair sch -> forall d t fuel k nv vis, (t + d + 2 = n)%nat -> rok t nv ->
  (vis = map E (seq 0 t) \/ (t = 0%nat /\ vis = [E 0])) ->
  walk_loop sch fuel k nv vis (E t) (u t) false = Ok (Loop r) ->
  exists l, Permutation l (map E (seq 0 n)) /\ order l = Ok (true, r).
Proof.
  intros sch r [F1 F2]. induction d as [|d IH]; intros t fuel k nv vis T O V W;
  (destruct fuel as [|fuel]; destruct nv as [|w nv'] eqn:ENV; cbn [walk_loop] in W; try discriminate; rewrite <- ENV in *; clear ENV w nv');
  destruct (round_candidates t nv (it_nv sch k nv) ltac:(lia) O (F1 k nv)) as (nxt & IC & KX & CX & IX);
  destruct (candidates (E t) (u t) (it_nv sch k nv)) as [|x more]; [destruct IC| |destruct IC|];
  cbv zeta in W; cbn [orb] in W;
  (destruct (filter _ (ij (w_cur x))) as [|p' ps] eqn:FI in W; [discriminate|]);
  rewrite rset_add in W by (auto; lia);
  (destruct more as [|y more];
   [destruct IC as [->|[]]; rewrite CX in W, FI
   |exfalso; cbn [length Nat.eqb negb] in W;
    (destruct (order _) as [[ok poly]|] in W; [|discriminate]); cbn [bind] in W;
    (destruct (if ok then isclosed poly else Ok false) as [cl|] in W; [|discriminate]); cbn [bind negb] in W;
    rewrite andb_false_r in W; revert W; apply branch_no_loop]);
  set (ls := it_segs sch k (walk_segs (map E (seq 0 (S t))) (E (S t)))) in *;
  assert (PL : Permutation ls (map (fun s => (s, false)) (map E (seq 0 (S t))) ++ [(E (S t), true)])) by
    (unfold ls; rewrite F2; unfold walk_segs; rewrite rmemb by lia; reflexivity);
  assert (PM : Permutation (map fst ls) (map E (seq 0 (S (S t))))) by
    (rewrite (Permutation_map fst PL), map_app, (map_map _ fst), (seq_S (S t) 0), (map_app E); cbn [fst]; rewrite map_id; reflexivity).
  - replace (S (S t)) with n in PM by lia. destruct (FULL _ PM) as (r0 & EO & CL). rewrite EO in W. cbn [bind] in W. rewrite CL in W. cbn in W.
    injection W as <-. exists (map fst ls). auto.
  - destruct (round_order t (map fst ls) ltac:(lia) PM) as (l' & EO & EB & LL & H). rewrite EO in W. cbn [bind andb] in W. cbn [length Nat.eqb negb] in W.
    rewrite EB in W. destruct (marked_at ls l' _ (E (S t)) (E (S t)) ltac:(rewrite LL, map_length; reflexivity) PL) as (q & Q1 & Q2).
    pose proof (H q _ (map_nth_error fst q ls Q1) Q2) as C.
    assert (p' = u (S t)).
    { unfold ij in FI. destruct (rends (S t) (E (S t)) ltac:(lia) (or_introl eq_refl)) as [[A B]|[A B]]; simpl in A, B; cbn [filter] in FI; rewrite A, B in FI;
      rewrite !ru, Nat.eqb_refl in FI by lia; (destruct (Nat.eqb_spec (S t) t) in FI; [lia|]); cbn [negb] in FI; congruence. }
    subst p'. apply (IH (S t) fuel (S k) _ (map E (seq 0 (S t)))) in W; auto; try lia.
    apply rok_next; auto. lia.
Qed.
End Round.

(** * The cycle from one of its segments *)
Lemma round_setup : forall (vs : list (pt RA)) (g cyc : list (seg RA)) a, (3 <= length vs < 250)%nat -> NoDup vs -> separated vs ->
  Forall2 joins (cycle_edges vs) cyc -> Permutation g cyc -> In a g ->
  let n := length vs in
  exists u E, (forall i j, (i < n)%nat -> (j < n)%nat -> pt_eqb (u i) (u j) = true -> i = j) /\
    (forall t, (t < n)%nat -> joins (u (prv n t), u t) (E t)) /\ E 0%nat = a /\ si a = u 0%nat /\ Permutation (map E (seq 0 n)) g.
Proof.
  intros vs g cyc a [N3 NB] ND SEP F2 PC IA n. fold n in N3, NB.
  assert (Lc : length cyc = n) by (rewrite <- (Forall2_len _ _ _ _ _ F2), cycle_edges_length; reflexivity).
  assert (I0 : In a cyc) by (apply (Permutation_in _ PC); auto).
  apply (In_nth _ _ a) in I0 as (m & Lm & Em). rewrite Lc in Lm.
  assert (exists d, In d vs) as (d & _) by (destruct vs as [|d vs'] eqn:EVS; [unfold n in N3; simpl in N3; lia|exists d; left; auto]).
  assert (MB : forall x, (x mod n < n)%nat) by (intros; apply Nat.mod_upper_bound; unfold n; lia).
  set (V := fun x => nth (x mod n) vs d). set (C := fun x => nth (x mod n) cyc a).
  assert (VP : forall x, V (x + n)%nat = V x) by (intros x; unfold V; replace (x + n)%nat with (x + 1 * n)%nat by lia; rewrite Nat.mod_add by lia; reflexivity).
  assert (CV : forall x, joins (V x, V (S x)) (C x)).
  { intros x. assert (K : nth_error cyc (x mod n) = Some (C x)) by (unfold C; apply nth_error_nth'; rewrite Lc; apply MB).
    destruct (nth_error (cycle_edges vs) (x mod n)) as [[p q]|] eqn:EE.
    2:{ apply nth_error_None in EE. rewrite cycle_edges_length in EE. specialize (MB x). fold n in EE. lia. }
    destruct (Forall2_nth_l _ _ _ _ _ F2 _ _ EE) as (s & Es & J). rewrite K in Es. injection Es as <-.
    apply cycle_edges_nth in EE as [K1 K2]. fold n in K2.
    apply (nth_error_nth _ _ d) in K1. apply (nth_error_nth _ _ d) in K2.
    replace (V x) with p by (unfold V; congruence). replace (V (S x)) with q; [exact J|].
    rewrite <- K2. unfold V. f_equal. rewrite <- (Nat.add_1_r x), <- Nat.add_mod_idemp_l by lia. rewrite Nat.add_1_r.
    destruct (Nat.eqb_spec (S (x mod n)) n) as [->|Ne]; [symmetry; apply Nat.mod_same; lia|].
    symmetry; apply Nat.mod_small. specialize (MB x). lia. }
  assert (VJ : forall b a b', (b < a <= b + n)%nat -> (b < b' <= b + n)%nat -> pt_eqb (V a) (V b') = true -> a = b').
  { intros b x y A B H. apply (separated_eqb _ SEP) in H; try (apply nth_In, MB).
    apply (proj1 (NoDup_nth vs d) ND) in H; try apply MB.
    pose proof (Nat.div_mod x n ltac:(lia)) as Da. pose proof (Nat.div_mod y n ltac:(lia)) as Db. rewrite H in Da.
    revert Da Db. generalize (x / n)%nat (y / n)%nat (y mod n)%nat. intros qa qb q Da Db. clear -A B Da Db.
    assert (qa = qb); [|congruence]. destruct (lt_eq_lt_dec qa qb) as [[G|G]|G]; auto; exfalso; nia. }
  assert (Cm : C m = a) by (unfold C; rewrite Nat.mod_small by lia; exact Em).
  assert (IC : forall x, In (C x) cyc) by (intros x; apply nth_In; rewrite Lc; apply MB).
  assert (FIN : forall (u : nat -> pt RA) (E : nat -> seg RA), (forall i j, (i < n)%nat -> (j < n)%nat -> pt_eqb (u i) (u j) = true -> i = j) ->
    (forall t, (t < n)%nat -> joins (u (prv n t), u t) (E t)) -> (forall t, In (E t) cyc) -> Permutation (map E (seq 0 n)) g).
  { intros u E S1 J1 I1. rewrite PC. apply NoDup_Permutation_bis.
    - apply NoDup_map_in; [|apply seq_NoDup]. intros x y Ix Iy H. apply in_seq in Ix, Iy. apply (rinj n u E N3 NB S1 J1); auto; lia.
    - rewrite map_length, seq_length. lia.
    - intros x Ix. apply in_map_iff in Ix as (t & <- & _). apply I1. }
  assert (SW : forall p q (s : seg RA), joins (p, q) s -> joins (q, p) s) by (intros p q s [J|J]; [right|left]; exact J).
  destruct (CV m) as [[A B]|[A B]]; simpl in A, B; rewrite Cm in A, B.
  - exists (fun t => V (m + n - t)%nat), (fun t => C (m + n - t)%nat).
    assert (S1 : forall i j, (i < n)%nat -> (j < n)%nat -> pt_eqb (V (m + n - i)%nat) (V (m + n - j)%nat) = true -> i = j).
    { intros i j Li Lj H. apply (VJ m) in H; lia. }
    assert (J1 : forall t, (t < n)%nat -> joins (V (m + n - prv n t)%nat, V (m + n - t)%nat) (C (m + n - t)%nat)).
    { intros t Lt. apply SW. destruct t as [|t]; simpl prv.
      - replace (V (m + n - (n - 1))%nat) with (V (S (m + n - 0))); [apply CV|]. rewrite <- (VP (m + n - (n - 1))%nat). f_equal. lia.
      - replace (m + n - t)%nat with (S (m + n - S t)) by lia. apply CV. }
    split; [exact S1|]. split; [exact J1|]. split; [|split; [|apply (FIN (fun t => V (m + n - t)%nat)); auto]].
    + rewrite Nat.sub_0_r. unfold C. replace (m + n)%nat with (m + 1 * n)%nat by lia. rewrite Nat.mod_add by lia. exact Cm.
    + rewrite Nat.sub_0_r, VP. exact A.
  - exists (fun t => V (S m + t)%nat), (fun t => C (m + t)%nat).
    assert (S1 : forall i j, (i < n)%nat -> (j < n)%nat -> pt_eqb (V (S m + i)%nat) (V (S m + j)%nat) = true -> i = j).
    { intros i j Li Lj H. apply (VJ m) in H; lia. }
    assert (J1 : forall t, (t < n)%nat -> joins (V (S m + prv n t)%nat, V (S m + t)%nat) (C (m + t)%nat)).
    { intros t Lt. destruct t as [|t]; simpl prv.
      - replace (V (S m + (n - 1))%nat) with (V (m + 0)%nat); [replace (S m + 0)%nat with (S (m + 0)) by lia; apply CV|].
        rewrite <- (VP (m + 0)%nat). f_equal. lia.
      - replace (S m + t)%nat with (m + S t)%nat by lia. replace (S m + S t)%nat with (S (m + S t)) by lia. apply CV. }
    split; [exact S1|]. split; [exact J1|]. split; [|split; [|apply (FIN (fun t => V (S m + t)%nat)); auto]].
    + rewrite Nat.add_0_r. exact Cm.
    + rewrite Nat.add_0_r. exact A.
Qed.

Lemma nv_facts : forall g : list (seg RA), map w_cur (nv_init g) = dedup seg_sameb g /\
  (forall x, In x (nv_init g) -> w_key x = w_cur x) /\ NoDup (map w_id (nv_init g)).
Proof.
  intros g. unfold nv_init. generalize (dedup seg_sameb g) as l. intros l. split; [|split].
  - rewrite map_map. rewrite <- (number_snd _ l 0) at 2. apply map_ext. intros [k s]. reflexivity.
  - intros x I. apply in_map_iff in I as ([k s] & <- & _). reflexivity.
  - rewrite map_map. assert (H : forall (l : list (seg RA)) k, map (fun x => w_id (let '(k, s) := x in mkw k s s)) (number k l) = seq k (length l)).
    { induction l0 as [|x l0 IH]; intros k; simpl; f_equal; auto. }
    rewrite H. apply seq_NoDup.
Qed.
Lemma in_ends : forall (l : list (seg RA)) s, In s l -> In (si s) (flat_map ij l) /\ In (sj s) (flat_map ij l).
Proof. intros l s I. split; apply in_flat_map; exists s; (split; [auto|]); unfold ij; simpl; auto. Qed.
Lemma ring_ends : forall (vs : list (pt RA)) (g cyc : list (seg RA)), Forall2 joins (cycle_edges vs) cyc -> Permutation g cyc ->
  forall s, In s g -> In (si s) vs /\ In (sj s) vs.
Proof.
  intros vs g cyc F2 PC s I. apply (Permutation_in _ PC) in I. apply In_nth_error in I as [k K].
  destruct (nth_error (cycle_edges vs) k) as [[p q]|] eqn:EE.
  2:{ apply nth_error_None in EE. rewrite (Forall2_len _ _ _ _ _ F2) in EE. apply nth_error_None in EE. congruence. }
  destruct (Forall2_nth_l _ _ _ _ _ F2 _ _ EE) as (s' & Es & J). rewrite K in Es. injection Es as <-.
  apply cycle_edges_nth in EE as [K1 K2]. apply nth_error_In in K1, K2. destruct J as [[-> ->]|[-> ->]]; simpl; auto.
Qed.

(** what walking along the segments of a single cycle returns *)
Lemma first_loop : forall (vs : list (pt RA)) (g cyc : list (seg RA)) sch wf r, (3 <= length vs < 250)%nat -> NoDup vs -> separated vs ->
  Forall2 joins (cycle_edges vs) cyc -> Permutation g cyc -> fair sch -> walk_segments sch wf g None = Ok (Loop r) ->
  exists l, Permutation l g /\ order l = Ok (true, r).
Proof.
  intros vs g cyc sch wf r [N3 NB] ND SEP F2 PC F W. unfold walk_segments in W. destruct g as [|s0 rest] eqn:EG; [discriminate|].
  cbn [get nth_error bind] in W. rewrite <- EG in *. set (it := it_nv sch 0 (nv_init g)) in *.
  assert (PI : Permutation it (nv_init g)) by apply F.
  destruct (nv_facts g) as (NI1 & NI2 & NI3).
  destruct (filter (fun x => pt_eqb (si s0) (si (w_cur x))) it) as [|akt more] eqn:EF; [discriminate|].
  assert (K : In akt (akt :: more)) by (left; auto). rewrite <- EF in K. apply filter_In in K as [K1 K2].
  assert (IA : In (w_cur akt) g) by (apply nv_init_in, (Permutation_in _ PI); auto).
  assert (I0 : In s0 g) by (rewrite EG; left; auto).
  pose proof (ring_ends vs g cyc F2 PC) as RE.
  apply (separated_eqb _ SEP) in K2; try apply RE; auto.
  destruct (round_setup vs g cyc (w_cur akt) (conj N3 NB) ND SEP F2 PC IA) as (u & E & sep & EJ & E0 & U0 & P). set (n := length vs) in *.
  rewrite K2, U0 in W. rewrite <- E0 in W.
  assert (NG : NoDup g).
  { apply (Permutation_NoDup P). apply NoDup_map_in; [|apply seq_NoDup]. intros a b Ia Ib H. apply in_seq in Ia, Ib. apply (rinj n u E N3 NB sep EJ); auto; lia. }
  assert (PD : Permutation (map w_cur (nv_init g)) g) by (rewrite NI1; apply dedup_perm; auto).
  assert (FULL : forall l, Permutation l (map E (seq 0 n)) -> exists r, order l = Ok (true, r) /\ isclosed r = Ok true).
  { intros l PL. destruct (order_spec vs l cyc) as (us & r0 & EO & _ & _ & _ & _ & CL & _); auto; [rewrite PL, P; auto|]. exists r0. auto. }
  assert (O0 : rok n u E 0 (nv_init g)).
  { split; [exact NI3|]. split; [|split].
    - intros x Ix. pose proof (nv_init_in RA g x Ix) as J. apply (Permutation_in _ (Permutation_sym P)) in J. apply in_map_iff in J as (s & Es & Is).
      apply in_seq in Is. exists s. split; [lia|]. rewrite (NI2 x Ix). split; [congruence|left; congruence].
    - intros x y Ix Iy H. rewrite (NI2 x Ix), (NI2 y Iy) in H.
      assert (NW : NoDup (map w_cur (nv_init g))) by (apply (Permutation_NoDup (Permutation_sym PD)); auto).
      destruct (In_nth_error _ _ Ix) as [a Ka]. destruct (In_nth_error _ _ Iy) as [b Kb].
      assert (a = b); [|congruence]. apply (proj1 (NoDup_nth_error _) NW).
      + rewrite map_length. apply nth_error_Some. congruence.
      + rewrite !nth_error_map, Ka, Kb. simpl. congruence.
    - intros s Ls. assert (J : In (E s) g) by (apply (Permutation_in _ P), in_map, in_seq; lia).
      apply (Permutation_in _ (Permutation_sym PD)) in J. apply in_map_iff in J as (x & Ex & Ix). exists x. split; auto. rewrite (NI2 x Ix). exact Ex. }
  destruct (walk_round n u E N3 NB sep EJ FULL sch r F (n - 2) 0 wf 1 (nv_init g) [E 0%nat] ltac:(lia) O0 (or_intror (conj eq_refl eq_refl)) W) as (l & PL & EO).
  exists l. split; auto. rewrite PL. exact P.
Qed.

Lemma nth_error_ext' : forall X (a b : list X), (forall q, nth_error a q = nth_error b q) -> a = b.
Proof.
  induction a as [|x a IH]; intros [|y b] H; auto; try (specialize (H 0%nat); discriminate).
  pose proof (H 0%nat) as H0. injection H0 as ->. f_equal. apply IH. intros q. apply (H (S q)).
Qed.
(** * Walking along segments of an open path that all run the same way *)
Lemma indices_of : forall N (F : nat -> seg RA) l, NoDup l -> (forall x, In x l -> exists s, (s < N)%nat /\ x = F s) ->
  exists s, l = map F s /\ NoDup s /\ forall k, In k s -> (k < N)%nat.
Proof.
  intros N F. induction l as [|x l IH]; intros ND H.
  - exists []. split; auto. split; [constructor|intros k []].
  - inversion ND as [|? ? N1 N2]; subst. destruct (IH N2) as (s & -> & NS & LS); [intros; apply H; right; auto|].
    destruct (H x (or_introl eq_refl)) as (k & Lk & ->). exists (k :: s). split; auto. split.
    + constructor; auto. intros I. apply N1. apply in_map; auto.
    + intros j [<-|J]; auto.
Qed.
Lemma marked_same : forall (ls : list (seg RA * bool)) d, (forall x, In (x, true) ls -> x = d) -> marked ls (map fst ls) d = d.
Proof.
  intros ls d H. unfold marked. destruct (filter _ (combine (map fst ls) ls)) as [|[s y] r] eqn:EF; auto.
  assert (J : In (s, y) ((s, y) :: r)) by (left; auto). rewrite <- EF in J. apply filter_In in J as [J T]. destruct y as [z b]. subst b.
  apply H. clear EF H. induction ls as [|[a c] ls IH]; simpl in J; [destruct J|]. destruct J as [J|J]; [injection J as <- <- <-; left; auto|right; auto].
Qed.

Section Open.
Variables (N : nat) (w : nat -> pt RA) (F : nat -> seg RA).
Hypothesis NB : (N < 250)%nat.
Hypothesis sepw : forall i j, (i <= N)%nat -> (j <= N)%nat -> pt_eqb (w i) (w j) = true -> i = j.
Hypothesis Fi : forall t, (t < N)%nat -> si (F t) = w t.
Hypothesis Fj : forall t, (t < N)%nat -> sj (F t) = w (S t).

Definition ofF (x : seg RA) : Prop := exists s, (s < N)%nat /\ x = F s.
Lemma open_order : forall l, l <> [] -> NoDup l -> (forall x, In x l -> ofF x) -> order l = Ok (false, l) /\ order_objs l = l.
Proof.
  intros l NE ND H. destruct (indices_of N F l ND H) as (s & -> & NS & LS).
  destruct (order_path N w F (fun p => nth p s 0%nat) (map F s)) as (l' & a & E1 & E2 & LL & EA & Q); auto.
  - intros t Lt. left. simpl. split; auto.
  - apply placed_map; auto. intros k K. split; [auto|left; auto].
  - rewrite map_length. assert (length s <= length (seq 0 N))%nat; [|rewrite seq_length in *; lia]. apply NoDup_incl_length; auto.
    intros k K. apply in_seq. specialize (LS k K). lia.
  - assert (EL' : l' = map F s).
    { apply nth_error_ext'. intros q. destruct (nth_error l' q) as [y|] eqn:Ey.
      - destruct (Q q y Ey) as (old & Eo & [->|(A & B)]); [auto|]. exfalso.
        assert (AT : forall p x, nth_error (map F s) p = Some x -> (nth p s 0 < N)%nat /\ x = F (nth p s 0%nat)).
        { intros p x Ex. rewrite nth_error_map in Ex. destruct (nth_error s p) as [k|] eqn:Ek; [|discriminate]. injection Ex as <-.
          rewrite (nth_error_nth _ _ _ Ek). split; auto. apply LS. eapply nth_error_In; eauto. }
        destruct (AT _ _ Eo) as [L1 E3]. destruct (AT _ _ EA) as [L2 E4]. rewrite A, E3, E4 in B. simpl in B. rewrite Fi, Fj in B by auto.
        destruct B as [[B _]|(_ & B & _)].
        + assert (X : nth q s 0%nat = S (nth q s 0%nat)) by (apply sepw; try lia; rewrite B; apply pt_eqb_refl). lia.
        + assert (X : S (nth 0 s 0%nat) = nth 0 s 0%nat) by (apply sepw; try lia; rewrite B; apply pt_eqb_refl). lia.
      - apply nth_error_None in Ey. rewrite LL in Ey. symmetry. apply nth_error_None. exact Ey. }
    split; congruence.
Qed.

Lemma open_walk : forall sch, fair sch -> forall fuel k nv vis a p, (forall x, In x nv -> w_key x = w_cur x /\ ofF (w_cur x)) ->
  NoDup (map w_id nv) -> NoDup vis -> (forall x, In x vis -> ofF x) -> In a nv -> p = si (w_cur a) \/ p = sj (w_cur a) -> (length nv <= fuel)%nat ->
  forall b, walk_loop sch fuel k nv vis (w_cur a) p b = Ok NoLoop.
Proof.
  intros sch [F1 F2]. induction fuel as [|fuel IH]; intros k nv vis a p HN NI NV HV IA HP LF b;
    (destruct nv as [|x0 nv0] eqn:ENV; [destruct IA|]); [simpl in LF; lia|]. cbn [walk_loop]. rewrite <- ENV in *. clear ENV x0 nv0.
  destruct (candidates (w_cur a) p (it_nv sch k nv)) as [|nxt more] eqn:EC; [reflexivity|]. cbv zeta.
  assert (CN : In nxt nv /\ seg_eqb (w_cur nxt) (w_cur a) = false /\ (p = si (w_cur nxt) \/ p = sj (w_cur nxt))).
  { assert (J : In nxt (nxt :: more)) by (left; auto). rewrite <- EC in J. unfold candidates in J.
    assert (G : In nxt (it_nv sch k nv) /\ negb (seg_eqb (w_cur nxt) (w_cur a)) = true /\ (pt_eqb p (si (w_cur nxt)) = true \/ pt_eqb p (sj (w_cur nxt)) = true)).
    { destruct (filter _ (it_nv sch k nv)) as [|x l] eqn:EF.
      - apply filter_In in J as [J1 J2]. apply andb_true_iff in J2 as [J2 J3]. apply orb_true_iff in J2. auto.
      - rewrite <- EF in J. apply filter_In in J as [J1 J2]. apply andb_true_iff in J2 as [J2 J3]. auto. }
    destruct G as (G1 & G2 & G3). apply (Permutation_in _ (F1 k nv)) in G1. split; auto. apply negb_true_iff in G2. split; auto.
    destruct (HN a IA) as [_ (s & Ls & Es)]. destruct (HN nxt G1) as [_ (t & Lt & Et)]. rewrite Es, Et in *. rewrite Fi, Fj in * by auto.
    destruct HP as [-> | ->]; destruct G3 as [G3|G3]; apply sepw in G3; try lia; rewrite G3; auto. }
  destruct CN as (IX & NQ & TP). destruct (HN nxt IX) as [_ (t & Lt & Et)].
  assert (NS : forall p', In p' (filter (fun x => negb (pt_eqb x p)) (ij (w_cur nxt))) -> p' = si (w_cur nxt) \/ p' = sj (w_cur nxt)).
  { intros p' I. apply filter_In in I as [I _]. destruct I as [<-|[<-|[]]]; auto. }
  destruct (filter (fun x => negb (pt_eqb x p)) (ij (w_cur nxt))) as [|p' ps] eqn:EP.
  { exfalso. unfold ij in EP. cbn [filter] in EP. rewrite Et, Fi, Fj in EP, TP by auto.
    destruct (pt_eqb (w t) p) eqn:Q1; cbn [negb] in EP; [|discriminate]. destruct (pt_eqb (w (S t)) p) eqn:Q2; cbn [negb] in EP; [|discriminate].
    destruct TP as [-> | ->]; [apply sepw in Q2|apply sepw in Q1]; lia. }
  specialize (NS p' (or_introl eq_refl)).
  set (vis' := set_add vis (w_cur a)). set (ls := it_segs sch k (walk_segs vis' (w_cur nxt))).
  assert (NV' : NoDup vis' /\ forall x, In x vis' -> ofF x).
  { unfold vis', set_add. destruct (memb seg_sameb (w_cur a) vis) eqn:M; [auto|]. split.
    - apply (Permutation_NoDup (Permutation_cons_append vis (w_cur a))). constructor; auto. intros I.
      apply (memb_In _ _ seg_sameb_iff) in I. congruence.
    - intros x I. apply in_app_iff in I as [I|[<-|[]]]; auto. apply HN; auto. }
  destruct NV' as [NV' HV'].
  assert (PL : Permutation ls (walk_segs vis' (w_cur nxt))) by apply F2.
  assert (EW : map fst (walk_segs vis' (w_cur nxt)) = set_add vis' (w_cur nxt)).
  { unfold walk_segs, set_add. rewrite map_app, (map_map _ fst). cbn [fst]. rewrite map_id. destruct (memb _ _ _); simpl; [apply app_nil_r|reflexivity]. }
  assert (NS2 : NoDup (set_add vis' (w_cur nxt)) /\ (forall x, In x (set_add vis' (w_cur nxt)) -> ofF x) /\ set_add vis' (w_cur nxt) <> []).
  { unfold set_add. destruct (memb seg_sameb (w_cur nxt) vis') eqn:M.
    - split; [auto|]. split; [auto|]. intros Q. rewrite Q in M. discriminate.
    - split; [|split; [|destruct vis'; discriminate]].
      + apply (Permutation_NoDup (Permutation_cons_append vis' (w_cur nxt))). constructor; auto. intros I. apply (memb_In _ _ seg_sameb_iff) in I. congruence.
      + intros x I. apply in_app_iff in I as [I|[<-|[]]]; auto. apply HN; auto. }
  destruct NS2 as (NS2 & HS2 & NE2). rewrite <- EW in NS2, HS2, NE2.
  destruct (open_order (map fst ls)) as [EO EB].
  { intros Q. apply NE2. apply (Permutation_map fst) in PL. rewrite Q in PL. apply Permutation_nil in PL. exact PL. }
  { apply (Permutation_NoDup (Permutation_sym (Permutation_map fst PL))). exact NS2. }
  { intros x I. apply HS2. apply (Permutation_in _ (Permutation_map fst PL)). exact I. }
  rewrite EO. cbn [bind andb]. rewrite EB, marked_same.
  2:{ intros x I. apply (Permutation_in _ PL) in I. unfold walk_segs in I. apply in_app_iff in I as [I|I].
      - apply in_map_iff in I as (z & Q & _). discriminate.
      - destruct (memb _ _ _) in I; [destruct I|]. destruct I as [Q|[]]. congruence. }
  assert (EM : map (fun x => if Nat.eqb (w_id x) (w_id nxt) then mkw (w_id x) (w_key x) (w_cur nxt) else x) (discard (w_cur a) nv) = discard (w_cur a) nv).
  { rewrite <- (map_id (discard (w_cur a) nv)) at 2. apply map_ext_in. intros x I. unfold discard in I. apply filter_In in I as [I _].
    destruct (Nat.eqb_spec (w_id x) (w_id nxt)) as [EI|]; auto. assert (x = nxt) by (eapply ids_inj; eauto). subst x. destruct nxt; reflexivity. }
  rewrite EM. apply IH; auto.
  - intros x I. unfold discard in I. apply filter_In in I as [I _]. auto.
  - apply ids_filter; auto.
  - unfold discard. apply filter_In. split; auto. rewrite NQ, andb_false_r. reflexivity.
  - assert (LD : (length (discard (w_cur a) nv) < length nv)%nat); [|lia].
    destruct (in_split a nv IA) as (l1 & l2 & ->). unfold discard. rewrite filter_app, !app_length. cbn [filter].
    destruct (HN a IA) as [KA _]. rewrite KA, seg_eqb_refl.
    unfold same_hash. rewrite !(proj2 (pt_sameb_iff _ _) eq_refl). cbn [andb negb length].
    assert (LE : forall q (l : list (welt RA)), (length (filter q l) <= length l)%nat) by (intros q; induction l as [|y l IHl]; simpl; auto; destruct (q y); simpl; lia).
    pose proof (LE (fun x => negb (pt_sameb (si (w_key x)) (si (w_cur a)) && pt_sameb (sj (w_key x)) (sj (w_cur a)) && seg_eqb (w_cur x) (w_cur a))) l1).
    pose proof (LE (fun x => negb (pt_sameb (si (w_key x)) (si (w_cur a)) && pt_sameb (sj (w_key x)) (sj (w_cur a)) && seg_eqb (w_cur x) (w_cur a))) l2). lia.
Qed.

Lemma dedup_le : forall l : list (seg RA), (length (dedup seg_sameb l) <= length l)%nat.
Proof.
  intros l. apply NoDup_incl_length.
  - apply dedup_NoDup. apply seg_sameb_iff.
  - intros x I. apply (proj1 (dedup_In _ _ seg_sameb_iff l x) I).
Qed.
Lemma open_segments : forall sch wf G, fair sch -> G <> [] -> (forall x, In x G -> ofF x) -> (length G <= wf)%nat -> walk_segments sch wf G None = Ok NoLoop.
Proof.
  intros sch wf G FS NE HG LW. unfold walk_segments. destruct G as [|s0 rest] eqn:EG; [congruence|]. cbn [get nth_error bind]. rewrite <- EG in *.
  destruct (nv_facts G) as (NI1 & NI2 & NI3). set (it := it_nv sch 0 (nv_init G)).
  assert (PI : Permutation it (nv_init G)) by apply FS.
  destruct (filter (fun x => pt_eqb (si s0) (si (w_cur x))) it) as [|akt more] eqn:EF.
  - exfalso. assert (I0 : In s0 (map w_cur it)).
    { apply (Permutation_in _ (Permutation_sym (Permutation_map w_cur PI))). rewrite NI1. apply dedup_In; [apply seg_sameb_iff|]. rewrite EG. left; auto. }
    apply in_map_iff in I0 as (x & Ew & Iw).
    assert (K : In x (filter (fun x => pt_eqb (si s0) (si (w_cur x))) it)) by (apply filter_In; split; auto; rewrite Ew; apply pt_eqb_refl).
    rewrite EF in K. destruct K.
  - assert (K : In akt (akt :: more)) by (left; auto). rewrite <- EF in K. apply filter_In in K as [K1 K2]. apply (Permutation_in _ PI) in K1.
    assert (OA : ofF (w_cur akt)) by (apply HG, nv_init_in; auto).
    assert (O0 : ofF s0) by (apply HG; rewrite EG; left; auto).
    apply (open_walk sch FS wf 1 (nv_init G) [w_cur akt] akt); auto.
    + intros x I. split; [apply NI2; auto|]. apply HG, nv_init_in; auto.
    + constructor; [intros []|constructor].
    + intros x [<-|[]]. exact OA.
    + left. destruct OA as (s & Ls & Es), O0 as (t & Lt & Et). rewrite Es, Et in *. rewrite Fi, Fi in * by auto. apply sepw in K2; try lia. congruence.
    + rewrite <- (map_length w_cur), NI1. pose proof (dedup_le G). lia.
Qed.

(** no combination of such segments is closed *)
Lemma top_in : forall s : list nat, s <> [] -> exists m, In m s /\ forall k, In k s -> (k <= m)%nat.
Proof.
  induction s as [|x s IH]; intros NE; [congruence|]. destruct s as [|y s].
  - exists x. split; [left; auto|]. intros k [<-|[]]. lia.
  - destruct IH as (m & M & H); [discriminate|]. destruct (le_lt_dec x m).
    + exists m. split; [right; auto|]. intros k [<-|K]; auto.
    + exists x. split; [left; auto|]. intros k [<-|K]; auto. specialize (H k K). lia.
Qed.
Lemma open_twice : forall l, l <> [] -> NoDup l -> (forall x, In x l -> ofF x) -> twice l = false.
Proof.
  intros l NE ND H. destruct (indices_of N F l ND H) as (s & -> & NS & LS). apply not_true_iff_false. intros TW.
  destruct (top_in s) as (m & IM & MX); [intros Q; apply NE; rewrite Q; reflexivity|].
  pose proof (proj1 (twice_iff _) TW (w (S m))) as C.
  assert (IE : In (w (S m)) (flat_map ij (map F s))).
  { rewrite <- (Fj m) by auto. apply in_ends. apply in_map; auto. }
  specialize (C IE). unfold count in C.
  assert (Z : forall s', NoDup s' -> (forall k, In k s' -> (k < N)%nat /\ (k <= m)%nat) -> (length (filter (pt_sameb (w (S m))) (flat_map ij (map F s'))) <= (if in_dec Nat.eq_dec m s' then 1 else 0))%nat).
  { induction s' as [|k s' IH]; intros N' H'; [simpl; lia|]. inversion N' as [|? ? N1 N2]; subst. cbn [map flat_map]. rewrite filter_app, app_length.
    specialize (IH N2 ltac:(intros; apply H'; right; auto)). destruct (H' k (or_introl eq_refl)) as [Lk Mk].
    assert (NI : forall i, (i <= N)%nat -> i <> S m -> pt_sameb (w (S m)) (w i) = false).
    { intros i Li Ne. apply not_true_iff_false. intros Q. apply pt_sameb_iff in Q. apply Ne. symmetry. apply sepw; auto; [specialize (LS m IM); lia|]. rewrite Q. apply pt_eqb_refl. }
    change (ij (F k)) with [si (F k); sj (F k)]. cbn [filter]. rewrite Fi, Fj by auto. rewrite (NI k) by lia. destruct (Nat.eq_dec k m) as [->|NK].
    - rewrite (proj2 (pt_sameb_iff _ _) eq_refl). cbn [length]. destruct (in_dec Nat.eq_dec m s') in IH; [contradiction|].
      destruct (in_dec Nat.eq_dec m (m :: s')) as [|X]; [lia|exfalso; apply X; left; auto].
    - rewrite (NI (S k)) by lia. cbn [length]. destruct (in_dec Nat.eq_dec m s') in IH; destruct (in_dec Nat.eq_dec m (k :: s')) as [|X]; try lia.
      exfalso. apply X. right; auto. }
  specialize (Z s NS). destruct (in_dec Nat.eq_dec m s) in Z; [|contradiction]. specialize (Z ltac:(intros k K; split; auto)). lia.
Qed.
End Open.

(** * find_loops *)
Lemma ring_length : forall (vs : list (pt RA)) (g cyc : list (seg RA)), Forall2 joins (cycle_edges vs) cyc -> Permutation g cyc -> length vs = length g.
Proof. intros vs g cyc F2 PC. rewrite (Permutation_length PC), <- (Forall2_len _ _ _ _ _ F2), cycle_edges_length. reflexivity. Qed.
Lemma ring_perm : forall g l, ring g -> Permutation l g -> ring l.
Proof. intros g l (vs & cyc & N3 & ND & SEP & F2 & PC) P. exists vs, cyc. repeat (split; auto). rewrite P. exact PC. Qed.
Lemma ring_simple : forall g, ring g -> (length g < 250)%nat -> simple_graph g.
Proof.
  intros g (vs & cyc & N3 & ND & SEP & F2 & PC) LB. pose proof (ring_length _ _ _ F2 PC) as LV.
  assert (exists a, In a g) as (a & IA) by (destruct g as [|a g']; [simpl in LV; lia|exists a; left; auto]).
  destruct (round_setup vs g cyc a ltac:(lia) ND SEP F2 PC IA) as (u & E & sep & EJ & _ & _ & P). set (n := length vs) in *.
  assert (AT : forall s, In s g -> exists t, (t < n)%nat /\ s = E t).
  { intros s I. apply (Permutation_in _ (Permutation_sym P)) in I. apply in_map_iff in I as (t & <- & I). apply in_seq in I. exists t. split; auto. lia. }
  assert (NG : NoDup g).
  { apply (Permutation_NoDup P). apply NoDup_map_in; [|apply seq_NoDup]. intros x y Ix Iy H. apply in_seq in Ix, Iy. apply (rinj n u E N3 ltac:(lia) sep EJ); auto; lia. }
  assert (UE : forall i j, (i < n)%nat -> (j < n)%nat -> u i = u j -> i = j) by (intros i j Li Lj H; apply sep; auto; rewrite H; apply pt_eqb_refl).
  split; [|split].
  - intros p q Ip Iq. apply in_flat_map in Ip as (s & Is & Ip), Iq as (t & It & Iq).
    pose proof (ring_ends vs g cyc F2 PC s Is) as [A1 A2]. pose proof (ring_ends vs g cyc F2 PC t It) as [B1 B2].
    apply SEP; [destruct Ip as [<-|[<-|[]]]; auto|destruct Iq as [<-|[<-|[]]]; auto].
  - intros s I. destruct (AT s I) as (t & Lt & ->). destruct (rprv n N3 ltac:(lia) t Lt) as [P1 P2].
    destruct (rends n u E EJ t (E t) Lt (or_introl eq_refl)) as [[-> ->]|[-> ->]]; intros H; apply UE in H; auto.
  - intros i j s t Ei Ej H. destruct (AT s (nth_error_In _ _ Ei)) as (a1 & L1 & E1). destruct (AT t (nth_error_In _ _ Ej)) as (b1 & L2 & E2).
    destruct (rprv n N3 ltac:(lia) a1 L1) as [P1 P2]. destruct (rprv n N3 ltac:(lia) b1 L2) as [Q1 Q2].
    assert (a1 = b1).
    { subst s t. destruct (rends n u E EJ a1 (E a1) L1 (or_introl eq_refl)) as [[A B]|[A B]]; destruct (rends n u E EJ b1 (E b1) L2 (or_introl eq_refl)) as [[C D]|[C D]];
      rewrite A, B, C, D in H; destruct H as [[H1 H2]|[H1 H2]]; apply UE in H1; auto; apply UE in H2; auto; exfalso; clear - N3 H1 H2 P2 Q2 L1 L2; destruct a1 as [|a1], b1 as [|b1]; simpl in *; lia. }
    apply (proj1 (NoDup_nth_error g) NG); [apply nth_error_Some; congruence|]. congruence.
Qed.
Lemma ring_twice : forall g, ring g -> (length g < 250)%nat -> twice g = true.
Proof.
  intros g R LB. pose proof (ring_simple g R LB) as (_ & NZ & _). destruct R as (vs & cy & N3 & ND & SEP & F2 & PC).
  assert (V : value cy (seq 0 (length cy)) = cy) by (apply (value_seq cy [])).
  assert (CY : cyc cy vs (seq 0 (length cy))).
  { split; auto. split; auto. split; [apply seq_NoDup|]. split; [intros k K; apply in_seq in K; lia|]. rewrite V. exact F2. }
  pose proof (cyc_twice _ _ _ CY) as TW. rewrite V in TW.
  specialize (TW ltac:(intros s I; apply NZ, (Permutation_in _ (Permutation_sym PC)); auto)).
  pose proof (proj1 (twice_iff _) TW) as Q. apply twice_iff. intros p Ip.
  pose proof (Permutation_flat_map ij PC) as PF.
  unfold count in *. rewrite (Permutation_length (perm_filter _ (pt_sameb p) _ _ PF)). apply Q. apply (Permutation_in _ PF). exact Ip.
Qed.

(** what order() makes of it *)
Lemma loop_facts : forall g l r, ring g -> (length g < 250)%nat -> Permutation l g -> order l = Ok (true, r) ->
  rearranged r g /\ isclosed r = Ok true /\
  (exists us, length us = length g /\ NoDup us /\ separated us /\ map (fun s => (si s, sj s)) r = cycle_edges us) /\
  exists a, In a g /\ In a r.
Proof.
  intros g l r RG LB PL EO. pose proof RG as (vs & cyc & N3 & ND & SEP & F2 & PC).
  pose proof (ring_length _ _ _ F2 PC) as LV.
  destruct (order_spec vs l cyc) as (us & r0 & EO' & RR & PU & EE & _ & CL & _); auto; [lia|rewrite PL; auto|].
  rewrite EO in EO'. injection EO' as <-. split.
  { destruct RR as (g' & P & F). exists g'. split; auto. rewrite P. exact PL. }
  split; auto. split.
  { exists us. split; [rewrite (Permutation_length PU); auto|]. split; [apply (Permutation_NoDup (Permutation_sym PU)); auto|]. split; auto.
    intros p q Ip Iq. apply SEP; apply (Permutation_in _ PU); auto. }
  pose proof (ring_perm g l RG PL) as RL. assert (LL : (length l < 250)%nat) by (rewrite (Permutation_length PL); auto).
  pose proof (ring_simple l RL LL) as (S1 & S2 & S3).
  destruct (component_order l) as (us' & r' & EO' & _ & _ & _ & _ & FI); auto.
  { split; auto. }
  { apply ring_twice; auto. }
  { intros ->. apply Permutation_nil in PL. subst g. simpl in LV. lia. }
  rewrite EO in EO'. injection EO' as <-. destruct l as [|a l'].
  - apply Permutation_nil in PL. subst g. simpl in LV. lia.
  - exists a. split; [apply (Permutation_in _ PL); left; auto|]. apply FI. reflexivity.
Qed.
Lemma either_way : forall (r g : list (seg RA)) s, rearranged r g -> In s g -> In s r \/ In (seg_reverse s) r.
Proof.
  intros r g s (g' & P & F) I. apply (Permutation_in _ (Permutation_sym P)) in I. apply In_nth_error in I as [k K].
  assert (K' : exists t, nth_error r k = Some t).
  { destruct (nth_error r k) as [t|] eqn:E; [eauto|]. apply nth_error_None in E. rewrite (Forall2_len _ _ _ _ _ F) in E. apply nth_error_None in E. congruence. }
  destruct K' as (t & Et). destruct (Forall2_nth_l _ _ _ _ _ F k t Et) as (s' & Es & T). rewrite K in Es. injection Es as <-.
  apply nth_error_In in Et. destruct T as [-> | ->]; auto.
Qed.
Lemma rev_rev : forall s : seg RA, seg_reverse (seg_reverse s) = s.
Proof. intros [c i j]. reflexivity. Qed.

(** the segments that run the other way form an open path *)
Lemma others_path : forall g r, ring g -> (length g < 250)%nat -> rearranged r g ->
  (exists us, length us = length g /\ NoDup us /\ separated us /\ map (fun s => (si s, sj s)) r = cycle_edges us) -> (exists a, In a g /\ In a r) ->
  exists N w F, (N < 250)%nat /\ (forall i j, (i <= N)%nat -> (j <= N)%nat -> pt_eqb (w i) (w j) = true -> i = j) /\
    (forall t, (t < N)%nat -> si (F t) = w t) /\ (forall t, (t < N)%nat -> sj (F t) = w (S t)) /\
    (forall s, In s g -> ~ In s r -> ofF N F s).
Proof.
  intros g r RG LB RR (us & LU & NU & SU & EE) (a & IG & IR). pose proof (ring_simple g RG LB) as (_ & NZ & SI).
  pose proof RG as (vs & cyc & N3 & _ & _ & F2 & PC). pose proof (ring_length _ _ _ F2 PC) as LV.
  destruct (in_split a r IR) as (r1 & r2 & ER).
  assert (PR : Permutation (a :: r1 ++ r2) r) by (rewrite ER; apply Permutation_middle).
  destruct (back_setup us (a :: r1 ++ r2) a (r1 ++ r2)) as (u & E & Ei & E0 & ES & sep & Ea & P); auto; [lia|exists r; split; auto|].
  set (n := length us) in *. exists (n - 1)%nat, u, (fun t => seg_reverse (E (S t))). split; [lia|]. split; [intros i j Li Lj; apply sep; lia|].
  split; [intros t Lt; simpl; apply ES; lia|]. split; [intros t Lt; simpl; apply Ei; lia|].
  intros s Is Ns. destruct (either_way r g s RR Is) as [X|X]; [contradiction|].
  apply (Permutation_in _ (Permutation_sym PR)), (Permutation_in _ (Permutation_sym P)) in X. apply in_map_iff in X as (t & Et & It). apply in_seq in It.
  destruct t as [|t].
  - exfalso. rewrite Ea in Et. apply In_nth_error in Is as [i Hi]. apply In_nth_error in IG as [j Hj].
    assert (i = j) by (apply (SI i j s a Hi Hj); rewrite Et; right; simpl; auto). subst j. assert (s = a) by congruence. subst s.
    apply (NZ a (nth_error_In _ _ Hi)). apply (f_equal si) in Et. simpl in Et. exact Et.
  - exists t. split; [lia|]. rewrite Et, rev_rev. reflexivity.
Qed.

Lemma rounds_none : forall fuel n (st : lstate RA), (forall k c, In c (combinations (S k) (l_graph st)) -> twice (value (l_heap st) c) = false) ->
  comb_rounds fuel n st = Ok st.
Proof.
  induction fuel as [|fuel IH]; intros n st H; cbn [comb_rounds]; [reflexivity|]. destruct (Nat.leb n (length (l_graph st))); [|reflexivity].
  assert (FO : forall cs, (forall c, In c cs -> twice (value (l_heap st) c) = false) -> foldM try_comb cs st = Ok st).
  { induction cs as [|c cs IHc]; intros Q; [reflexivity|]. cbn [foldM]. unfold try_comb at 1. cbv zeta. rewrite (Q c (or_introl eq_refl)). cbn [negb bind].
    apply IHc. intros d D. apply Q. right; auto. }
  rewrite FO by (intros c; apply H). cbn [bind]. apply IH; auto.
Qed.

Definition left_over (g r : list (seg RA)) : list nat :=
  filter (fun x => negb (used_by (g ++ r) (seq (length g) (length r)) x)) (seq 0 (length g)).
Lemma left_over_iff : forall (g r : list (seg RA)) k, In k (left_over g r) -> exists s, nth_error g k = Some s /\ nth_error (g ++ r) k = Some s /\ ~ In s r.
Proof.
  intros g r k I. unfold left_over in I. apply filter_In in I as [I U]. apply in_seq in I. apply negb_true_iff in U.
  destruct (nth_error g k) as [s|] eqn:EK; [|apply nth_error_None in EK; lia]. exists s. split; auto.
  assert (EK' : nth_error (g ++ r) k = Some s) by (rewrite nth_error_app1 by lia; exact EK). split; auto.
  intros IR. apply not_true_iff_false in U. apply U. assert (OB : obj (g ++ r) k = [s]) by (unfold obj; rewrite EK'; reflexivity). unfold used_by. rewrite OB. cbn [existsb]. rewrite orb_false_r.
  apply orb_true_iff. left. unfold in_poly. apply existsb_exists. destruct (In_nth_error _ _ IR) as [j EJ].
  exists (length g + j)%nat. split.
  - apply in_seq. assert (j < length r)%nat by (apply nth_error_Some; congruence). lia.
  - apply orb_true_iff. right. unfold obj. rewrite nth_error_app2 by lia. replace (length g + j - length g)%nat with j by lia. rewrite EJ. simpl. rewrite seg_eqb_refl. reflexivity.
Qed.

Lemma loop_rounds : forall schs wf fuel g r, (forall k, fair (schs k)) -> ring g -> (length g < 250)%nat -> (length g <= wf)%nat ->
  walk_segments (schs (S fuel)) wf g None = Ok (Loop r) ->
  rearranged r g /\ isclosed r = Ok true /\ value (g ++ r) (seq (length g) (length r)) = r /\
  find_loops schs wf (S fuel) g = match left_over g r with [] => Err IndexError | _ => Ok (Some ([seq (length g) (length r)], g ++ r)) end.
Proof.
  intros schs wf fuel g r FS RG LB LW W. pose proof RG as (vs & cyc & N3 & ND & SEP & F2 & PC). pose proof (ring_length _ _ _ F2 PC) as LV.
  destruct (first_loop vs g cyc (schs (S fuel)) wf r ltac:(lia) ND SEP F2 PC (FS _) W) as (l & PL & EO).
  destruct (loop_facts g l r RG LB PL EO) as (RR & CL & US & AA). split; auto. split; auto. split; [apply value_seq|].
  destruct (others_path g r RG LB RR US AA) as (N & w & F & NB & sepw & Fi & Fj & OT).
  pose proof (ring_simple g RG LB) as (_ & _ & SI).
  unfold find_loops. cbn [walk_rounds l_heap l_graph l_cycles].
  assert (V : value g (seq 0 (length g)) = g) by (apply (value_seq g [])).
  rewrite V, W. cbn [bind in_cycles existsb]. cbv zeta. fold (left_over g r). cbn [app].
  pose proof (left_over_iff g r) as LO.
  assert (NL : NoDup (left_over g r)) by (apply NoDup_filter, seq_NoDup).
  assert (IV : forall c x, incl c (left_over g r) -> In x (value (g ++ r) c) -> ofF N F x).
  { intros c x IC I. apply in_value_iff in I as (k & K & Ek). destruct (LO k (IC k K)) as (s & E1 & E2 & NR). rewrite E2 in Ek. injection Ek as <-.
    apply OT; auto. eapply nth_error_In; eauto. }
  assert (NV : forall c, incl c (left_over g r) -> NoDup c -> NoDup (value (g ++ r) c) /\ length (value (g ++ r) c) = length c).
  { induction c as [|k c IH]; intros IC NC; [split; [constructor|reflexivity]|]. inversion NC as [|? ? N1 N2]; subst.
    destruct (IH (fun x X => IC x (or_intror X)) N2) as [IH1 IH2]. destruct (LO k (IC k (or_introl eq_refl))) as (s & E1 & E2 & _).
    assert (OB : obj (g ++ r) k = [s]) by (unfold obj; rewrite E2; reflexivity).
    change (value (g ++ r) (k :: c)) with (obj (g ++ r) k ++ value (g ++ r) c). rewrite OB. cbn [app]. split; [|simpl; lia]. constructor; auto.
    intros I. apply (in_value_iff RA (g ++ r) c s) in I as (j & J & Ej). destruct (LO j (IC j (or_intror J))) as (s' & E3 & E4 & _).
    rewrite E4 in Ej. injection Ej as ->. apply N1. replace k with j; auto. apply (SI j k s s); auto. }
  destruct (left_over g r) as [|k0 ks] eqn:EL.
  - destruct fuel as [|fuel]; reflexivity.
  - rewrite <- EL in *. assert (NE : left_over g r <> []) by (rewrite EL; discriminate). clear EL k0 ks.
    destruct (NV (left_over g r) (fun x X => X) NL) as [NV1 NV2].
    assert (W2 : forall k, walk_segments (schs k) wf (value (g ++ r) (left_over g r)) None = Ok NoLoop).
    { intros k. apply (open_segments N w F NB sepw Fi Fj); auto.
      - intros Q. rewrite Q in NV2. destruct (left_over g r); [congruence|discriminate].
      - intros x. apply (IV (left_over g r)). intros y; auto.
      - rewrite NV2. assert (length (left_over g r) <= length (seq 0 (length g)))%nat; [|rewrite seq_length in *; lia].
        apply NoDup_incl_length; auto. intros x X. unfold left_over in X. apply filter_In in X as [X _]. exact X. }
    destruct fuel as [|fuel]; cbn [walk_rounds l_heap l_graph l_cycles]; rewrite W2; cbn [bind l_graph];
    (rewrite rounds_none; [cbn [bind l_cycles l_heap]; destruct (left_over g r); [congruence|reflexivity]|];
     intros k c Ic; cbn [l_graph l_heap] in *; destruct (combinations_props _ _ _ Ic) as [Lc Nc]; pose proof (combinations_incl _ _ _ _ Ic) as J;
     specialize (Nc NL); destruct (NV c J Nc) as [V1 V2]; apply (open_twice N w F NB sepw Fi Fj); auto;
     [intros Q; rewrite Q in V2; rewrite Lc in V2; discriminate|intros x; apply IV; auto]).
Qed.

(** the cycle is the only loop *)
Lemma ring_only : forall g l, ring g -> (length g < 250)%nat -> loop_in g l -> rearranged l g.
Proof.
  intros g l RG LB LL. pose proof RG as (vs & cy & N3 & ND & SEP & F2 & PC). pose proof (ring_length _ _ _ F2 PC) as LV.
  pose proof (ring_simple g RG LB) as (_ & NZ & _). pose proof (proj1 (twice_iff g) (ring_twice g RG LB)) as TW.
  destruct (loop_ids g l LL) as (c & us & IC & CC & <-).
  destruct (loop_ids g cy) as (d & us2 & ID & CD & ED); [exists vs; repeat (split; auto); intros s I; apply (Permutation_in _ (Permutation_sym PC)); auto|].
  set (U := seq 0 (length g)) in *. assert (V : value g U = g) by (apply (value_seq g [])).
  assert (RU : inrange g U) by (intros k K; apply in_seq in K; lia).
  assert (NDd : NoDup d) by (destruct CD as (_ & _ & X & _); exact X). assert (NDc : NoDup c) by (destruct CC as (_ & _ & X & _); exact X).
  assert (Ld : length d = length U).
  { rewrite <- (value_length RA g d) by (intros k K; apply RU, ID, K). rewrite ED, <- (Permutation_length PC). unfold U. rewrite seq_length. reflexivity. }
  assert (IU : incl U d) by (apply NoDup_length_incl; auto; lia).
  assert (SUB : incl d c).
  { assert (exists k, In k c) as (k & K).
    { pose proof (cyc_length _ _ _ CC) as Q. destruct CC as (X & _). destruct c as [|k c']; [simpl in Q; lia|exists k; left; auto]. }
    intros j J. apply (cyc_conn g us2 d (fun i => In i c) CD) with (i := k); auto.
    intros x y v Ix Iy Hx Hy Px. destruct (cyc_two g us c v CC (cyc_vertex _ _ _ _ _ CC Px Hx)) as (a & b & NE & Ia & Ib & Ha & Hb).
    destruct (count_hits g U v (seq_NoDup _ _) RU) with (a := a) (b := b) (c := y) as [X|[X|X]]; auto; try congruence.
    - rewrite V. exact NZ.
    - rewrite V. apply TW. destruct Hx as (s & Es & Is). apply in_flat_map. exists s. split; auto. eapply nth_error_In; eauto. }
  exists (value g c). split; [|apply turned_refl]. rewrite <- V at 2. apply Permutation_flat_map. apply NoDup_Permutation; auto; [apply seq_NoDup|].
  intros k. split; intros K; [apply IC; auto|apply SUB, IU; auto].
Qed.

Lemma firstn_all_app : forall X (a b : list X), firstn (length a) (a ++ b) = a.
Proof. intros. rewrite firstn_app, firstn_all, Nat.sub_diag. simpl. apply app_nil_r. Qed.

(*@ C96_one_loop *)
(** C96: the segments are the edges of a single cycle (3 to 249 corners, any order, any directions, not
    crossing itself).  Whatever the order in which Python visits the sets: if find_loops returns, it returns
    exactly one polygon, closed, made of all the segments (some of them turned round); the segments of
    the graph are unchanged except for their directions. *)
Lemma ring_one_loop : forall (schs : nat -> sched RA) wf fuel (g : list (seg RA)) cs h, (forall k, fair (schs k)) ->
  ring g -> (length g < 250)%nat -> uncrossed g -> (length g <= wf)%nat -> find_loops schs wf fuel g = Ok (Some (cs, h)) ->
  exists c, cs = [c] /\ rearranged (value h c) g /\ isclosed (value h c) = Ok true /\ Forall2 turned (firstn (length g) h) g.
Proof.
  intros schs wf fuel g cs h FS RG LB UN LW E.
  destruct (walk_segments (schs fuel) wf g None) as [w|e] eqn:W.
  2:{ unfold find_loops in E. assert (V : value g (seq 0 (length g)) = g) by (apply (value_seq g [])).
      destruct fuel; cbn [walk_rounds l_heap l_graph l_cycles] in E; rewrite V, W in E; discriminate. }
  destruct w as [| |r].
  - unfold find_loops in E. assert (V : value g (seq 0 (length g)) = g) by (apply (value_seq g [])).
    destruct fuel; cbn [walk_rounds l_heap l_graph l_cycles] in E; rewrite V, W in E; discriminate.
  - pose proof RG as (vs & cy & N3 & ND & SEP & F2 & PC).
    assert (LL : loop_in g cy) by (exists vs; repeat (split; auto); intros s I; apply (Permutation_in _ (Permutation_sym PC)); auto).
    destruct (one_loop schs wf fuel g cy (ring_simple g RG LB) LB W LL) as (c & h0 & EF & T & RC & VC & CC).
    + intros s t Is It. apply UN; apply (Permutation_in _ (Permutation_sym PC)); auto.
    + intros l Ll. destruct (ring_only g l RG LB Ll) as (g' & P & F). exists g'. split; auto. rewrite P. exact PC.
    + rewrite E in EF. injection EF as -> ->. exists c. split; auto. split; [|split; auto].
      * destruct RC as (g' & P & F). exists g'. split; auto. rewrite P. symmetry. exact PC.
      * rewrite <- (Forall2_len _ _ _ _ _ T), firstn_all. exact T.
  - destruct fuel as [|fuel].
    { unfold find_loops in E. assert (V : value g (seq 0 (length g)) = g) by (apply (value_seq g [])).
      cbn [walk_rounds l_heap l_graph l_cycles] in E; rewrite V, W in E. discriminate. }
    destruct (loop_rounds schs wf fuel g r FS RG LB LW W) as (RR & CL & EV & EF). rewrite E in EF.
    destruct (left_over g r); [discriminate|]. injection EF as -> ->. exists (seq (length g) (length r)). rewrite EV. repeat (split; auto).
    rewrite firstn_all_app. apply turned_refl.
Qed.

(*@ C96_walls *)
(** C96: it does return when the segments are walls (of any class but the plain LineSegment) that do not
    all run the same way round, provided walking along them ends. *)
Lemma ring_returns : forall (schs : nat -> sched RA) wf fuel (g : list (seg RA)) w, (forall k, fair (schs k)) ->
  ring g -> (length g < 250)%nat -> uncrossed g -> (length g <= wf)%nat -> (0 < fuel)%nat ->
  (forall s, In s g -> sc s <> CLineSegment) -> ~ one_way g ->
  walk_segments (schs fuel) wf g None = Ok w -> w <> Running ->
  exists c h, find_loops schs wf fuel g = Ok (Some ([c], h)).
Proof.
  intros schs wf fuel g w FS RG LB UN LW LF CW NO W NR. destruct w as [| |r]; [congruence| |].
  - pose proof RG as (vs & cy & N3 & ND & SEP & F2 & PC).
    assert (LL : loop_in g cy) by (exists vs; repeat (split; auto); intros s I; apply (Permutation_in _ (Permutation_sym PC)); auto).
    destruct (one_loop schs wf fuel g cy (ring_simple g RG LB) LB W LL) as (c & h0 & EF & _); eauto.
    + intros s t Is It. apply UN; apply (Permutation_in _ (Permutation_sym PC)); auto.
    + intros l Ll. destruct (ring_only g l RG LB Ll) as (g' & P & F). exists g'. split; auto. rewrite P. exact PC.
  - destruct fuel as [|fuel]; [lia|]. destruct (loop_rounds schs wf fuel g r FS RG LB LW W) as (RR & CL & EV & EF). rewrite EF.
    destruct (left_over g r) as [|k ks] eqn:EL; [|eauto]. exfalso. apply NO.
    pose proof RG as (vs & cyc & N3 & ND & SEP & F2 & PC). pose proof (ring_length _ _ _ F2 PC) as LV.
    destruct (first_loop vs g cyc (schs (S fuel)) wf r ltac:(lia) ND SEP F2 PC (FS _) W) as (l & PL & EO).
    destruct (loop_facts g l r RG LB PL EO) as (_ & _ & (us & LU & NU & SU & EE) & _).
    exists us. split; [lia|]. split; auto. exists r. split; auto.
    pose proof (ring_simple g RG LB) as (SEPg & NZ & SI).
    assert (SUB : incl g r).
    { intros s Is. destruct (In_nth_error _ _ Is) as [i Hi]. assert (Li : (i < length g)%nat) by (apply nth_error_Some; congruence).
      assert (U : used_by (g ++ r) (seq (length g) (length r)) i = true).
      { destruct (used_by (g ++ r) (seq (length g) (length r)) i) eqn:Q; auto. exfalso.
        assert (J : In i (left_over g r)) by (unfold left_over; apply filter_In; rewrite Q; split; auto; apply in_seq; lia). rewrite EL in J. destruct J. }
      assert (Hi' : nth_error (g ++ r) i = Some s) by (rewrite nth_error_app1 by lia; exact Hi).
      assert (OB : obj (g ++ r) i = [s]) by (unfold obj; rewrite Hi'; reflexivity). unfold used_by in U. rewrite OB in U. cbn [existsb] in U. rewrite orb_false_r in U.
      assert (RG' : forall m t, In m (seq (length g) (length r)) -> nth_error (g ++ r) m = Some t -> In t r).
      { intros m t M Em. apply in_seq in M. rewrite nth_error_app2 in Em by lia. eapply nth_error_In; eauto. }
      assert (RT : forall t, In t r -> exists t', In t' g /\ turned t t').
      { intros t It. destruct RR as (g' & P & F). apply In_nth_error in It as [q Hq]. destruct (Forall2_nth_l _ _ _ _ _ F q t Hq) as (t' & E' & T).
        exists t'. split; auto. apply (Permutation_in _ P). eapply nth_error_In; eauto. }
      apply orb_true_iff in U as [U|U]; apply existsb_exists in U as (m & M & U).
      - apply orb_true_iff in U as [U|U]; [apply Nat.eqb_eq in U; apply in_seq in M; lia|].
        unfold obj in U. destruct (nth_error (g ++ r) m) as [t|] eqn:Em; [|discriminate]. cbn [existsb] in U. rewrite orb_false_r in U.
        pose proof (RG' m t M Em) as It. destruct (RT t It) as (t' & Ig & T).
        unfold seg_eqb in U. apply andb_true_iff in U as [U UJ]. apply andb_true_iff in U as [_ UI].
        assert (Et : In (si t) (flat_map ij g) /\ In (sj t) (flat_map ij g)) by (destruct (in_ends g t' Ig); destruct T as [-> | ->]; simpl; auto).
        destruct Et as [E1 E2]. destruct (in_ends g s Is) as [E3 E4].
        apply (separated_eqb _ SEPg) in UI; auto. apply (separated_eqb _ SEPg) in UJ; auto.
        destruct (In_nth_error _ _ Ig) as [j Hj]. assert (i = j).
        { apply (SI i j s t' Hi Hj). destruct T as [-> | ->]; simpl in UI, UJ; rewrite <- UI, <- UJ; auto. }
        subst j. assert (t' = s) by congruence. subst t'. destruct T as [-> | ->]; auto. simpl in UI, UJ. exfalso. apply (NZ s Is). auto.
      - unfold obj in U. destruct (nth_error (g ++ r) m) as [t|] eqn:Em; [|discriminate]. cbn [existsb] in U. rewrite orb_false_r in U.
        exfalso. destruct (RT t (RG' m t M Em)) as (t' & Ig & T). unfold seg_eqb in U. apply andb_true_iff in U as [U _]. apply andb_true_iff in U as [U _].
        apply (CW t' Ig). assert (sc t = sc t') by (destruct T as [-> | ->]; reflexivity).
        destruct (sc t); try discriminate. congruence. }
    assert (NG : NoDup g).
    { apply NoDup_nth_error. intros i j Li Q. destruct (nth_error g i) as [s|] eqn:Hi; [|apply nth_error_None in Hi; lia].
      apply (SI i j s s); auto. }
    apply NoDup_Permutation_bis; auto.
    rewrite <- (map_length (fun s => (si s, sj s)) r), EE, cycle_edges_length. lia.
Qed.

(*@ C96_plain_refuted *)
(** C96, finding: when the segments of the cycle are plain LineSegments, find_loops raises an IndexError
    as soon as walking along them has found the cycle, whichever way they run. *)
Lemma ring_plain : forall (schs : nat -> sched RA) wf fuel (g r : list (seg RA)), (forall k, fair (schs k)) ->
  ring g -> (length g < 250)%nat -> (length g <= wf)%nat -> (0 < fuel)%nat -> (forall s, In s g -> sc s = CLineSegment) ->
  walk_segments (schs fuel) wf g None = Ok (Loop r) -> find_loops schs wf fuel g = Err IndexError.
Proof.
  intros schs wf fuel g r FS RG LB LW LF CW W. destruct fuel as [|fuel]; [lia|].
  destruct (loop_rounds schs wf fuel g r FS RG LB LW W) as (RR & CL & EV & EF). rewrite EF.
  replace (left_over g r) with (@nil nat); [reflexivity|]. symmetry. unfold left_over. apply filter_none. intros i Ii. apply in_seq in Ii. apply negb_false_iff.
  destruct (nth_error g i) as [s|] eqn:Hi; [|apply nth_error_None in Hi; lia].
  assert (Hi' : nth_error (g ++ r) i = Some s) by (rewrite nth_error_app1 by lia; exact Hi).
  assert (OB : obj (g ++ r) i = [s]) by (unfold obj; rewrite Hi'; reflexivity). unfold used_by. rewrite OB. cbn [existsb]. rewrite orb_false_r.
  pose proof (CW s (nth_error_In _ _ Hi)) as CS. apply orb_true_iff.
  assert (AT : forall t, In t r -> exists m, In m (seq (length g) (length r)) /\ obj (g ++ r) m = [t]).
  { intros t It. destruct (In_nth_error _ _ It) as [j Hj]. exists (length g + j)%nat. assert (j < length r)%nat by (apply nth_error_Some; congruence). split; [apply in_seq; lia|].
    unfold obj. rewrite nth_error_app2 by lia. replace (length g + j - length g)%nat with j by lia. rewrite Hj. reflexivity. }
  destruct (either_way r g s RR (nth_error_In _ _ Hi)) as [I|I]; destruct (AT _ I) as (m & M & OM); [left|right]; apply existsb_exists; exists m; (split; [exact M|]); rewrite OM; cbn [existsb].
  - rewrite seg_eqb_refl. apply orb_true_r.
  - replace (line_reversed s) with (seg_reverse s); [rewrite seg_eqb_refl; reflexivity|]. unfold line_reversed, seg_reverse, LineSegment. rewrite CS. reflexivity.
Qed.

(** * The vessel *)
Lemma filter_id : forall X (f : X -> bool) l, (forall x, In x l -> f x = true) -> filter f l = l.
Proof. induction l as [|x l IH]; intros H; simpl; auto. rewrite (H x (or_introl eq_refl)). f_equal. apply IH. intros y Y. apply H. right; auto. Qed.
Lemma firstn_nth : forall X n (l : list X) k, (k < n)%nat -> nth_error (firstn n l) k = nth_error l k.
Proof. induction n as [|n IH]; intros [|x l] [|k] L; simpl; auto; try lia. apply IH. lia. Qed.

(*@ C96_one_room *)
(** C96: a vessel whose walls form a single cycle: if raum_erstellen returns, there is exactly one room, R1,
    without inner walls, and its outer wall consists of all the parts of the vessel, in their order (some of
    their segments may have been turned round). *)
Lemma ring_one_room : forall (schs : nat -> sched RA) wf fuel H HC lib inside inside2 Hs parts (g : list (seg RA)) rooms, (forall k, fair (schs k)) ->
  ring g -> (length g < 250)%nat -> uncrossed g -> (length g <= wf)%nat -> Permutation (concat parts) (seq 0 (length g)) ->
  vessel_rooms schs wf fuel H HC lib inside inside2 Hs parts g = Ok (Some rooms) ->
  exists walls, rooms = [mkraum "R1" 0 [] [walls] []] /\ Forall2 (Forall2 turned) walls (map (value g) parts).
Proof.
  intros schs wf fuel H HC lib inside inside2 Hs parts g rooms FS RG LB UN LW PP E. unfold vessel_rooms in E.
  destruct (find_loops schs wf fuel g) as [[[cs h]|]|] eqn:EF; try discriminate. cbn [bind] in E.
  destruct (ring_one_loop schs wf fuel g cs h FS RG LB UN LW EF) as (c & -> & RC & _ & T).
  assert (IP : forall p k, In p parts -> In k p -> (k < length g)%nat).
  { intros p k Ip K. assert (J : In k (concat parts)) by (apply in_concat; exists p; auto). apply (Permutation_in _ PP), in_seq in J. lia. }
  assert (LH : (length g <= length h)%nat).
  { pose proof (Forall2_len _ _ _ _ _ T) as Q. rewrite firstn_length in Q. lia. }
  assert (AT : forall k, (k < length g)%nat -> exists s t, nth_error h k = Some s /\ nth_error g k = Some t /\ turned s t).
  { intros k K. destruct (nth_error h k) as [s|] eqn:Hk; [|apply nth_error_None in Hk; lia].
    assert (F : nth_error (firstn (length g) h) k = Some s) by (rewrite firstn_nth; auto). destruct (Forall2_nth_l _ _ _ _ _ T k s F) as (t & Et & TT). eauto. }
  exists (map (value h) parts). split.
  - unfold keep_base_polygons in E. cbn [mapM] in E. destruct (triangle_mesh lib (fun _ _ => inside) (value h c)) as [ts|] eqn:ET; [|discriminate].
    cbn [bind base_cycles combine seq length] in E. unfold segments_in_cycles in E. cbn [map] in E.
    rewrite (filter_id _ _ (map (value h) parts)) in E.
    + cbn in E. injection E as <-. reflexivity.
    + intros v Iv. apply in_map_iff in Iv as (p & <- & Ip). apply orb_true_iff. left. apply PMore.loose_subset_spec. intros q Iq.
      apply (Permutation_in _ (Permutation_sym (rearranged_ends _ _ RC))). apply in_flat_map in Iq as (s & Is & Iq). apply in_value_iff in Is as (k & K & Ek).
      destruct (AT k (IP p k Ip K)) as (s' & t & E1 & E2 & TT). rewrite Ek in E1. injection E1 as <-. apply in_flat_map. exists t. split; [eapply nth_error_In; eauto|].
      apply (turned_ij _ _ q TT). exact Iq.
  - assert (G : forall ps, (forall p, In p ps -> In p parts) -> Forall2 (Forall2 turned) (map (value h) ps) (map (value g) ps)).
    { induction ps as [|p ps IH]; intros Q; cbn [map]; constructor; [|apply IH; intros; apply Q; right; auto].
      assert (R0 : forall k, In k p -> (k < length g)%nat) by (intros k; apply IP, Q; left; auto). clear - AT R0.
      induction p as [|k p IHp]; [constructor|]. destruct (AT k (R0 k (or_introl eq_refl))) as (s & t & E1 & E2 & TT).
      unfold value in *. cbn [flat_map]. unfold obj at 1 3. rewrite E1, E2. cbn [app]. constructor; auto. apply IHp. intros j J. apply R0. right; auto. }
    apply G. auto.
Qed.

(** * Walking along a single cycle ends *)
Lemma step_ret : forall o o' : ostate, order_step o = inl o' -> (exists k, o_ret o' = o_ret o ++ [k]) \/ (o_ret o' = o_ret o /\ o_ret o <> []).
Proof.
  intros o o' H. unfold order_step in H. destruct (nth_error (o_segs o) (o_akt o)) as [akt|]; [|discriminate].
  destruct (match find_from _ 0 (o_segs o) with Some k => _ | None => _ end) as [[k fl]|]; [|discriminate].
  destruct (nth_error (o_segs o) k) as [nxt|]; [|discriminate]. cbv zeta in H.
  destruct (existsb _ (o_ret o)) eqn:EX; (destruct (nth_error _ k) in H; [|discriminate]); injection H as <-; cbn [o_ret].
  - right. split; auto. intros Q. rewrite Q in EX. discriminate.
  - left. eauto.
Qed.
Lemma step_keeps : forall o o' : ostate, order_step o = inl o' -> length (o_segs o') = length (o_segs o) /\ (forall k, In k (o_ret o') -> In k (o_ret o) \/ (k < length (o_segs o))%nat).
Proof.
  intros o o' H. unfold order_step in H. destruct (nth_error (o_segs o) (o_akt o)) as [akt|]; [|discriminate].
  destruct (match find_from _ 0 (o_segs o) with Some k => _ | None => _ end) as [[k fl]|]; [|discriminate].
  destruct (nth_error (o_segs o) k) as [nxt|] eqn:NK; [|discriminate]. cbv zeta in H.
  set (ir := existsb _ (o_ret o)) in H. destruct (nth_error (if negb ir && fl then _ else _) k) in H; [|discriminate]. injection H as <-. cbn [o_ret o_segs].
  split; [destruct (negb ir && fl); rewrite ?upd_length; reflexivity|]. intros j J. destruct ir; auto. apply in_app_iff in J as [J|[<-|[]]]; auto.
  right. apply nth_error_Some. congruence.
Qed.
Lemma order_loop_ok : forall m c (o : ostate), (c + m <= 500)%nat -> (forall k, In k (o_ret o) -> (k < length (o_segs o))%nat) -> (o_ret o <> [] \/ (0 < m)%nat) -> o_segs o <> [] ->
  exists r, order_loop m c o = Ok r /\ match r with
    | inl o' => o_ret o' <> [] /\ (forall k, In k (o_ret o') -> (k < length (o_segs o'))%nat) | inr l => length l = length (o_segs o) end.
Proof.
  induction m as [|m IH]; intros c o B R N SN; cbn [order_loop].
  - eexists. split; [reflexivity|]. cbn. split; auto. destruct N; [auto|lia].
  - destruct (order_step o) as [o'|l] eqn:ES.
    + destruct (Nat.ltb_spec 500 (S c)); [lia|]. destruct (step_keeps o o' ES) as [LL RR].
      destruct (IH (S c) o') as (r & E & Q); try lia.
      * intros k K. rewrite LL. destruct (RR k K); auto.
      * left. destruct (step_ret o o' ES) as [[k ->]|[-> Q]]; auto. destruct (o_ret o); discriminate.
      * intros Z. apply SN. rewrite Z in LL. destruct (o_segs o); [auto|discriminate].
      * exists r. split; auto. destruct r; auto. lia.
    + eexists. split; [reflexivity|]. cbn. unfold order_step in ES. destruct (nth_error (o_segs o) (o_akt o)) as [akt|]; [|injection ES as <-; auto].
      destruct (match find_from _ 0 (o_segs o) with Some k => _ | None => _ end) as [[k fl]|]; [|injection ES as <-; auto].
      destruct (nth_error (o_segs o) k) as [nxt|] eqn:NK; [|injection ES as <-; auto]. cbv zeta in ES.
      destruct (nth_error (if negb _ && fl then _ else _) k) in ES; [discriminate|injection ES as <-; auto].
Qed.
Lemma order_ok : forall l : list (seg RA), l <> [] -> (length l < 250)%nat -> exists b r, order l = Ok (b, r) /\ r <> [].
Proof.
  intros l N B. unfold order. destruct l as [|a l'] eqn:EL; [congruence|]. rewrite <- EL in *.
  destruct (order_loop_ok (2 * length l + 1) 0 (mko l 0 (sj a) [])) as (r & -> & Q); try (cbn; intros; tauto || lia); auto; try (right; lia).
  cbn [bind]. destruct r as [o|segs].
  - destruct Q as [QN QI]. set (ret := flat_map _ (o_ret o)).
    assert (RN : ret <> []).
    { destruct (o_ret o) as [|k ks] eqn:ER; [congruence|]. unfold ret. rewrite ?ER. cbn [flat_map]. destruct (nth_error (o_segs o) k) eqn:Z; [discriminate|].
      apply nth_error_None in Z. specialize (QI k (or_introl eq_refl)). lia. }
    destruct (sort_by order_key_ltb ret) as [|f fs] eqn:SB.
    + exfalso. apply RN. apply Permutation_nil. rewrite <- SB. apply sort_by_perm.
    + do 2 eexists. split; [reflexivity|]. intros Z. apply RN. apply Permutation_nil. rewrite <- Z. apply rotate_to_perm.
  - do 2 eexists. split; [reflexivity|]. cbn [o_segs] in Q. intros ->. subst l. discriminate.
Qed.
Lemma isclosed_ok : forall l : list (seg RA), l <> [] -> exists b, isclosed l = Ok b.
Proof.
  intros l N. unfold isclosed. destruct (iscontinuous l); [|eauto]. destruct l as [|a l]; [congruence|].
  unfold first_point, last_point, first_segment, last_segment. cbn [get nth_error bind]. unfold last_opt. cbn. eauto.
Qed.

Lemma candidates_spec : forall (akt : seg RA) p l x, In x (candidates akt p l) ->
  In x l /\ (pt_eqb p (si (w_cur x)) = true \/ pt_eqb p (sj (w_cur x)) = true) /\ seg_eqb (w_cur x) akt = false.
Proof.
  intros akt p l x I. unfold candidates in I. destruct (filter _ l) as [|y r] eqn:E.
  - apply filter_In in I as [I H]. apply andb_true_iff in H as [H1 H2]. apply orb_true_iff in H1. apply negb_true_iff in H2. auto.
  - rewrite <- E in I. apply filter_In in I as [I H]. apply andb_true_iff in H as [H1 H2]. apply negb_true_iff in H2. auto.
Qed.
Lemma marked_none : forall (ls : list (seg RA * bool)) objs d, (forall x, ~ In (x, true) ls) -> marked ls objs d = d.
Proof.
  intros ls objs d H. unfold marked. destruct (filter _ (combine objs ls)) as [|[s [z b]] r] eqn:EF; auto. exfalso.
  assert (J : In (s, (z, b)) ((s, (z, b)) :: r)) by (left; auto). rewrite <- EF in J. apply filter_In in J as [J T]. subst b. apply in_combine_r in J. eapply H; eauto.
Qed.

Section Ends.
Variables (n : nat) (u : nat -> pt RA) (E : nat -> seg RA).
Hypothesis n3 : (3 <= n)%nat.
Hypothesis nB : (n < 125)%nat.
Hypothesis sep : forall i j, (i < n)%nat -> (j < n)%nat -> pt_eqb (u i) (u j) = true -> i = j.
Hypothesis EJ : forall t, (t < n)%nat -> joins (u (prv n t), u t) (E t).
Let nB' : (n < 250)%nat. Proof. clear - nB. lia. Qed.
Let ends := rends n u E EJ.
Let inj := rinj n u E n3 nB' sep EJ.

Definition vok (vis : list (seg RA)) : Prop := NoDup vis /\ forall v, In v vis -> exists s, (s < n)%nat /\ turned v (E s).
Definition wok (akt : seg RA) (a : nat) (vis : list (seg RA)) (nv : list (welt RA)) : Prop :=
  (forall x, In x nv -> exists s, (s < n)%nat /\ w_key x = E s /\ turned (w_cur x) (E s) /\ (s = 0%nat -> akt = E 0 /\ w_cur x = E 0)) /\
  NoDup (map w_id nv) /\ (forall x y, In x nv -> In y nv -> w_key x = w_key y -> x = y) /\
  (a < n)%nat /\ turned akt (E a) /\ (In akt vis -> forall x, In x nv -> w_key x = E a -> w_cur x = akt) /\ vok vis.
(** the point reached, and how many more segments there are ahead *)
Definition ahead (a : nat) (p : pt RA) (d : nat) : Prop := (p = u a /\ d = (n - 1 - a)%nat) \/ (p = u (prv n a) /\ (1 <= a)%nat /\ d = a).

Lemma vok_length : forall vis, vok vis -> (length vis <= 2 * n)%nat.
Proof.
  intros vis [N H]. replace (2 * n)%nat with (length (map E (seq 0 n) ++ map (fun s => seg_reverse (E s)) (seq 0 n))) by (rewrite app_length, !map_length, seq_length; lia).
  apply NoDup_incl_length; auto. intros v V. destruct (H v V) as (s & L & T). apply in_app_iff.
  destruct T as [-> | ->]; [left|right]; [apply in_map|apply (in_map (fun s => seg_reverse (E s)))]; apply in_seq; lia.
Qed.
Lemma memb_seg : forall (s : seg RA) l, memb seg_sameb s l = true <-> In s l.
Proof. intros. apply memb_In. apply seg_sameb_iff. Qed.
Lemma vok_add : forall vis akt a, vok vis -> (a < n)%nat -> turned akt (E a) ->
  vok (set_add vis akt) /\ In akt (set_add vis akt) /\ (In akt vis -> set_add vis akt = vis) /\ (~ In akt vis -> length (set_add vis akt) = S (length vis)).
Proof.
  intros vis akt a [N H] La Ta. unfold set_add. destruct (memb seg_sameb akt vis) eqn:M.
  - apply memb_seg in M. repeat split; auto. intros Q; contradiction.
  - assert (M' : ~ In akt vis) by (intros Q; apply memb_seg in Q; congruence). split; [|split; [|split]].
    + split.
      * apply (Permutation_NoDup (l := akt :: vis)); [apply Permutation_cons_append|constructor; auto].
      * intros v V. apply in_app_iff in V as [V|[<-|[]]]; eauto.
    + apply in_app_iff. right. left. auto.
    + intros Q; contradiction.
    + intros _. rewrite app_length. simpl. lia.
Qed.

Lemma walk_ends : forall sch, fair sch -> forall fuel k nv vis akt p a d br, wok akt a vis nv -> ahead a p d ->
  ((2 * n - length vis) * (n + 1) + d < fuel)%nat -> exists w, walk_loop sch fuel k nv vis akt p br = Ok w /\ w <> Running.
Proof.
  intros sch [F1 F2]. induction fuel as [|fuel IH]; intros k nv vis akt p a d br W D M; [destruct (Nat.nlt_0_r _ M)|].
  destruct nv as [|w0 nv'] eqn:ENV; cbn [walk_loop]; [exists NoLoop; split; [auto|discriminate]|]. rewrite <- ENV in *. clear ENV w0 nv'.
  destruct (candidates akt p (it_nv sch k nv)) as [|nxt more] eqn:EC; [exists NoLoop; split; [auto|discriminate]|].
  assert (IC : In nxt (candidates akt p (it_nv sch k nv))) by (rewrite EC; left; auto). apply candidates_spec in IC as (IX & HP & NE).
  apply (Permutation_in _ (F1 k nv)) in IX. cbv zeta. set (br' := br || negb (Nat.eqb (length more) 0)). clearbody br'. clear EC more br.
  destruct W as (OK & ND & UQ & La & Ta & PV & VO). destruct (vok_add vis akt a VO La Ta) as (VO' & AV & SA & SL).
  set (vis' := set_add vis akt) in *. destruct (OK nxt IX) as (c & Lc & KX & TX & CZ).
  assert (C1 : (1 <= c)%nat).
  { destruct c; [|lia]. destruct (CZ eq_refl) as [-> Q]. rewrite Q, seg_eqb_refl in NE. discriminate. }
  assert (B : exists b, (b < n)%nat /\ p = u b /\ (b = c \/ b = prv n c)).
  { assert (exists b, (b < n)%nat /\ p = u b) as (b & Lb & ->).
    { destruct D as [(-> & _)|(-> & A1 & _)]; [exists a; auto|exists (prv n a); split; auto; apply rprv; auto]. }
    exists b. split; auto. split; auto. pose proof (rprv n n3 nB' c Lc) as [P1 _].
    destruct (ends c _ Lc TX) as [[A1 A2]|[A1 A2]]; rewrite A1, A2 in HP; destruct HP as [HP|HP]; apply sep in HP; auto. }
  destruct B as (b & Lb & EP & BC).
  assert (FI : exists p' d', filter (fun x => negb (pt_eqb x p)) (ij (w_cur nxt)) = [p'] /\ ahead c p' d' /\ (d' <= n)%nat /\ ((b = c /\ d' = c) \/ (b = prv n c /\ d' = n - 1 - c)%nat)).
  { pose proof (rprv n n3 nB' c Lc) as [P1 P2]. pose proof (proj2 (Nat.eqb_neq _ _) P2) as P3. pose proof (proj2 (Nat.eqb_neq _ _) (not_eq_sym P2)) as P4.
    unfold ij. cbn [filter]. destruct (ends c _ Lc TX) as [[A1 A2]|[A1 A2]]; rewrite A1, A2, EP; destruct BC as [-> | ->];
    rewrite !(ru n u sep) by auto; rewrite ?P3, ?P4, ?Nat.eqb_refl; cbn [negb];
    first [ exists (u (prv n c)), c; split; [reflexivity|split; [right; auto|split; [lia|left; auto]]]
          | exists (u c), (n - 1 - c)%nat; split; [reflexivity|split; [left; auto|split; [lia|right; auto]]] ]. }
  destruct FI as (p' & d' & -> & AH & Ld & DB).
  set (ls := it_segs sch k (walk_segs vis' (w_cur nxt))).
  assert (PL : Permutation ls (walk_segs vis' (w_cur nxt))) by apply F2.
  assert (LN : map fst ls <> [] /\ (length (map fst ls) < 250)%nat).
  { assert (VN : vok (if memb seg_sameb (w_cur nxt) vis' then vis' else vis' ++ [w_cur nxt])).
    { destruct (vok_add vis' (w_cur nxt) c VO' Lc TX) as (Q & _). exact Q. }
    apply vok_length in VN. rewrite map_length, (Permutation_length PL). unfold walk_segs. rewrite app_length, map_length.
    split.
    - intros Z. apply map_eq_nil in Z. rewrite Z in PL. apply Permutation_nil in PL. unfold walk_segs in PL. destruct vis'; [destruct AV|discriminate].
    - destruct (memb seg_sameb (w_cur nxt) vis'); rewrite ?app_length in VN; simpl in *; lia. }
  destruct (order_ok (map fst ls) (proj1 LN) (proj2 LN)) as (ok & poly & -> & NP). cbn [bind].
  destruct (isclosed_ok poly NP) as (cl & EQ). replace (if ok then isclosed poly else Ok false) with (Ok (if ok then cl else false)) by (rewrite EQ; destruct ok; reflexivity). cbn [bind].
  destruct (ok && (if ok then cl else false) && negb br'); [eexists; split; [reflexivity|discriminate]|].
  set (cur' := marked ls (order_objs (map fst ls)) (w_cur nxt)).
  assert (TC : turned cur' (E c) /\ (In (w_cur nxt) vis' -> cur' = w_cur nxt)).
  { unfold walk_segs in PL. destruct (memb seg_sameb (w_cur nxt) vis') eqn:MB.
    - assert (Q : cur' = w_cur nxt).
      { apply marked_none. intros x X. apply (Permutation_in _ PL) in X. rewrite app_nil_r in X. apply in_map_iff in X as (y & Y & _). discriminate. }
      rewrite Q. auto.
    - split; [|intros Q; apply memb_seg in Q; congruence].
      pose proof (order_objs_turned (map fst ls)) as OT.
      destruct (marked_at ls (order_objs (map fst ls)) vis' (w_cur nxt) (w_cur nxt)) as (q & Q1 & Q2); [rewrite (Forall2_len _ _ _ _ _ OT), map_length; reflexivity|exact PL|].
      fold cur' in Q2. destruct (Forall2_nth_l _ _ _ _ _ OT q _ Q2) as (t & Et & TT). rewrite (map_nth_error fst q ls Q1) in Et. injection Et as <-. cbn [fst] in TT.
      destruct TT as [-> | ->]; auto. apply turned_rev. auto. }
  destruct TC as [TC TS]. clearbody cur'.
  apply (IH (S k) _ vis' (w_cur nxt) p' c d' br'); auto.
  - set (up := fun x : welt RA => if Nat.eqb (w_id x) (w_id nxt) then mkw (w_id x) (w_key x) cur' else x).
    assert (UI : forall x, w_id (up x) = w_id x) by (intros x; unfold up; destruct (Nat.eqb _ _); reflexivity).
    assert (UK : forall x, w_key (up x) = w_key x) by (intros x; unfold up; destruct (Nat.eqb _ _); reflexivity).
    assert (DI : forall x, In x (discard akt nv) -> In x nv /\ same_hash (w_key x) akt && seg_eqb (w_cur x) akt = false).
    { intros x X. apply filter_In in X as [X Y]. apply negb_true_iff in Y. auto. }
    split; [|split; [|split; [|split; [|split; [|split]]]]]; auto.
    + intros y Y. apply in_map_iff in Y as (x & <- & X). rewrite UK. apply DI in X as [X XD]. destruct (OK x X) as (s & Ls & Ks & Ts & Zs). exists s. split; auto. split; auto. split.
      * unfold up. destruct (Nat.eqb_spec (w_id x) (w_id nxt)) as [EI|_]; auto. cbn [w_cur].
        assert (x = nxt) by (eapply ids_inj; eauto). subst x. replace s with c; auto. apply inj; auto. congruence.
      * intros ->. exfalso. destruct (Zs eq_refl) as [-> Q]. rewrite Q, Ks, seg_eqb_refl in XD. unfold same_hash in XD. rewrite !(proj2 (pt_sameb_iff _ _) eq_refl) in XD. discriminate.
    + rewrite map_map, (map_ext _ _ UI). apply ids_filter. exact ND.
    + intros y1 y2 Y1 Y2. apply in_map_iff in Y1 as (x1 & <- & X1), Y2 as (x2 & <- & X2). rewrite !UK. intros H. apply DI in X1 as [X1 _], X2 as [X2 _]. f_equal. auto.
    + intros V y Y. apply in_map_iff in Y as (x & <- & X). rewrite UK. apply DI in X as [X _]. intros Kx.
      assert (x = nxt) by (apply UQ; auto; congruence). subst x. unfold up. rewrite Nat.eqb_refl. cbn [w_cur]. auto.
  - pose proof (vok_length vis' VO') as VL.
    destruct (classic (In akt vis)) as [IA|IA].
    + rewrite (SA IA). enough (d' < d)%nat by (revert M; generalize ((2 * n - length vis) * (n + 1))%nat; lia).
      assert (CA : c <> a).
      { intros ->. rewrite (PV IA nxt IX KX), seg_eqb_refl in NE. discriminate. }
      destruct D as [(D1 & ->)|(D1 & A1 & ->)]; rewrite EP in D1.
      * assert (b = a) by (apply sep; auto; rewrite D1; apply pt_eqb_refl). subst b. destruct DB as [(Q & ->)|(Q & ->)]; [congruence|]. destruct c as [|c]; simpl in Q; lia.
      * assert (b = prv n a) by (apply sep; auto; [apply rprv; auto|rewrite D1; apply pt_eqb_refl]). destruct a as [|a]; [lia|]. simpl in H. destruct DB as [(Q & ->)|(Q & ->)]; [lia|].
        destruct c as [|c]; simpl in Q; lia.
    + rewrite (SL IA) in *. nia.
Qed.
End Ends.

(*@ C96_walk_ends *)
(** C96: walking along the segments of a single cycle (3 to 124 corners, any order, any directions) always
    ends, and raises nothing, whatever the order of the sets: after at most 2 n^2 + 3 n + 1 rounds. *)
Lemma ring_walk_ends : forall (sch : sched RA) wf (g : list (seg RA)), fair sch -> ring g -> (length g < 125)%nat ->
  ((2 * length g + 1) * (length g + 1) <= wf)%nat -> exists w, walk_segments sch wf g None = Ok w /\ w <> Running.
Proof.
  intros sch wf g F RG LB LW. pose proof RG as (vs & cyc & N3 & ND & SEP & F2 & PC).
  assert (Lg : length g = length vs) by (rewrite (Permutation_length PC), <- (Forall2_len _ _ _ _ _ F2), cycle_edges_length; reflexivity).
  unfold walk_segments. destruct g as [|s0 rest] eqn:EG; [simpl in Lg; lia|]. cbn [get nth_error bind]. rewrite <- EG in *. set (it := it_nv sch 0 (nv_init g)) in *.
  assert (PI : Permutation it (nv_init g)) by apply F.
  destruct (nv_facts g) as (NI1 & NI2 & NI3).
  assert (I0 : In s0 g) by (rewrite EG; left; auto).
  destruct (filter (fun x => pt_eqb (si s0) (si (w_cur x))) it) as [|akt more] eqn:EF.
  { exfalso. assert (J : In s0 (map w_cur (nv_init g))) by (rewrite NI1; apply (proj2 (dedup_In _ _ seg_sameb_iff _ _)); auto).
    apply in_map_iff in J as (x & Ex & Ix). apply (Permutation_in _ (Permutation_sym PI)) in Ix.
    assert (K : In x (filter (fun x => pt_eqb (si s0) (si (w_cur x))) it)) by (apply filter_In; split; auto; rewrite Ex; apply pt_eqb_refl). rewrite EF in K. destruct K. }
  assert (K : In akt (akt :: more)) by (left; auto). rewrite <- EF in K. apply filter_In in K as [K1 K2].
  assert (IN : In akt (nv_init g)) by (apply (Permutation_in _ PI); auto).
  assert (IA : In (w_cur akt) g) by (apply nv_init_in; auto).
  pose proof (ring_ends vs g cyc F2 PC) as RE.
  apply (separated_eqb _ SEP) in K2; try apply RE; auto.
  destruct (round_setup vs g cyc (w_cur akt) ltac:(lia) ND SEP F2 PC IA) as (u & E & sep & EJ & E0 & U0 & P). rewrite <- Lg in *. set (n := length g) in *.
  rewrite K2, U0. rewrite <- E0.
  assert (NB : (n < 250)%nat) by lia.
  assert (NG : NoDup g).
  { apply (Permutation_NoDup P). apply NoDup_map_in; [|apply seq_NoDup]. intros a b Ia Ib H. apply in_seq in Ia, Ib. apply (rinj n u E N3 NB sep EJ); auto; lia. }
  assert (PD : Permutation (map w_cur (nv_init g)) g) by (rewrite NI1; apply dedup_perm; auto).
  assert (UQ : forall x y, In x (nv_init g) -> In y (nv_init g) -> w_key x = w_key y -> x = y).
  { intros x y Ix Iy H. rewrite (NI2 x Ix), (NI2 y Iy) in H.
    assert (NW : NoDup (map w_cur (nv_init g))) by (apply (Permutation_NoDup (Permutation_sym PD)); auto).
    destruct (In_nth_error _ _ Ix) as [a Ka]. destruct (In_nth_error _ _ Iy) as [b Kb].
    assert (a = b); [|congruence]. apply (proj1 (NoDup_nth_error _) NW).
    - rewrite map_length. apply nth_error_Some. congruence.
    - rewrite !nth_error_map, Ka, Kb. simpl. congruence. }
  apply (walk_ends n u E N3 LB sep EJ sch F wf 1 (nv_init g) [E 0%nat] (E 0%nat) (u 0%nat) 0 (n - 1)).
  - split; [|split; [exact NI3|split; [exact UQ|split; [lia|split; [left; auto|split]]]]].
    + intros x Ix. pose proof (nv_init_in RA g x Ix) as J. apply (Permutation_in _ (Permutation_sym P)) in J. apply in_map_iff in J as (s & Es & Is).
      apply in_seq in Is. exists s. split; [lia|]. rewrite (NI2 x Ix). split; [congruence|]. split; [left; congruence|]. intros ->. split; auto.
    + intros _ x Ix Kx. rewrite <- (NI2 x Ix). exact Kx.
    + split; [constructor; [intros []|constructor]|]. intros v [<-|[]]. exists 0%nat. split; [lia|left; auto].
  - left. split; auto. lia.
  - simpl length. clear - LW N3. nia.
Qed.

(*@ C96_finds *)
(** C96: so the loop of such walls is found, whatever the order of the sets, unless all of them run the
    same way round. *)
Lemma ring_finds : forall (schs : nat -> sched RA) wf fuel (g : list (seg RA)), (forall k, fair (schs k)) ->
  ring g -> (length g < 125)%nat -> uncrossed g -> ((2 * length g + 1) * (length g + 1) <= wf)%nat -> (0 < fuel)%nat ->
  (forall s, In s g -> sc s <> CLineSegment) -> ~ one_way g ->
  exists c h, find_loops schs wf fuel g = Ok (Some ([c], h)) /\ rearranged (value h c) g /\ isclosed (value h c) = Ok true.
Proof.
  intros schs wf fuel g FS RG LB UN LW LF CW NO. destruct (ring_walk_ends (schs fuel) wf g (FS fuel) RG LB LW) as (w & W & NR).
  assert (LG : (length g <= wf)%nat) by (clear - LW; nia). assert (LB' : (length g < 250)%nat) by lia.
  destruct (ring_returns schs wf fuel g w FS RG LB' UN LG LF CW NO W NR) as (c & h & EF). exists c, h. split; auto.
  destruct (ring_one_loop schs wf fuel g [c] h FS RG LB' UN LG EF) as (c' & Q & RC & CC & _). injection Q as <-. auto.
Qed.
(*@ C96_room *)
(** C96: and raum_erstellen makes the one room, provided the polygon can be cut into triangles. *)
Lemma ring_room : forall (schs : nat -> sched RA) wf fuel H HC lib inside inside2 Hs parts (g : list (seg RA)), (forall k, fair (schs k)) ->
  ring g -> (length g < 125)%nat -> uncrossed g -> ((2 * length g + 1) * (length g + 1) <= wf)%nat -> (0 < fuel)%nat ->
  (forall s, In s g -> sc s <> CLineSegment) -> ~ one_way g -> Permutation (concat parts) (seq 0 (length g)) ->
  (forall l, rearranged l g -> isclosed l = Ok true -> exists ts, triangle_mesh lib (fun _ _ => inside) l = Ok ts) ->
  exists walls, vessel_rooms schs wf fuel H HC lib inside inside2 Hs parts g = Ok (Some [mkraum "R1" 0 [] [walls] []]) /\
    Forall2 (Forall2 turned) walls (map (value g) parts).
Proof.
  intros schs wf fuel H HC lib inside inside2 Hs parts g FS RG LB UN LW LF CW NO PP TM.
  destruct (ring_finds schs wf fuel g FS RG LB UN LW LF CW NO) as (c & h & EF & RC & CC). destruct (TM _ RC CC) as (ts & ET).
  assert (LG : (length g <= wf)%nat) by (clear - LW; nia). assert (LB' : (length g < 250)%nat) by lia.
  assert (EX : exists rooms, vessel_rooms schs wf fuel H HC lib inside inside2 Hs parts g = Ok (Some rooms)).
  { unfold vessel_rooms. rewrite EF. cbn [bind]. unfold keep_base_polygons. cbn [mapM]. rewrite ET. cbn [bind base_cycles combine seq length].
    unfold segments_in_cycles. cbn [map]. eexists. reflexivity. }
  destruct EX as (rooms & EV). destruct (ring_one_room schs wf fuel H HC lib inside inside2 Hs parts g rooms FS RG LB' UN LG PP EV) as (walls & -> & T). eauto.
Qed.
