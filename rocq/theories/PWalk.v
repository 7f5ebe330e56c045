(** walk_segments and find_loops on a single cycle. *)
From Coq Require Import Reals ZArith Lra Lia Bool List Psatz Permutation Arith.
From Verif Require Import Base Arith ArithR ArithF MPoint MLine MPoly MGroup Spec SpecGroup PPoint PLine PShape PConvex POrder PInside PGroup.
Import ListNotations.
#[local] Existing Instance RA.

Lemma find_from_some : forall X (f : X -> bool) l k j, find_from f k l = Some j ->
  (k <= j)%nat /\ exists x, nth_error l (j - k) = Some x /\ f x = true.
Proof.
  induction l as [|x l IH]; intros k j E; simpl in E; [discriminate|].
  destruct (f x) eqn:F.
  - injection E as <-. split; [lia|]. rewrite Nat.sub_diag. exists x. auto.
  - apply IH in E as [L (y & E & Fy)]. split; [lia|]. exists y. split; auto.
    replace (j - k)%nat with (S (j - S k)) by lia. exact E.
Qed.
Lemma find_from_ex : forall X (f : X -> bool) l k x, In x l -> f x = true -> exists j, find_from f k l = Some j.
Proof.
  induction l as [|y l IH]; intros k x I F; [destruct I|]. simpl. destruct (f y) eqn:Fy; eauto.
  destruct I as [->|I]; [congruence|]. eauto.
Qed.
Lemma find_from_nil : forall X (f : X -> bool) l k, (forall x, In x l -> f x = false) -> find_from f k l = None.
Proof.
  induction l as [|y l IH]; intros k H; simpl; auto. rewrite (H y (or_introl eq_refl)). apply IH.
  intros x I. apply H. right; auto.
Qed.

Lemma seg_eqb_refl : forall s : seg RA, seg_eqb s s = true.
Proof. intros [c a b]. unfold seg_eqb. simpl. rewrite !pt_eqb_refl. destruct c; reflexivity. Qed.

(** * Segments that follow each other are not turned *)
Definition onward (l : list (seg RA)) : Prop :=
  forall x, In x l -> exists y, In y l /\ pt_eqb (si y) (sj x) = true /\ seg_eqb y x = false.

Lemma onward_step : forall l o x, onward l -> o_segs o = l -> nth_error l (o_akt o) = Some x -> o_end o = sj x ->
  exists o' x', order_step o = inl o' /\ o_segs o' = l /\ nth_error l (o_akt o') = Some x' /\ o_end o' = sj x'.
Proof.
  intros l o x W S A E. unfold order_step. rewrite S, A. cbv zeta.
  destruct (W x (nth_error_In _ _ A)) as (y & Iy & E1 & E2).
  destruct (find_from_ex _ (fun z : seg RA => pt_eqb (si z) (o_end o) && negb (seg_eqb z x)) l 0 y Iy) as [k K].
  { rewrite E, E1, E2. reflexivity. }
  rewrite K. destruct (find_from_some _ _ _ _ _ K) as [_ (z & Ez & _)]. rewrite Nat.sub_0_r in Ez. rewrite Ez.
  rewrite andb_false_r, Ez. eexists. exists z. split; [reflexivity|]. simpl. auto.
Qed.
Lemma onward_loop : forall l, onward l -> forall j c o x, o_segs o = l -> nth_error l (o_akt o) = Some x -> o_end o = sj x ->
  match order_loop j c o with Ok (inl o') => o_segs o' = l | Ok (inr _) => False | Err _ => True end.
Proof.
  intros l W. induction j as [|j IH]; intros c o x S A E; cbn [order_loop]; auto.
  destruct (onward_step l o x W S A E) as (o' & x' & -> & S' & A' & E').
  destruct (Nat.ltb 500 (Datatypes.S c)); auto. eapply IH; eauto.
Qed.
Lemma onward_order : forall l b r, onward l -> order l = Ok (b, r) -> b = true /\ incl r l.
Proof.
  intros [|akt l'] b r W H; [discriminate|]. set (l := akt :: l') in *.
  pose proof (onward_loop l W (2 * length l + 1) 0 (mko l 0 (sj akt) []) akt eq_refl eq_refl eq_refl) as Q.
  unfold order in H. change (match l with [] => Err IndexError | _ :: _ => _ end) with
    (r <- order_loop (2 * length l + 1) 0 (mko l 0 (sj akt) []) ;; 
     match r with inr segs => Ok (false, segs) | inl o =>
      let ret := flat_map (fun k => match nth_error (o_segs o) k with Some s => [s] | None => [] end) (o_ret o) in
      match sort_by order_key_ltb ret with [] => Err IndexError | first :: _ => Ok (true, rotate_to (length ret) first ret) end end) in H.
  destruct (order_loop (2 * length l + 1) 0 (mko l 0 (sj akt) [])) as [[o|segs]|e]; [|destruct Q|discriminate].
  cbn [bind] in H. cbv zeta in H. set (ret := flat_map _ (o_ret o)) in H.
  destruct (sort_by order_key_ltb ret) as [|f t]; [discriminate|]. injection H as <- <-. split; auto.
  intros s I. apply (Permutation_in _ (rotate_to_perm _ _ _ _)) in I. unfold ret in I.
  apply in_flat_map in I as (k & _ & I). rewrite Q in I. destruct (nth_error l k) eqn:K; [|destruct I].
  destruct I as [<-|[]]. eapply nth_error_In; eauto.
Qed.

(** * The walk goes backwards round the cycle *)
Section Back.
Variables (n : nat) (u : nat -> pt RA) (E : nat -> seg RA).
Hypothesis n3 : (3 <= n)%nat.
Hypothesis Ei : forall t, (t < n)%nat -> si (E t) = u t.
Hypothesis Ej0 : sj (E 0) = u (n - 1)%nat.
Hypothesis EjS : forall t, (S t < n)%nat -> sj (E (S t)) = u t.
Hypothesis sep : forall i j, (i < n)%nat -> (j < n)%nat -> pt_eqb (u i) (u j) = true -> i = j.

Definition prv (t : nat) : nat := match t with O => n - 1 | S t' => t' end%nat.
Lemma Ej : forall t, (t < n)%nat -> sj (E t) = u (prv t).
Proof. intros [|t] L; simpl; auto. Qed.
Lemma prv_lt : forall t, (t < n)%nat -> (prv t < n)%nat.
Proof. intros [|t] L; simpl; lia. Qed.
Lemma prv_inj : forall a b, (a < n)%nat -> (b < n)%nat -> prv a = prv b -> a = b.
Proof. intros [|a] [|b] La Lb H; simpl in *; lia. Qed.
Lemma ueq : forall i j, (i < n)%nat -> (j < n)%nat -> pt_eqb (u i) (u j) = Nat.eqb i j.
Proof.
  intros i j Li Lj. destruct (Nat.eqb_spec i j) as [->|N]; [apply pt_eqb_refl|].
  apply not_true_iff_false. intros H. apply N, sep; auto.
Qed.
Lemma Eeq : forall i j, (i < n)%nat -> (j < n)%nat -> seg_eqb (E i) (E j) = Nat.eqb i j.
Proof.
  intros i j Li Lj. destruct (Nat.eqb_spec i j) as [->|N]; [apply seg_eqb_refl|].
  unfold seg_eqb. rewrite (Ei i), (Ei j), ueq by auto. apply Nat.eqb_neq in N. rewrite N, ?andb_false_r. reflexivity.
Qed.
Lemma Einj : forall i j, (i < n)%nat -> (j < n)%nat -> E i = E j -> i = j.
Proof.
  intros i j Li Lj H. apply sep; auto. rewrite <- (Ei i), <- (Ei j), H by auto. apply pt_eqb_refl.
Qed.

Hypothesis nB : (n < 250)%nat.
(** A part of the cycle is not ordered and not changed. *)
Lemma path_loop : forall t l, (S t < n)%nat -> (forall x, In x l -> exists s, (s <= t)%nat /\ x = E s) -> (forall s, (s <= t)%nat -> In (E s) l) ->
  forall s, (s <= t)%nat -> forall m c o, (s < m)%nat -> (c + s <= 500)%nat -> o_segs o = l ->
  nth_error l (o_akt o) = Some (E s) -> o_end o = u (prv s) -> order_loop m c o = Ok (inr l).
Proof.
  intros t l T M1 M2. induction s as [|s IH]; intros Ls m c o Lm Lc SO A EN; (destruct m as [|m]; [lia|]); cbn [order_loop].
  - unfold order_step. rewrite SO, A. cbv zeta. rewrite EN. simpl prv.
    rewrite !find_from_nil; auto.
    + intros x I. destruct (M1 x I) as (s & Lx & ->). rewrite Ej, ueq, Eeq by (try apply prv_lt; lia).
      destruct s as [|s]; [apply andb_false_r|]. simpl prv. destruct (Nat.eqb_spec s (n - 1)); [lia|reflexivity].
    + intros x I. destruct (M1 x I) as (s & Lx & ->). rewrite Ei, ueq, Eeq by lia.
      destruct (Nat.eqb_spec s (n - 1)); [lia|reflexivity].
  - unfold order_step. rewrite SO, A. cbv zeta. rewrite EN. simpl prv.
    destruct (find_from_ex _ (fun z : seg RA => pt_eqb (si z) (u s) && negb (seg_eqb z (E (S s)))) l 0 (E s) (M2 s ltac:(lia))) as [k K].
    { rewrite Ei, ueq, Eeq, Nat.eqb_refl by lia. destruct (Nat.eqb_spec s (S s)); [lia|reflexivity]. }
    rewrite K. destruct (find_from_some _ _ _ _ _ K) as [_ (z & Ez & Fz)]. rewrite Nat.sub_0_r in Ez.
    assert (z = E s) as ->.
    { destruct (M1 z (nth_error_In _ _ Ez)) as (s' & Ls' & ->). rewrite Ei, ueq in Fz by lia.
      apply andb_true_iff in Fz as [Fz _]. apply Nat.eqb_eq in Fz. congruence. }
    rewrite Ez, andb_false_r, Ez. destruct (Nat.ltb_spec 500 (S c)); [lia|].
    apply IH; simpl; auto; try lia. rewrite Ej by lia. reflexivity.
Qed.

Lemma path_order : forall t l, (S t < n)%nat -> l <> [] -> (forall x, In x l -> exists s, (s <= t)%nat /\ x = E s) -> (forall s, (s <= t)%nat -> In (E s) l) ->
  (t < 2 * length l + 1)%nat -> order l = Ok (false, l) /\ order_objs l = l.
Proof.
  intros t [|akt l'] T NE M1 M2 LL; [congruence|]. set (l := akt :: l') in *.
  destruct (M1 akt) as (s & Ls & Es); [left; auto|].
  assert (Q : order_loop (2 * length l + 1) 0 (mko l 0 (sj akt) []) = Ok (inr l)).
  { apply (path_loop t l T M1 M2 s); auto; try lia; simpl; [congruence|]. rewrite Es. apply Ej. lia. }
  unfold order, order_objs. change (match l with [] => Err IndexError | _ :: _ => _ end) with
    (r <- order_loop (2 * length l + 1) 0 (mko l 0 (sj akt) []) ;; 
     match r with inr segs => Ok (false, segs) | inl o =>
      let ret := flat_map (fun k => match nth_error (o_segs o) k with Some s => [s] | None => [] end) (o_ret o) in
      match sort_by order_key_ltb ret with [] => Err IndexError | first :: _ => Ok (true, rotate_to (length ret) first ret) end end).
  change (match l with [] => [] | _ :: _ => _ end) with
    (match order_loop (2 * length l + 1) 0 (mko l 0 (sj akt) []) with Ok (inr segs) => segs | Ok (inl o) => o_segs o | Err _ => l end).
  rewrite Q. split; reflexivity.
Qed.

Lemma filter_map_len : forall X Y (f : X -> Y) (p : Y -> bool) l, map f (filter (fun x => p (f x)) l) = filter p (map f l).
Proof. induction l as [|x l IH]; simpl; auto. destruct (p (f x)); simpl; rewrite IH; reflexivity. Qed.
Lemma perm_filter : forall X (p : X -> bool) (l l' : list X), Permutation l l' -> Permutation (filter p l) (filter p l').
Proof.
  intros X p l l' H. induction H; simpl; auto.
  - destruct (p x); auto.
  - destruct (p x), (p y); auto. apply perm_swap.
  - etransitivity; eauto.
Qed.
Lemma filter_all : forall X (p : X -> bool) l, (forall x, In x l -> p x = true) -> filter p l = l.
Proof. induction l as [|x l IH]; intros H; simpl; auto. rewrite (H x (or_introl eq_refl)). f_equal. apply IH. intros; apply H; right; auto. Qed.
Lemma filter_none : forall X (p : X -> bool) l, (forall x, In x l -> p x = false) -> filter p l = [].
Proof. induction l as [|x l IH]; intros H; simpl; auto. rewrite (H x (or_introl eq_refl)). apply IH. intros; apply H; right; auto. Qed.

Definition nvok (t : nat) (nv : list (welt RA)) : Prop :=
  Permutation (map w_cur nv) (map E (seq t (n - t))) /\ (forall x, In x nv -> w_key x = w_cur x) /\ NoDup (map w_id nv).

Lemma nvok_in : forall t nv x, nvok t nv -> In x nv -> exists s, (t <= s < n)%nat /\ w_cur x = E s.
Proof.
  intros t nv x (P & _) I. apply (in_map w_cur) in I. apply (Permutation_in _ P) in I.
  apply in_map_iff in I as (s & <- & I). apply in_seq in I. exists s. split; auto. lia.
Qed.

Lemma nvok_discard : forall t nv, (t < n)%nat -> nvok t nv -> nvok (S t) (discard (E t) nv).
Proof.
  intros t nv L O. pose proof O as (P & K & N).
  assert (D : discard (E t) nv = filter (fun x => negb (seg_eqb (w_cur x) (E t))) nv).
  { unfold discard. apply filter_ext_in. intros x I. rewrite (K x I). destruct (nvok_in t nv x O I) as (s & Ls & ->).
    rewrite Eeq by lia. destruct (Nat.eqb_spec s t) as [->|Ne]; [|rewrite andb_false_r; reflexivity].
    unfold same_hash. rewrite !(proj2 (pt_sameb_iff _ _) eq_refl). reflexivity. }
  rewrite D. split; [|split].
  - rewrite (filter_map_len _ _ w_cur (fun c => negb (seg_eqb c (E t)))).
    rewrite (perm_filter _ _ _ _ P). replace (n - t)%nat with (S (n - S t)) by lia. simpl.
    rewrite Eeq, Nat.eqb_refl by lia. simpl.
    rewrite <- (filter_map_len _ _ E (fun c => negb (seg_eqb c (E t)))).
    rewrite filter_all; [reflexivity|]. intros s I. apply in_seq in I. rewrite Eeq by lia.
    destruct (Nat.eqb_spec s t); [lia|reflexivity].
  - intros x I. apply filter_In in I as [I _]. auto.
  - clear -N. induction nv as [|x nv IH]; simpl; [constructor|]. simpl in N. inversion N; subst.
    destruct (negb _); auto. simpl. constructor; auto. intros I. apply H1.
    apply in_map_iff in I as (y & <- & I). apply filter_In in I as [I _]. apply in_map; auto.
Qed.

Lemma back_candidates : forall t nv it, (S t < n)%nat -> nvok t nv -> Permutation it nv ->
  exists nxt, candidates (E t) (u t) it = [nxt] /\ w_cur nxt = E (S t) /\ In nxt nv.
Proof.
  intros t nv it L O PI. pose proof O as (P & K & N).
  assert (IN : forall x, In x it -> exists s, (t <= s < n)%nat /\ w_cur x = E s).
  { intros x I. apply (nvok_in t nv); auto. apply (Permutation_in _ PI); auto. }
  unfold candidates. rewrite filter_none.
  2:{ intros x I. destruct (IN x I) as (s & Ls & ->). rewrite Ei, ueq, Eeq by lia.
      rewrite (Nat.eqb_sym t s). destruct (Nat.eqb s t); reflexivity. }
  set (p := fun c : seg RA => ((pt_eqb (u t) (si c) || pt_eqb (u t) (sj c)) && negb (seg_eqb c (E t)))%bool).
  change (filter _ it) with (filter (fun x => p (w_cur x)) it).
  assert (PE : forall s, (t <= s < n)%nat -> p (E s) = Nat.eqb s (S t)).
  { intros s Ls. unfold p. rewrite Ei, Ej, !ueq, Eeq by (try apply prv_lt; lia).
    destruct s as [|s]; simpl prv.
    - assert (t = 0)%nat as -> by lia. reflexivity.
    - destruct (Nat.eqb_spec t s); destruct (Nat.eqb_spec t (S s)); destruct (Nat.eqb_spec (S s) t); destruct (Nat.eqb_spec (S s) (S t)); try lia; reflexivity. }
  assert (M : Permutation (map w_cur (filter (fun x => p (w_cur x)) it)) [E (S t)]).
  { rewrite (filter_map_len _ _ w_cur p). rewrite (perm_filter _ p _ _ (Permutation_map w_cur PI)), (perm_filter _ p _ _ P).
    replace (n - t)%nat with (S (S (n - S (S t)))) by lia. simpl. rewrite !PE by lia.
    destruct (Nat.eqb_spec t (S t)); [lia|]. rewrite Nat.eqb_refl. constructor.
    rewrite <- (filter_map_len _ _ E p). rewrite filter_none; [reflexivity|]. intros s I. apply in_seq in I.
    rewrite PE by lia. destruct (Nat.eqb_spec s (S t)); [lia|reflexivity]. }
  apply Permutation_sym, Permutation_length_1_inv in M.
  destruct (filter (fun x => p (w_cur x)) it) as [|nxt [|? ?]] eqn:EF; try discriminate.
  injection M as M. exists nxt. split; auto. split; auto. apply (Permutation_in _ PI).
  assert (I : In nxt [nxt]) by (left; auto). rewrite <- EF in I. apply filter_In in I. tauto.
Qed.

Lemma memb_E : forall t, (S t < n)%nat -> memb seg_sameb (E (S t)) (map E (seq 0 (S t))) = false.
Proof.
  intros t L. apply not_true_iff_false. intros M. apply (memb_In _ _ seg_sameb_iff) in M.
  apply in_map_iff in M as (s & H & I). apply in_seq in I. apply Einj in H; lia.
Qed.

Lemma back_marked : forall vis (x d : seg RA) ls, Permutation ls (map (fun s => (s, false)) vis ++ [(x, true)]) ->
  marked ls (map fst ls) d = x.
Proof.
  intros vis x d ls P. unfold marked.
  assert (C : forall ls : list (seg RA * bool), combine (map fst ls) ls = map (fun y => (fst y, y)) ls).
  { induction ls0 as [|[a b] ls0 IH]; simpl; f_equal; auto. }
  rewrite C.
  assert (Q : Permutation (filter (fun '(_, (_, b)) => b) (map (fun y : seg RA * bool => (fst y, y)) ls)) [(x, (x, true))]).
  { rewrite (perm_filter _ _ _ _ (Permutation_map _ P)). rewrite map_app, filter_app. simpl.
    rewrite filter_none; [reflexivity|]. intros y I. rewrite map_map in I. apply in_map_iff in I as (z & <- & _). reflexivity. }
  apply Permutation_sym, Permutation_length_1_inv in Q. rewrite Q. reflexivity.
Qed.

Lemma set_add_seq : forall t vis, (t < n)%nat -> (vis = map E (seq 0 t) \/ (t = 0%nat /\ vis = [E 0])) -> set_add vis (E t) = map E (seq 0 (S t)).
Proof.
  intros t vis L [->|[-> ->]]; unfold set_add.
  - assert (M : memb seg_sameb (E t) (map E (seq 0 t)) = false).
    { apply not_true_iff_false. intros M. apply (memb_In _ _ seg_sameb_iff) in M.
      apply in_map_iff in M as (s & H & I). apply in_seq in I. apply Einj in H; lia. }
    rewrite M, seq_S, map_app. reflexivity.
  - simpl. rewrite (proj2 (seg_sameb_iff _ _) eq_refl). reflexivity.
Qed.

Lemma walk_back : forall sch, fair sch -> forall d t fuel k nv vis, (t + d + 2 = n)%nat -> (d < fuel)%nat -> nvok t nv ->
  (vis = map E (seq 0 t) \/ (t = 0%nat /\ vis = [E 0])) ->
  exists l, Permutation l (map E (seq 0 n)) /\
    (forall r, order l = Ok (true, r) -> isclosed r = Ok true -> walk_loop sch fuel k nv vis (E t) (u t) false = Ok (Loop r)).
Proof.
  intros sch [F1 F2]. induction d as [|d IH]; intros t fuel k nv vis T LF O V; (destruct fuel as [|fuel]; [lia|]);
  destruct (back_candidates t nv (it_nv sch k nv) ltac:(lia) O (F1 k nv)) as (nxt & EC & EX & IX);
  set (ls := it_segs sch k (walk_segs (map E (seq 0 (S t))) (E (S t))));
  assert (PL : Permutation ls (map (fun s => (s, false)) (map E (seq 0 (S t))) ++ [(E (S t), true)])) by
    (unfold ls; rewrite F2; unfold walk_segs; rewrite memb_E by lia; reflexivity);
  assert (PM : Permutation (map fst ls) (map E (seq 0 (S (S t))))) by
    (rewrite (Permutation_map fst PL), map_app, (map_map _ fst), (seq_S (S t) 0), (map_app E); cbn [fst]; rewrite map_id; reflexivity);
  assert (NV : nv <> []) by (intros ->; destruct O as (P & _); apply Permutation_nil in P; replace (n - t)%nat with (S (n - S t)) in P by lia; discriminate);
  assert (FI : filter (fun x => negb (pt_eqb x (u t))) (ij (E (S t))) = [u (S t)]) by
    (unfold ij; simpl; rewrite Ei, EjS, !ueq by lia; rewrite Nat.eqb_refl; destruct (Nat.eqb_spec (S t) t); [lia|reflexivity]).
  - exists (map fst ls). replace (S (S t)) with n in PM by lia. split; auto. intros r EO CL.
    cbn [walk_loop]. destruct nv as [|w nv']; [congruence|]. rewrite EC, EX, FI. cbv zeta.
    rewrite set_add_seq by (auto; lia). fold ls. rewrite EO. cbn [bind]. rewrite CL. reflexivity.
  - assert (O' : nvok (S t) (discard (E t) nv)) by (apply nvok_discard; auto; lia).
    destruct (IH (S t) fuel (S k) (discard (E t) nv) (map E (seq 0 (S t))) ltac:(lia) ltac:(lia) O' (or_introl eq_refl)) as (l & PLL & Q).
    exists l. split; auto. intros r EO CL. specialize (Q r EO CL).
    cbn [walk_loop]. destruct nv as [|w nv'] eqn:ENV; [congruence|]. rewrite <- ENV in *. rewrite EC, EX, FI. cbv zeta.
    rewrite set_add_seq by (auto; lia). fold ls.
    destruct (path_order (S t) (map fst ls)) as [E1 E2]; try lia.
    + intros H. rewrite H in PM. apply Permutation_nil in PM. discriminate.
    + intros x I. apply (Permutation_in _ PM) in I. apply in_map_iff in I as (s & <- & I). apply in_seq in I. exists s. split; auto. lia.
    + intros s Ls. apply (Permutation_in _ (Permutation_sym PM)). apply in_map. apply in_seq. lia.
    + rewrite (Permutation_length PM), map_length, seq_length. lia.
    + rewrite E1. cbn [bind andb]. rewrite E2, (back_marked _ _ _ _ PL).
      rewrite <- Q. f_equal. rewrite <- (map_id (discard (E t) nv)) at 2. apply map_ext_in.
      intros x I. destruct (Nat.eqb_spec (w_id x) (w_id nxt)) as [EI|]; auto.
      assert (x = nxt) as ->.
      { unfold discard in I. apply filter_In in I as [I _]. destruct O as (_ & _ & N).
        destruct (In_nth_error _ _ I) as [a Ka]. destruct (In_nth_error _ _ IX) as [b Kb].
        assert (a = b); [|congruence]. 
        apply (proj1 (NoDup_nth_error (map w_id nv)) N).
        - rewrite map_length. apply nth_error_Some. congruence.
        - rewrite !nth_error_map, Ka, Kb. simpl. congruence. }
      rewrite <- EX. destruct nxt; reflexivity.
Qed.
End Back.

Lemma cycle_fst : forall X (vs : list X), map fst (cycle_edges vs) = vs.
Proof.
  intros X [|v vs]; auto. unfold cycle_edges.
  assert (H : forall (a b : list X), length a = length b -> map fst (combine a b) = a).
  { induction a as [|x a IH]; intros [|y b] L; simpl in *; try discriminate; auto. f_equal. apply IH. lia. }
  apply H. rewrite app_length. simpl. lia.
Qed.

(** The cycle walked backwards from its first given segment. *)
Lemma back_setup : forall (vs : list (pt RA)) (given : list (seg RA)) s0 rest, (3 <= length vs)%nat -> NoDup vs -> separated vs ->
  directed_cycle vs given -> given = s0 :: rest ->
  let n := length vs in
  exists u E, (forall t, (t < n)%nat -> si (E t) = u t) /\ sj (E 0%nat) = u (n - 1)%nat /\
    (forall t, (S t < n)%nat -> sj (E (S t)) = u t) /\
    (forall i j, (i < n)%nat -> (j < n)%nat -> pt_eqb (u i) (u j) = true -> i = j) /\
    E 0%nat = s0 /\ Permutation (map E (seq 0 n)) given.
Proof.
  intros vs given s0 rest N3 ND SEP (cyc & PC & EC) EG n.
  assert (Lc : length cyc = n) by (rewrite <- (map_length (fun s => (si s, sj s))), EC, cycle_edges_length; reflexivity).
  assert (I0 : In s0 cyc) by (apply (Permutation_in _ PC); rewrite EG; left; auto).
  apply (In_nth _ _ s0) in I0 as (m & Lm & Em). rewrite Lc in Lm.
  assert (exists d, In d vs) as (d & _) by (destruct vs as [|d vs']; [simpl in N3; lia|exists d; left; auto]).
  assert (MB : forall x, (x mod n < n)%nat) by (intros; apply Nat.mod_upper_bound; unfold n; lia).
  set (V := fun x => nth (x mod n) vs d). set (C := fun x => nth (x mod n) cyc s0).
  assert (CV : forall x, si (C x) = V x /\ sj (C x) = V (S x)).
  { intros x. assert (K : nth_error (map (fun s => (si s, sj s)) cyc) (x mod n) = Some (si (C x), sj (C x))).
    { rewrite nth_error_map. unfold C. rewrite (nth_error_nth' cyc s0); [reflexivity|]. rewrite Lc. apply MB. }
    rewrite EC in K. apply cycle_edges_nth in K as [K1 K2]. fold n in K2.
    apply (nth_error_nth _ _ d) in K1. apply (nth_error_nth _ _ d) in K2. unfold V. split; [congruence|].
    rewrite <- K2. f_equal. rewrite <- (Nat.add_1_r x), <- Nat.add_mod_idemp_l by lia. rewrite Nat.add_1_r.
    destruct (Nat.eqb_spec (S (x mod n)) n) as [->|Ne]; [symmetry; apply Nat.mod_same; lia|].
    symmetry; apply Nat.mod_small. specialize (MB x). lia. }
  assert (VJ : forall a b, (m < a <= m + n)%nat -> (m < b <= m + n)%nat -> (a mod n = b mod n)%nat -> a = b).
  { intros a b A B H. pose proof (Nat.div_mod a n ltac:(lia)) as Da. pose proof (Nat.div_mod b n ltac:(lia)) as Db. rewrite H in Da.
    revert Da Db. generalize (a / n)%nat (b / n)%nat (b mod n)%nat. intros qa qb q Da Db. clear -A B Da Db.
    assert (qa = qb); [|congruence]. destruct (lt_eq_lt_dec qa qb) as [[G|G]|G]; auto; exfalso; nia. }
  exists (fun t => V (m + n - t)%nat), (fun t => C (m + n - t)%nat).
  split; [intros t _; apply CV|]. split.
  { rewrite Nat.sub_0_r. rewrite (proj2 (CV _)). unfold V. f_equal.
    replace (S (m + n)) with (S m + 1 * n)%nat by lia. rewrite Nat.mod_add by lia. f_equal. lia. }
  split; [intros t L; rewrite (proj2 (CV _)); f_equal; lia|]. split.
  { intros i j Li Lj H. assert (m + n - i = m + n - j)%nat; [|lia].
    apply VJ; try lia. apply (separated_eqb _ SEP) in H; try (apply nth_In, MB).
    apply (proj1 (NoDup_nth vs d) ND) in H; auto; apply MB. }
  split.
  { unfold C. rewrite Nat.sub_0_r. replace (m + n)%nat with (m + 1 * n)%nat by lia. rewrite Nat.mod_add, Nat.mod_small by lia. exact Em. }
  rewrite PC. apply NoDup_Permutation_bis.
  - apply NoDup_map_in; [|apply seq_NoDup]. intros a b Ia Ib H. apply in_seq in Ia, Ib.
    apply (f_equal si) in H. rewrite !(proj1 (CV _)) in H. 
    assert (m + n - a = m + n - b)%nat; [|lia]. apply VJ; try lia.
    apply (proj1 (NoDup_nth vs d) ND) in H; auto; apply MB.
  - rewrite map_length, seq_length. lia.
  - intros x I. apply in_map_iff in I as (t & <- & _). unfold C. apply nth_In. rewrite Lc. apply MB.
Qed.

Lemma directed_onward : forall vs given, (3 <= length vs)%nat -> NoDup vs -> separated vs -> directed_cycle vs given -> onward given.
Proof.
  intros vs given N3 ND SEP D.
  destruct given as [|s0 rest] eqn:EG.
  { intros x []. }
  destruct (back_setup vs given s0 rest N3 ND SEP) as (u & E & Ei & E0 & ES & sep & Es & P); [rewrite EG; auto|auto|].
  rewrite <- EG. set (n := length vs) in *.
  intros x I. apply (Permutation_in _ (Permutation_sym P)) in I. apply in_map_iff in I as (t & <- & I). apply in_seq in I.
  exists (E (prv n t)). split; [|split].
  - apply (Permutation_in _ P). apply in_map. apply in_seq. pose proof (prv_lt n N3 t). lia.
  - rewrite (Ej n u E E0 ES) by lia. rewrite Ei by (apply prv_lt; lia). apply pt_eqb_refl.
  - rewrite (Eeq n u E Ei sep) by (try apply prv_lt; lia). destruct (Nat.eqb_spec (prv n t) t) as [H|]; auto.
    destruct t; simpl in H; lia.
Qed.

(*@ C46_walk_finds *)
(** C46: given the edges of one cycle (3 to 249 corners, no two of them identified by ==, all edges
    running the same way round) in any order, walk_segments returns the cycle, whatever the order in
    which Python visits the sets. *)
Lemma walk_finds : forall (vs : list (pt RA)) (given : list (seg RA)) (sch : sched RA) fuel,
  (3 <= length vs < 250)%nat -> NoDup vs -> separated vs -> directed_cycle vs given -> fair sch -> (length vs <= fuel)%nat ->
  exists us r, walk_segments sch fuel given None = Ok (Loop r) /\ Permutation r given /\
    Permutation us vs /\ map (fun s => (si s, sj s)) r = cycle_edges us /\ isclosed r = Ok true.
Proof.
  intros vs given sch fuel [N3 NB] ND SEP D F LF.
  destruct given as [|s0 rest] eqn:EG.
  { destruct D as (cyc & P & EC). apply Permutation_nil in P. subst cyc. simpl in EC.
    apply (f_equal (@length _)) in EC. rewrite cycle_edges_length in EC. simpl in EC. lia. }
  rewrite <- EG in *.
  destruct (back_setup vs given s0 rest N3 ND SEP D EG) as (u & E & Ei & E0 & ES & sep & Es & P).
  set (n := length vs) in *.
  assert (Nd : NoDup given).
  { apply (Permutation_NoDup P). apply NoDup_map_in; [|apply seq_NoDup]. intros a b Ia Ib H. apply in_seq in Ia, Ib.
    apply (Einj n u E Ei sep); auto; lia. }
  assert (NI : map w_cur (nv_init given) = dedup seg_sameb given /\ (forall x, In x (nv_init given) -> w_key x = w_cur x) /\ NoDup (map w_id (nv_init given))).
  { unfold nv_init. generalize (dedup seg_sameb given) as l. intros l. split; [|split].
    - rewrite map_map. rewrite <- (number_snd _ l 0) at 2. apply map_ext. intros [k s]. reflexivity.
    - intros x I. apply in_map_iff in I as ([k s] & <- & _). reflexivity.
    - rewrite map_map. assert (H : forall (l : list (seg RA)) k, map (fun x => w_id (let '(k, s) := x in mkw k s s)) (number k l) = seq k (length l)).
      { induction l0 as [|x l0 IH]; intros k; simpl; f_equal; auto. }
      rewrite H. apply seq_NoDup. }
  destruct NI as (NI1 & NI2 & NI3).
  assert (O0 : nvok n E 0 (nv_init given)).
  { split; [|split]; auto. rewrite NI1, Nat.sub_0_r, P. apply dedup_perm; auto. }
  destruct (walk_back n u E N3 Ei E0 ES sep NB sch F (n - 2) 0 fuel 1 (nv_init given) [E 0%nat] ltac:(lia) ltac:(lia) O0 (or_intror (conj eq_refl eq_refl)))
    as (l & PL & Q).
  assert (DL : directed_cycle vs l) by (destruct D as (cyc & PC & EC); exists cyc; split; auto; rewrite PL, P; auto).
  destruct D as (cyc & PC & EC).
  assert (PLC : Permutation l cyc) by (rewrite PL, P; auto).
  destruct (order_spec vs l cyc) as (us & r & EO & RE & PU & EE & CO & CL & _); auto.
  { rewrite <- EC. clear. induction cyc as [|s cyc IH]; simpl; constructor; auto. left. split; reflexivity. }
  exists us, r. split; [|split; [|auto]].
  - unfold walk_segments. rewrite EG. cbn [get nth_error bind]. rewrite <- EG.
    assert (U0 : si s0 = u 0%nat) by (rewrite <- Es; apply Ei; lia).
    set (it := it_nv sch 0 (nv_init given)).
    assert (PI : Permutation it (nv_init given)) by apply F.
    destruct (filter (fun x => pt_eqb (si s0) (si (w_cur x))) it) as [|akt more] eqn:EF.
    + exfalso. assert (I0 : In s0 (map w_cur it)).
      { apply (Permutation_in _ (Permutation_sym (Permutation_map w_cur PI))). rewrite NI1. apply dedup_In; [apply seg_sameb_iff|]. rewrite EG. left; auto. }
      apply in_map_iff in I0 as (w & Ew & Iw).
      assert (K : In w (filter (fun x => pt_eqb (si s0) (si (w_cur x))) it)) by (apply filter_In; split; auto; rewrite Ew; apply pt_eqb_refl).
      rewrite EF in K. destruct K.
    + assert (K : In akt (akt :: more)) by (left; auto). rewrite <- EF in K. apply filter_In in K as [K1 K2].
      destruct (nvok_in n E N3 NB 0 (nv_init given) akt O0 (Permutation_in _ PI K1)) as (s & Ls & Ec).
      rewrite Ec, Ei, U0 in K2 by lia. assert (s = 0%nat) as -> by (symmetry; apply sep; auto; lia).
      rewrite Ec, U0. apply Q; auto.
  - assert (OW : onward l).
    { apply (directed_onward vs); auto. }
    destruct (onward_order l true r OW EO) as [_ IN].
    assert (Lr : length r = n).
    { rewrite <- (map_length (fun s => (si s, sj s))), EE, cycle_edges_length. apply Permutation_length; auto. }
    assert (Nr : NoDup r).
    { apply (NoDup_map_inv si). replace (map si r) with us; [apply (Permutation_NoDup (Permutation_sym PU)); auto|].
      rewrite <- (cycle_fst _ us), <- EE, map_map. reflexivity. }
    rewrite <- P, <- PL. apply NoDup_Permutation_bis; auto.
    rewrite (Permutation_length PL), map_length, seq_length. lia.
Qed.

(*@ C46_single_loop_refuted *)
(** C46, finding: if the segments are the edges of one cycle and run the same way round, find_loops does
    not return the cycle: it raises an IndexError, because after the cycle has been taken out it walks
    the empty graph.  (For any number of corners from 3 to 249 and any order of the sets.) *)
Lemma single_loop : forall (vs : list (pt RA)) (graph : list (seg RA)) (schs : nat -> sched RA) wfuel fuel,
  (3 <= length vs < 250)%nat -> NoDup vs -> separated vs -> directed_cycle vs graph ->
  (forall k, fair (schs k)) -> (length vs <= wfuel)%nat -> (0 < fuel)%nat ->
  find_loops schs wfuel fuel graph = Err IndexError.
Proof.
  intros vs graph schs wfuel fuel N ND SEP D F LW LF. destruct fuel as [|fuel]; [lia|].
  destruct (walk_finds vs graph (schs (S fuel)) wfuel N ND SEP D (F _) LW) as (us & r & EW & PR & _ & _ & _).
  unfold find_loops. cbn [walk_rounds l_heap l_graph l_cycles].
  assert (V : value graph (seq 0 (length graph)) = graph) by (apply (value_seq graph [])).
  rewrite V, EW. cbn [bind in_cycles existsb]. cbv zeta.
  set (ids := seq (length graph) (length r)).
  assert (FL : filter (fun x => negb (used_by (graph ++ r) ids x)) (seq 0 (length graph)) = []).
  { apply filter_none. intros k I. apply in_seq in I. apply negb_false_iff. unfold used_by.
    destruct (nth_error graph k) as [s|] eqn:EK; [|apply nth_error_None in EK; lia].
    assert (OK : obj (graph ++ r) k = [s]) by (unfold obj; rewrite nth_error_app1, EK by lia; reflexivity).
    rewrite OK. cbn [existsb]. rewrite orb_false_r. apply orb_true_iff. left. unfold in_poly. apply existsb_exists.
    assert (IR : In s r) by (apply (Permutation_in _ (Permutation_sym PR)); eapply nth_error_In; eauto).
    destruct (In_nth_error _ _ IR) as [j EJ].
    exists (length graph + j)%nat. split.
    - unfold ids. apply in_seq. assert (j < length r)%nat by (apply nth_error_Some; congruence). lia.
    - apply orb_true_iff. right. unfold obj. rewrite nth_error_app2 by lia.
      replace (length graph + j - length graph)%nat with j by lia. rewrite EJ. simpl. rewrite seg_eqb_refl. reflexivity. }
  rewrite FL. destruct fuel as [|fuel]; reflexivity.
Qed.

Definition plain_sched (A : Arith) : sched A := mksched (fun _ l => l) (fun _ l => l).
Definition swap2 {X} (l : list X) : list X := match l with a :: b :: r => b :: a :: r | _ => l end.
Definition swap_sched (A : Arith) : sched A := mksched (fun _ l => l) (fun _ l => swap2 l).
Lemma plain_fair : forall A, fair (plain_sched A).
Proof. intros A. split; intros; simpl; reflexivity. Qed.
Lemma swap_fair : forall A, fair (swap_sched A).
Proof. intros A. split; intros k l; simpl; [reflexivity|]. destruct l as [|a [|b l]]; simpl; auto. apply perm_swap. Qed.

(*@ex C46_example *)
(** C46: the hypotheses of the theorems about a cycle hold for a triangle. *)
Lemma walk_example : let vs := [@mkpt RA 3 1; @mkpt RA 9 2; @mkpt RA 4 7]%R in
  (3 <= length vs < 250)%nat /\ NoDup vs /\ separated vs /\ directed_cycle vs (rev (cycle_poly vs)) /\ fair (plain_sched RA) /\ fair (swap_sched RA).
Proof.
  destruct order_example as (H1 & H2 & H3 & _). simpl in *. split; [lia|]. split; [exact H2|]. split; [exact H3|].
  split; [|split; [apply plain_fair|apply swap_fair]].
  exists (cycle_poly [@mkpt RA 3 1; @mkpt RA 9 2; @mkpt RA 4 7]%R). split; [|reflexivity].
  apply (Permutation_sym (Permutation_rev [_; _; _])).
Qed.

(*@ C46_shared_segment_refuted *)
(** C46, finding (binary64): for two triangles with a common side find_loops returns a polygon that is
    not closed: ordering the second triangle turns the common segment round, and the first triangle,
    which is already in the list, refers to the same segment object. *)
Lemma shared_segment : forall L : Libm,
  let s a b c d := LineSegment (Point_new (nofZ a) (nofZ b)) (Point_new (nofZ c) (nofZ d)) : seg (FA L) in
  let graph := [s 4 0 2 3; s 2 3 0 0; s 2 (-3) 4 0; s 0 0 2 (-3); s 0 0 4 0]%Z in
  exists cs h c, find_loops (fun _ => plain_sched (FA L)) 10 5 graph = Ok (Some (cs, h)) /\ length cs = 3%nat /\
    In c cs /\ isclosed (value h c) = Ok false.
Proof.
  intros L s graph.
  assert (H : match find_loops (fun _ => plain_sched (FA L)) 10 5 graph with
    | Ok (Some (cs, h)) => Nat.eqb (length cs) 3 && existsb (fun c => match isclosed (value h c) with Ok b => negb b | Err _ => false end) cs
    | _ => false end = true) by (vm_compute; reflexivity).
  destruct (find_loops (fun _ => plain_sched (FA L)) 10 5 graph) as [[[cs h]|]|]; try discriminate.
  apply andb_true_iff in H as [H1 H]. apply Nat.eqb_eq in H1. apply existsb_exists in H as (c & I & K). exists cs, h, c.
  split; auto. split; auto. split; auto. destruct (isclosed (value h c)) as [[|]|]; try discriminate. reflexivity.
Qed.

(*@ C46_set_order_refuted *)
(** C46, finding (binary64): whether walk_segments finds the outline of a square whose sides run in
    different directions depends on the order in which Python visits a set. *)
Lemma set_order : forall L : Libm,
  let s a b c d := LineSegment (Point_new (nofZ a) (nofZ b)) (Point_new (nofZ c) (nofZ d)) : seg (FA L) in
  let square := [s 0 0 0 4; s 0 0 4 0; s 4 4 4 0; s 0 4 4 4]%Z in
  (exists r, walk_segments (plain_sched (FA L)) 10 square None = Ok (Loop r)) /\
  walk_segments (swap_sched (FA L)) 10 square None = Ok NoLoop.
Proof.
  intros L s square. split.
  - assert (H : match walk_segments (plain_sched (FA L)) 10 square None with Ok (Loop _) => true | _ => false end = true) by (vm_compute; reflexivity).
    destruct (walk_segments (plain_sched (FA L)) 10 square None) as [[| |r]|]; try discriminate. exists r. reflexivity.
  - assert (H : match walk_segments (swap_sched (FA L)) 10 square None with Ok NoLoop => true | _ => false end = true) by (vm_compute; reflexivity).
    destruct (walk_segments (swap_sched (FA L)) 10 square None) as [[| |r]|]; try discriminate. reflexivity.
Qed.
