(** Rooms, raum_intex, from_dict *)
From Coq Require Import String DecimalString DecimalNat ZArith Bool List Arith Permutation Lia.
From Verif Require Import Base Arith ArithR MPoint MLine MPoly MCycles MRaum SpecCycles SpecRaum PPoint PCycles PSplit PChecker.
Import ListNotations.
Local Open Scope list_scope.

(** ** rooms *)
Section Rooms.
Context {P : Type} (eqb : P -> P -> bool) (sic : list (nat * list P)) (contained : list (nat * list nat)) (Hs : nat -> hashing P).
Hypothesis (ND : NoDup (map fst sic)).
Definition shown (m : nat) (x : P) : Prop := memb eqb x (all_overlapping_segments eqb (Hs m) sic) = false.
Definition of_pair (k : nat * nat) (x : P) : Prop := exists s l, (s = fst k \/ s = snd k) /\ In (s, l) sic /\ In x l.

Lemma NE : decides_eq Nat.eqb.
Proof. intros a b. apply Nat.eqb_eq. Qed.

Lemma unshared_spec : forall xs n n' l, unshared eqb sic Hs n xs = (n', l) ->
  (forall y, In y l -> In y xs /\ exists m, shown m y) /\ (forall y, In y xs -> (forall m, shown m y) -> In y l).
Proof.
  induction xs as [|x r IH]; simpl; intros n n' l H.
  - injection H as <- <-. split; [easy|easy].
  - destruct (unshared eqb sic Hs (S n) r) as [n1 l1] eqn:E. apply IH in E. destruct E as [E1 E2].
    destruct (memb eqb x (all_overlapping_segments eqb (Hs n) sic)) eqn:M; injection H as <- <-; split.
    + intros y Y. apply E1 in Y. tauto.
    + intros y [->|Y] F; [specialize (F n); unfold shown in F; congruence|auto].
    + intros y [->|Y]; [split; auto; exists n; auto|]. apply E1 in Y. tauto.
    + intros y [->|Y] F; simpl; auto.
Qed.
Lemma pair_walls_spec : forall n k n' l, pair_walls eqb sic Hs n k = Ok (n', l) ->
  (forall y, In y l -> of_pair k y /\ exists m, shown m y) /\ (forall y, of_pair k y -> (forall m, shown m y) -> In y l).
Proof.
  intros n k n' l H. unfold pair_walls in H.
  destruct (lookup Nat.eqb (fst k) sic) as [a|] eqn:LA; simpl in H; [|discriminate].
  destruct (unshared eqb sic Hs n a) as [n1 la] eqn:UA.
  destruct (lookup Nat.eqb (snd k) sic) as [b|] eqn:LB; simpl in H; [|discriminate].
  destruct (unshared eqb sic Hs n1 b) as [n2 lb] eqn:UB. injection H as <- <-.
  apply unshared_spec in UA, UB. destruct UA as [A1 A2], UB as [B1 B2].
  apply (lookup_ok _ _ _ NE) in LA, LB. split.
  - intros y Y. apply in_app_iff in Y. destruct Y as [Y|Y].
    + apply A1 in Y. destruct Y. split; auto. exists (fst k), a. auto.
    + apply B1 in Y. destruct Y. split; auto. exists (snd k), b. auto.
  - intros y (s & m & [-> | ->] & I & J) F; apply in_app_iff.
    + left. apply A2; auto. replace a with m; auto. apply (lookup_in _ _ _ NE) in I, LA; auto. congruence.
    + right. apply B2; auto. replace b with m; auto. apply (lookup_in _ _ _ NE) in I, LB; auto. congruence.
Qed.
Lemma extend_at_in : forall i l iw, i < List.length iw -> forall y : P, In y (concat (extend_at i l iw)) <-> In y (concat iw) \/ In y l.
Proof.
  intros i l iw L y. unfold extend_at. destruct (skipn i iw) as [|z r] eqn:S.
  - exfalso. apply (f_equal (@List.length _)) in S. rewrite skipn_length in S. simpl in S. lia.
  - rewrite <- (firstn_skipn i iw) at 2. rewrite S. rewrite !concat_app. simpl. rewrite !in_app_iff. tauto.
Qed.
Lemma get_lt : forall X (l : list X) i x, get l i = Ok x -> i < List.length l.
Proof. intros X l i x H. unfold get in H. destruct (nth_error l i) eqn:E; [|discriminate]. apply nth_error_Some. congruence. Qed.

Lemma later_runs_spec : forall visited n k i iw n' iw', later_runs eqb sic Hs n k i visited iw = Ok (n', iw') ->
  (forall y, In y (concat iw) -> In y (concat iw')) /\
  (forall y, In y (concat iw') -> In y (concat iw) \/ (of_pair k y /\ exists m, shown m y)) /\
  (visited <> [] -> forall y, of_pair k y -> (forall m, shown m y) -> In y (concat iw')).
Proof.
  induction visited as [|v r IH]; intros n k i iw n' iw' H; simpl in H.
  - injection H as <- <-. split; [auto|]. split; [auto|]. congruence.
  - destruct (sharing k v) eqn:SH.
    + destruct (get iw i) as [z|] eqn:G; simpl in H; [|discriminate]. apply get_lt in G.
      destruct (pair_walls eqb sic Hs n k) as [[n1 l]|] eqn:PW; simpl in H; [|discriminate].
      apply pair_walls_spec in PW. destruct PW as [W1 W2]. apply IH in H. destruct H as [H1 [H2 H3]].
      split; [intros y Y; apply H1; apply extend_at_in; auto|]. split.
      * intros y Y. apply H2 in Y. destruct Y as [Y|Y]; auto. apply extend_at_in in Y; auto. destruct Y; auto.
      * intros _ y Y F. apply H1. apply extend_at_in; auto.
    + destruct (pair_walls eqb sic Hs n k) as [[n1 l]|] eqn:PW; simpl in H; [|discriminate].
      apply pair_walls_spec in PW. destruct PW as [W1 W2]. apply IH in H. destruct H as [H1 [H2 H3]].
      assert (Q : forall y, In y (concat (iw ++ [l])) <-> In y (concat iw) \/ In y l).
      { intro y. rewrite concat_app. simpl. rewrite app_nil_r, in_app_iff. tauto. }
      split; [intros y Y; apply H1; apply Q; auto|]. split.
      * intros y Y. apply H2 in Y. destruct Y as [Y|Y]; auto. apply Q in Y. destruct Y; auto.
      * intros _ y Y F. apply H1. apply Q; auto.
Qed.

Definition covers (ks : list (nat * nat)) (iw : list (list P)) : Prop :=
  (forall y, In y (concat iw) -> exists k, In k ks /\ of_pair k y /\ exists m, shown m y) /\
  (forall k y, In k ks -> of_pair k y -> (forall m, shown m y) -> In y (concat iw)).
Lemma visit_spec : forall n iw visited todo k n' iw' visited' todo', visit eqb sic Hs (n, iw, visited, todo) k = Ok (n', iw', visited', todo') ->
  covers visited iw -> covers visited' iw' /\ visited' = visited ++ [k] /\ todo' = filter (fun x => negb (Nat.eqb (fst k) x || Nat.eqb (snd k) x)) todo.
Proof.
  intros n iw visited todo k n' iw' visited' todo' H [C1 C2]. unfold visit in H.
  destruct visited as [|v r].
  - destruct (pair_walls eqb sic Hs n k) as [[n1 l]|] eqn:PW; simpl in H; [|discriminate]. injection H as <- <- <- <-.
    apply pair_walls_spec in PW. destruct PW as [W1 W2].
    assert (Q : forall y, In y (concat (iw ++ [l])) <-> In y (concat iw) \/ In y l).
    { intro y. rewrite concat_app. simpl. rewrite app_nil_r, in_app_iff. tauto. }
    split; [|auto]. split.
    + intros y Y. apply Q in Y. destruct Y as [Y|Y]; [apply C1 in Y; destruct Y as [? [[] _]]|]. exists k. simpl. auto.
    + intros k' y [<-|[]] Y F. apply Q. auto.
  - cbv beta iota zeta in H. simpl bind in H at 1.
    match type of H with bind ?e _ = _ => destruct e as [[n1 iw1]|] eqn:LR; simpl in H; [|discriminate] end. injection H as <- <- <- <-.
    apply (later_runs_spec (v :: r)) in LR. destruct LR as [L1 [L2 L3]]. split; [|auto]. split.
    + intros y Y. apply L2 in Y. destruct Y as [Y|[Y1 Y2]].
      * apply C1 in Y. destruct Y as [k' [I J]]. exists k'. split; [rewrite app_comm_cons; apply in_app_iff; auto|auto].
      * exists k. split; auto. rewrite app_comm_cons. apply in_app_iff; simpl; auto.
    + intros k' y I Y F. rewrite app_comm_cons in I. apply in_app_iff in I. destruct I as [I|[<-|[]]].
      * apply L1. eapply C2; eauto.
      * apply L3; auto. congruence.
Qed.
Lemma visits_spec : forall ks n iw visited todo n' iw' visited' todo', foldM (visit eqb sic Hs) ks (n, iw, visited, todo) = Ok (n', iw', visited', todo') ->
  covers visited iw -> covers (visited ++ ks) iw' /\ todo' = filter (fun x => forallb (fun k => negb (Nat.eqb (fst k) x || Nat.eqb (snd k) x)) ks) todo.
Proof.
  induction ks as [|k r IH]; intros n iw visited todo n' iw' visited' todo' H C; simpl in H.
  - injection H as <- <- <- <-. rewrite app_nil_r. split; auto. simpl. symmetry. apply filter_all. auto.
  - match type of H with bind ?e _ = _ => destruct e as [[[[n1 iw1] v1] t1]|] eqn:V; simpl in H; [|discriminate] end.
    apply visit_spec in V; auto. destruct V as [V1 [-> ->]]. apply IH in H; auto. destruct H as [H1 ->].
    rewrite <- app_assoc in H1. split; [exact H1|]. rewrite filter_filter. auto.
Qed.

Lemma make_raum_spec : forall n no c n' r, make_raum eqb sic contained Hs n no c = Ok (n', r) ->
  r_name r = raum_name no /\ r_cycle r = c /\ r_aussen r = map snd (filter (fun i => Nat.eqb (fst i) c) sic) /\
  exists cc, lookup Nat.eqb c contained = Ok cc /\ (cc = [] -> r_innen r = []) /\
  (cc <> [] -> let ks := map fst (overlaps_in_cycles eqb (Hs n) sic) in
    exists iw rest, r_innen r = iw ++ rest /\ covers ks iw /\
      mapM (fun x => lookup Nat.eqb x sic) (filter (fun x => forallb (fun k => negb (Nat.eqb (fst k) x || Nat.eqb (snd k) x)) ks) cc) = Ok rest).
Proof.
  intros n no c n' r H. unfold make_raum in H. destruct (lookup Nat.eqb c contained) as [cc|] eqn:L; simpl in H; [|discriminate].
  destruct cc as [|z cc].
  - injection H as <- <-. simpl. repeat split; auto. exists []. repeat split; auto. congruence.
  - match type of H with bind ?e _ = _ => destruct e as [[[[n1 iw] v] t]|] eqn:V; simpl in H; [|discriminate] end.
    match type of H with bind ?e _ = _ => destruct e as [rest|] eqn:M; simpl in H; [|discriminate] end. injection H as <- <-. simpl.
    repeat split; auto. exists (z :: cc). split; auto. split; [discriminate|]. intros _. exists iw, rest.
    apply visits_spec in V; [|split; [easy|easy]]. destruct V as [V ->]. auto.
Qed.

Lemma rooms_spec : forall cs n rs n' rs', foldM (fun '(n, rs) c => ' (n', r) <- make_raum eqb sic contained Hs n (S (List.length rs)) c ;; Ok (n', rs ++ [r])) cs (n, rs) = Ok (n', rs') ->
  exists new, rs' = rs ++ new /\ Forall2 (fun ic r => exists m m', make_raum eqb sic contained Hs m (fst ic) (snd ic) = Ok (m', r)) (combine (List.seq (S (List.length rs)) (List.length cs)) cs) new.
Proof.
  induction cs as [|c cs IH]; intros n rs n' rs' H; simpl in H.
  - injection H as <- <-. exists []. rewrite app_nil_r. split; [auto|constructor].
  - destruct (make_raum eqb sic contained Hs n (S (List.length rs)) c) as [[n1 r]|] eqn:M; simpl in H; [|discriminate].
    apply IH in H. destruct H as [new [-> F]]. exists (r :: new). rewrite <- app_assoc. split; [auto|]. simpl.
    constructor; [simpl; eauto|]. rewrite app_length in F. simpl in F. rewrite Nat.add_1_r in F. auto.
Qed.
Lemma erstellen_spec : forall rs, raum_erstellen eqb sic contained Hs [] = Ok rs ->
  Forall2 (fun ic r => exists m m', make_raum eqb sic contained Hs m (fst ic) (snd ic) = Ok (m', r)) (combine (List.seq 1 (List.length sic)) (map fst sic)) rs.
Proof.
  intros rs H. unfold raum_erstellen in H.
  match type of H with bind ?e _ = _ => destruct e as [[n rs']|] eqn:V; simpl in H; [|discriminate] end. injection H as ->.
  apply rooms_spec in V. destruct V as [new [-> F]]. rewrite map_length in F. auto.
Qed.
End Rooms.

Lemma raum_name_inj : forall a b, raum_name a = raum_name b -> a = b.
Proof.
  intros a b H. unfold raum_name in H. simpl in H. injection H as H. apply (f_equal NilEmpty.uint_of_string) in H. rewrite !NilEmpty.usu in H.
  injection H as H. apply Unsigned.to_uint_inj. auto.
Qed.
Lemma Forall2_map_eq : forall X Y Z (f : X -> Z) (g : Y -> Z) (R : X -> Y -> Prop) l m, Forall2 R l m -> (forall x y, R x y -> g y = f x) -> map g m = map f l.
Proof. induction 1; simpl; intro H1; auto. f_equal; auto. Qed.
Lemma combine_fst : forall X Y (l : list X) (m : list Y), List.length l = List.length m -> map fst (combine l m) = l.
Proof. induction l as [|a l IH]; destruct m; simpl; intro H; try discriminate; auto. f_equal; auto. Qed.
Lemma combine_snd : forall X Y (l : list X) (m : list Y), List.length l = List.length m -> map snd (combine l m) = m.
Proof. induction l as [|a l IH]; destruct m; simpl; intro H; try discriminate; auto. f_equal; auto. Qed.
Lemma filter_key : forall P (sic : list (nat * list P)) c l, NoDup (map fst sic) -> In (c, l) sic -> filter (fun i => Nat.eqb (fst i) c) sic = [(c, l)].
Proof.
  intros P sic c l D I. apply filter_unique; auto; [apply (NoDup_map_inv fst); auto|]. intros [c' l'] J. simpl. rewrite Nat.eqb_eq. split.
  - intros ->. f_equal. apply (lookup_in _ _ _ NE) in I, J; auto. congruence.
  - congruence.
Qed.

(*@ C50_rooms *)
(** C50: the rooms made are one for each cycle, in this order, named R1, R2, ...; the names are different; the
    outer wall of a room is the list of the parts of its cycle. *)
Lemma rooms_of_cycles : forall (P : Type) (eqb : P -> P -> bool) (sic : list (nat * list P)) contained Hs rs,
  NoDup (map fst sic) -> raum_erstellen eqb sic contained Hs [] = Ok rs ->
  map r_cycle rs = map fst sic /\
  map r_name rs = map (fun n => String.append "R" (NilEmpty.string_of_uint (Nat.to_uint n))) (List.seq 1 (List.length sic)) /\
  NoDup (map r_name rs) /\
  map r_aussen rs = map (fun c => [snd c]) sic.
Proof.
  intros P eqb sic contained Hs rs D H. apply (erstellen_spec eqb sic contained Hs) in H.
  assert (L : List.length (List.seq 1 (List.length sic)) = List.length (map fst sic)) by (rewrite seq_length, map_length; auto).
  assert (N : map r_name rs = map raum_name (List.seq 1 (List.length sic))).
  { rewrite <- (combine_fst _ _ (List.seq 1 (List.length sic)) (map fst sic)) at 1 by auto. rewrite map_map. eapply Forall2_map_eq; [exact H|].
    intros [i c] r (m & m' & M). apply make_raum_spec in M; auto. tauto. }
  assert (C : map r_cycle rs = map fst sic).
  { rewrite <- (combine_snd _ _ (List.seq 1 (List.length sic)) (map fst sic)) at 1 by auto. eapply Forall2_map_eq; [exact H|].
    intros [i c] r (m & m' & M). apply make_raum_spec in M; auto. tauto. }
  split; auto. split; [exact N|]. split.
  - rewrite N. apply FinFun.Injective_map_NoDup; [exact raum_name_inj|apply seq_NoDup].
  - assert (A : map r_aussen rs = map (fun c => map snd (filter (fun i => Nat.eqb (fst i) c) sic)) (map fst sic)).
    { rewrite <- (combine_snd _ _ (List.seq 1 (List.length sic)) (map fst sic)) at 1 by auto. rewrite map_map. eapply Forall2_map_eq; [exact H|].
      intros [i c] r (m & m' & M). apply make_raum_spec in M; auto. tauto. }
    rewrite A, map_map. apply map_ext_in. intros [c l] I. simpl fst. rewrite (filter_key _ _ _ l); auto.
Qed.

(*@ C50_again *)
(** C50: when there are rooms already, nothing is changed. *)
Lemma rooms_again : forall (P : Type) (eqb : P -> P -> bool) (sic : list (nat * list P)) contained Hs rs,
  rs <> [] -> raum_erstellen eqb sic contained Hs rs = Ok rs.
Proof. intros. destruct rs; [congruence|auto]. Qed.

Lemma room_in : forall (P : Type) (eqb : P -> P -> bool) (sic : list (nat * list P)) contained Hs rs r,
  raum_erstellen eqb sic contained Hs [] = Ok rs -> In r rs -> NoDup (map fst sic) -> exists n no n', make_raum eqb sic contained Hs n no (r_cycle r) = Ok (n', r).
Proof.
  intros P eqb sic contained Hs rs r H I D. apply erstellen_spec in H.
  assert (Q : forall l, Forall2 (fun ic r => exists m m', make_raum eqb sic contained Hs m (fst ic) (snd ic) = Ok (m', r)) l rs -> exists no c m m', make_raum eqb sic contained Hs m no c = Ok (m', r)).
  { intros l F. clear H. revert I. induction F as [|ic y l m E F IH]; intro I; [destruct I|]. destruct I as [->|I]; [|auto]. destruct E as (a & b & E). exists (fst ic), (snd ic), a, b. exact E. }
  apply Q in H. destruct H as (no & c & m & m' & M). assert (E := M). apply make_raum_spec in E; auto. destruct E as [_ [E _]]. subst c. eauto.
Qed.

(*@ C50_inner *)
(** C50: the inner wall, with hashes that do not change.  A room whose cycle contains no cycle has none.  The inner
    wall of another room consists of the parts of the cycles inside it that overlap no other cycle, and of the
    parts, that are in one cycle only, of ALL overlapping cycles of the vessel, inside the room or not. *)
Lemma rooms_inner : forall (P : Type) (eqb : P -> P -> bool) (sic : list (nat * list P)) contained Hs rs r cc,
  NoDup (map fst sic) -> decides_eq eqb -> (forall n, lists_all (Hs n) /\ consistent (Hs n)) ->
  raum_erstellen eqb sic contained Hs [] = Ok rs -> In r rs -> lookup Nat.eqb (r_cycle r) contained = Ok cc ->
  (cc = [] -> r_innen r = []) /\
  (cc <> [] -> forall x, In x (concat (r_innen r)) <->
     (exists a b, overlap sic a b /\ only_in sic a x) \/
     (exists z l, In z cc /\ (forall b, ~ overlap sic z b) /\ In (z, l) sic /\ In x l)).
Proof.
  intros P eqb sic contained Hs rs r cc D E HH H I L. destruct (room_in _ _ _ _ _ _ _ H I D) as (n & no & n' & M).
  apply make_raum_spec in M; auto. destruct M as (_ & _ & _ & cc' & L' & M1 & M2). rewrite L in L'. injection L' as <-.
  split; auto. intros NC x. destruct (M2 NC) as (iw & rest & -> & [C1 C2] & R). clear M1 M2.
  set (ks := map fst (overlaps_in_cycles eqb (Hs n) sic)) in *.
  assert (UN : forall a l l', In (a, l) sic -> In (a, l') sic -> l = l').
  { intros a l l' A B. apply (lookup_in _ _ _ NE) in A, B; auto. congruence. }
  assert (KEY : forall m a b, a < b -> (In (a, b) (map fst (overlaps_in_cycles eqb (Hs m) sic)) <-> overlap sic a b)).
  { intros m a b LT. destruct (HH m) as [H1 H2]. split.
    - intro J. apply in_map_iff in J. destruct J as [[k v] [EK J]]. simpl in EK. subst k.
      destruct (overlaps_sound P eqb (Hs m) sic H1) as [_ S]. destruct (S a b v J) as (_ & NV & la & lb & A & B & SH).
      destruct v as [|y v]; [congruence|]. specialize (SH y (or_introl eq_refl)). split; [lia|]. exists la, lb, y.
      destruct SH as [[S1 [z [S2 S3]]]|[S1 [z [S2 S3]]]]; apply E in S3; subst z; auto.
    - intros [_ (la & lb & y & A & B & Y1 & Y2)]. destruct (overlaps_exact P eqb (Hs m) sic H1 H2 E D a b la lb A B LT) as [X _].
      destruct (proj2 X) as [v V]; [eauto|]. apply in_map_iff. exists ((a, b), v). auto. }
  assert (KLT : forall m a b, In (a, b) (map fst (overlaps_in_cycles eqb (Hs m) sic)) -> a < b).
  { intros m a b J. apply in_map_iff in J. destruct J as [[k v] [EK J]]. simpl in EK. subst k. destruct (HH m) as [H1 H2].
    destruct (overlaps_sound P eqb (Hs m) sic H1) as [_ S]. destruct (S a b v J); auto. }
  assert (SYM : forall a b, overlap sic a b -> overlap sic b a).
  { intros a b [N (la & lb & y & ?)]. split; [auto|]. exists lb, la, y. tauto. }
  assert (SH : forall m y, shown eqb sic Hs m y <-> ~ exists a b la lb, a <> b /\ In (a, la) sic /\ In (b, lb) sic /\ In y la /\ In y lb).
  { intros m y. unfold shown. destruct (HH m) as [H1 H2].
    assert (Q : memb eqb y (all_overlapping_segments eqb (Hs m) sic) = true <-> exists a b la lb, a <> b /\ In (a, la) sic /\ In (b, lb) sic /\ In y la /\ In y lb).
    { rewrite (memb_In _ eqb E). rewrite all_overlapping_spec. split.
      - intros ([a b] & v & J & Y). destruct (overlaps_sound P eqb (Hs m) sic H1) as [_ S]. destruct (S a b v J) as (LT & NV & la & lb & A & B & SHR).
        exists a, b, la, lb. apply SHR in Y. destruct Y as [[S1 [z [S2 S3]]]|[S1 [z [S2 S3]]]]; apply E in S3; subst z; repeat split; auto; lia.
      - assert (W : forall a b la lb, a < b -> In (a, la) sic -> In (b, lb) sic -> In y la -> In y lb -> exists key v, In (key, v) (overlaps_in_cycles eqb (Hs m) sic) /\ In y v).
        { intros a b la lb LT A B YA YB. destruct (overlaps_exact P eqb (Hs m) sic H1 H2 E D a b la lb A B LT) as [X1 X2].
          destruct (proj2 X1) as [v V]; [eauto|]. exists (a, b), v. split; auto. apply (X2 v V). auto. }
        intros (a & b & la & lb & N & A & B & YA & YB). destruct (Nat.lt_total a b) as [LT|[EQ|LT]]; [eapply W; eauto|contradiction|eapply W; eauto]. }
    destruct (memb eqb y (all_overlapping_segments eqb (Hs m) sic)).
    - split; [discriminate|]. intro N. exfalso. apply N. apply Q. auto.
    - split; auto. intros _ N. apply Q in N. discriminate. }
  assert (REST : forall y, In y (concat rest) <-> exists z l, In z cc /\ (forall b, ~ overlap sic z b) /\ In (z, l) sic /\ In y l).
  { assert (FZ : forall z, In z cc -> (forallb (fun k => negb (Nat.eqb (fst k) z || Nat.eqb (snd k) z)) ks = true <-> forall b, ~ overlap sic z b)).
    { intros z _. rewrite forallb_forall. split.
      - intros F b O. assert (NB : z <> b) by (destruct O; auto). destruct (Nat.lt_total z b) as [LT|[EQ|LT]]; [|contradiction|].
        + specialize (F (z, b) (proj2 (KEY n z b LT) O)). simpl in F. rewrite Nat.eqb_refl in F. discriminate.
        + specialize (F (b, z) (proj2 (KEY n b z LT) (SYM _ _ O))). simpl in F. rewrite Nat.eqb_refl, orb_true_r in F. discriminate.
      - intros F [a b] K. simpl. assert (LT := KLT _ _ _ K). apply (KEY n a b LT) in K.
        destruct (Nat.eqb_spec a z) as [->|_]; [exfalso; eapply F; eauto|]. destruct (Nat.eqb_spec b z) as [->|_]; [exfalso; eapply F; apply SYM; eauto|]. auto. }
    revert rest R C1 C2. intros rest R _ _. revert rest R. clear -FZ D UN.
    induction cc as [|z cc IH]; intros rest R; simpl in R.
    - injection R as <-. simpl. intro y. split; [easy|]. intros (z & l & [] & _).
    - destruct (forallb (fun k => negb (Nat.eqb (fst k) z || Nat.eqb (snd k) z)) ks) eqn:F.
      + simpl in R. destruct (lookup Nat.eqb z sic) as [lz|] eqn:LZ; simpl in R; [|discriminate].
        match type of R with bind ?e _ = _ => destruct e as [q|] eqn:V; simpl in R; [|discriminate] end. injection R as <-.
        apply (lookup_ok _ _ _ NE) in LZ. assert (F' := proj1 (FZ z (or_introl eq_refl)) F). intro y. simpl. rewrite in_app_iff. rewrite (IH (fun w W => FZ w (or_intror W)) q eq_refl). split.
        * intros [Y|(w & l & A & B & C)]; [exists z, lz; auto|exists w, l; auto].
        * intros (w & l & [<-|A] & B & C & Y); [left; rewrite (UN z lz l); auto|right; exists w, l; auto].
      + intro y. rewrite (IH (fun w W => FZ w (or_intror W)) rest R). split.
        * intros (w & l & A & B & C). exists w, l. simpl. auto.
        * intros (w & l & [<-|A] & B & C & Y); [|exists w, l; auto]. exfalso. assert (B' := proj2 (FZ z (or_introl eq_refl)) B). congruence. }
  rewrite concat_app, in_app_iff, REST. apply or_iff_compat_r. split.
  - intro X. apply C1 in X. destruct X as ([a b] & K & (s & l & S1 & S2 & S3) & m & SM). simpl in S1.
    assert (LT := KLT _ _ _ K). apply (KEY n a b LT) in K. apply SH in SM.
    assert (OI : only_in sic s x).
    { split; [eauto|]. intros t lt T X. destruct (Nat.eq_dec t s) as [|N]; auto. exfalso. apply SM. exists t, s, lt, l. auto. }
    destruct S1 as [-> | ->]; [exists a, b; auto|exists b, a; auto].
  - intros (a & b & O & [(l & A1 & A2) OI]). assert (N : a <> b) by (destruct O; auto).
    assert (SM : forall m, shown eqb sic Hs m x).
    { intro m. apply SH. intros (a' & b' & la & lb & N' & A & B & XA & XB). apply N'. rewrite (OI a' la), (OI b' lb); auto. }
    destruct (Nat.lt_total a b) as [LT|[EQ|LT]]; [|contradiction|].
    + apply (C2 (a, b)); auto; [apply KEY; auto|]. exists a, l. simpl. auto.
    + apply (C2 (b, a)); auto; [apply KEY; auto|]. exists a, l. simpl. auto.
Qed.

(** With few overlapping pairs the rooms are made. *)
Lemma unshared_total : forall P (eqb : P -> P -> bool) sic Hs xs n, exists n' l, unshared eqb sic Hs n xs = (n', l).
Proof. intros. destruct (unshared eqb sic Hs n xs) eqn:E; eauto. Qed.
Lemma pair_walls_total : forall P (eqb : P -> P -> bool) sic Hs n k, In (fst k) (map fst sic) -> In (snd k) (map fst sic) ->
  exists n' l, pair_walls eqb sic Hs n k = Ok (n', l).
Proof.
  intros P eqb sic Hs n k A B. unfold pair_walls.
  destruct (lookup_dom _ _ _ NE _ _ A) as [a ->]. simpl. destruct (unshared eqb sic Hs n a) as [n1 la].
  destruct (lookup_dom _ _ _ NE _ _ B) as [b ->]. simpl. destruct (unshared eqb sic Hs n1 b) as [n2 lb]. eauto.
Qed.
Lemma visits_two : forall P (eqb : P -> P -> bool) sic Hs n cc ks, List.length ks <= 2 -> (forall k, In k ks -> In (fst k) (map fst sic) /\ In (snd k) (map fst sic)) ->
  exists n' iw v t, foldM (visit eqb sic Hs) ks (n, [], [], cc) = Ok (n', iw, v, t).
Proof.
  intros P eqb sic Hs n cc ks L I. destruct ks as [|k1 [|k2 [|k3 ks]]]; simpl in L; try lia; simpl.
  - eauto 6.
  - destruct (I k1) as [A B]; [simpl; auto|]. destruct (pair_walls_total P eqb sic Hs n k1 A B) as (n1 & l1 & ->). simpl. eauto 6.
  - destruct (I k1) as [A B]; [simpl; auto|]. destruct (pair_walls_total P eqb sic Hs n k1 A B) as (n1 & l1 & ->). simpl.
    destruct (I k2) as [A2 B2]; [simpl; auto|]. destruct (pair_walls_total P eqb sic Hs n1 k2 A2 B2) as (n2 & l2 & ->).
    destruct (sharing k2 k1); simpl; eauto 6.
Qed.

(*@ C50_total *)
(** C50: the rooms are made, without exception, if at most two pairs of cycles are found to overlap and the cycles
    inside each cycle are known. *)
Lemma rooms_total : forall (P : Type) (eqb : P -> P -> bool) (sic : list (nat * list P)) contained Hs,
  (forall n, lists_all (Hs n) /\ List.length (overlaps_in_cycles eqb (Hs n) sic) <= 2) ->
  (forall c, In c (map fst sic) -> exists cc, lookup Nat.eqb c contained = Ok cc /\ forall z, In z cc -> In z (map fst sic)) ->
  exists rs, raum_erstellen eqb sic contained Hs [] = Ok rs.
Proof.
  intros P eqb sic contained Hs HO HC. unfold raum_erstellen.
  assert (Q : forall cs n rs, (forall c, In c cs -> In c (map fst sic)) -> exists n' rs', foldM (fun '(n, rs) c => ' (n', r) <- make_raum eqb sic contained Hs n (S (List.length rs)) c ;; Ok (n', rs ++ [r])) cs (n, rs) = Ok (n', rs')).
  { induction cs as [|c cs IH]; intros n rs C; simpl; [eauto|].
    assert (M : exists n' r, make_raum eqb sic contained Hs n (S (List.length rs)) c = Ok (n', r)).
    { unfold make_raum. destruct (HC c (C c (or_introl eq_refl))) as (cc & -> & Z). simpl. destruct cc as [|z cc]; [eauto|].
      destruct (HO n) as [LA L2].
      destruct (visits_two P eqb sic Hs (S n) (z :: cc) (map fst (overlaps_in_cycles eqb (Hs n) sic))) as (n1 & iw & v & t & V).
      - rewrite map_length. auto.
      - intros [a b] K. apply in_map_iff in K. destruct K as [[k w] [EK K]]. simpl in EK. subst k.
        destruct (overlaps_sound P eqb (Hs n) sic LA) as [_ S]. destruct (S a b w K) as (_ & _ & la & lb & A & B & _).
        split; simpl; [apply (in_map fst) in A|apply (in_map fst) in B]; auto.
      - rewrite V. simpl. 
        assert (T : forall x, In x t -> In x (z :: cc)).
        { clear -V. assert (G : forall ks n iw v t n' iw' v' t', foldM (visit eqb sic Hs) ks (n, iw, v, t) = Ok (n', iw', v', t') -> forall x, In x t' -> In x t).
          { induction ks as [|k ks IH]; simpl; intros m iw0 v0 t0 m' iw' v' t' H x X; [congruence|].
            match type of H with bind ?e _ = _ => destruct e as [[[[m1 iw1] v1] t1]|] eqn:VV; simpl in H; [|discriminate] end.
            apply (IH _ _ _ _ _ _ _ _ H) in X. unfold visit in VV.
            match type of VV with bind ?e _ = _ => destruct e as [[m2 iw2]|]; simpl in VV; [|discriminate] end.
            match type of VV with bind ?e _ = _ => destruct e as [[m3 iw3]|]; simpl in VV; [|discriminate] end.
            injection VV as <- <- <- <-. apply filter_In in X. tauto. }
          eapply G; eauto. }
        assert (R : exists rest, mapM (fun x => lookup Nat.eqb x sic) t = Ok rest).
        { clear V. assert (T' : forall x, In x t -> In x (map fst sic)) by auto. clear T. induction t as [|x t IHt]; simpl; [eauto|].
          destruct (lookup_dom _ _ _ NE _ _ (T' x (or_introl eq_refl))) as [l ->]. simpl. destruct IHt as [rest ->]; [intros; apply T'; simpl; auto|]. simpl. eauto. }
        destruct R as [rest ->]. simpl. eauto. }
    destruct M as (n' & r & ->). simpl. apply IH. intros; apply C; simpl; auto. }
  destruct (Q (map fst sic) 0 []) as (n' & rs & ->); [auto|]. simpl. eauto.
Qed.

(*@ C50_plain *)
(** C50: if no overlapping pair is found, the inner wall of a room is the list of the cycles inside its cycle, each
    with the list of its parts. *)
Lemma rooms_plain : forall (P : Type) (eqb : P -> P -> bool) (sic : list (nat * list P)) contained Hs rs r cc,
  NoDup (map fst sic) -> (forall n, overlaps_in_cycles eqb (Hs n) sic = []) ->
  raum_erstellen eqb sic contained Hs [] = Ok rs -> In r rs -> lookup Nat.eqb (r_cycle r) contained = Ok cc ->
  Forall2 (fun z l => In (z, l) sic) cc (r_innen r).
Proof.
  intros P eqb sic contained Hs rs r cc D HO H I L. destruct (room_in _ _ _ _ _ _ _ H I D) as (n & no & n' & M).
  unfold make_raum in M. rewrite L in M. simpl in M. destruct cc as [|z cc].
  - injection M as _ <-. simpl. constructor.
  - rewrite HO in M. simpl in M.
    destruct (lookup Nat.eqb z sic) as [l|] eqn:LZ; simpl in M; [|discriminate].
    match type of M with bind ?e _ = _ => destruct e as [rest|] eqn:V; simpl in M; [|discriminate] end.
    match type of V with bind ?e _ = _ => destruct e as [rest'|] eqn:V'; simpl in V; [|discriminate] end. injection V as <-.
    injection M as _ <-. simpl. apply (lookup_ok _ _ _ NE) in LZ. constructor; auto. clear -V'. revert rest' V'.
    induction cc as [|y cc IH]; simpl; intros rest V; [injection V as <-; constructor|].
    destruct (lookup Nat.eqb y sic) as [l|] eqn:LY; simpl in V; [|discriminate].
    match type of V with bind ?e _ = _ => destruct e as [q|] eqn:V'; simpl in V; [|discriminate] end. injection V as <-.
    apply (lookup_ok _ _ _ NE) in LY. constructor; auto.
Qed.

(*@ C50_index_refuted *)
(** C50, finding: a cycle 0 with a cycle inside, and three cycles each two of which share a part: no rooms are made. *)
Lemma rooms_index : let sic := [(0, [1; 2; 3; 4]); (1, [10; 12; 13]); (2, [20; 12; 23]); (3, [30; 13; 23])] in
  let H := mkhashing (fun _ x => Z.of_nat x) (fun _ l => l) in
  raum_erstellen Nat.eqb sic [(0, [1; 2; 3]); (1, []); (2, []); (3, [])] (fun _ => H) [] = Err IndexError.
Proof. reflexivity. Qed.

(*@ C50_outside_refuted *)
(** C50, finding: the cycles 2 and 3, which overlap and are not inside cycle 0, make up the inner wall of its room. *)
Lemma rooms_outside : let sic := [(0, [1; 2; 3]); (1, [4; 5; 6]); (2, [7; 8; 9]); (3, [9; 10; 11])] in
  let contained := [(0, [1]); (1, []); (2, []); (3, [])] in
  let H := mkhashing (fun _ x => Z.of_nat x) (fun _ l => l) in
  option_map r_innen (match raum_erstellen Nat.eqb sic contained (fun _ => H) [] with Ok rs => hd_opt rs | Err _ => None end)
    = Some [[7; 8; 10; 11]; [4; 5; 6]].
Proof. reflexivity. Qed.

(*@ex C50_example *)
(** C50: a room with two cycles inside; hashes that do not change *)
Example rooms_example : let sic := [(0, [1; 2; 3]); (1, [4; 5]); (2, [6; 7])] in
  let contained := [(0, [1; 2]); (1, []); (2, [])] in
  let H := mkhashing (fun _ x => Z.of_nat x) (fun _ l => rev l) in
  NoDup (map fst sic) /\ decides_eq Nat.eqb /\ lists_all H /\ consistent H /\
  overlaps_in_cycles Nat.eqb H sic = [] /\
  raum_erstellen Nat.eqb sic contained (fun _ => H) [] = Ok [
    mkraum "R1" 0 [] [[1; 2; 3]] [[4; 5]; [6; 7]]; mkraum "R2" 1 [] [[4; 5]] []; mkraum "R3" 2 [] [[6; 7]] []]%string.
Proof.
  split; [repeat constructor; simpl; intuition discriminate|]. split; [exact NE|].
  split; [intros k l; simpl; symmetry; apply Permutation_rev|]. split; [intros k k' x; reflexivity|]. split; reflexivity.
Qed.

(** ** raum_intex *)
Section Intex.
Context {A : Arith} (prepare : iroom A -> res unit) (inside : nat -> iroom A -> pt A -> res bool).

Lemma all_inside_spec : forall ps n r n' b, all_inside inside n r ps = Ok (n', b) ->
  (b = true -> forall q, In q ps -> may inside true r (ip_pt q)) /\
  (b = false -> exists q, In q ps /\ may inside false r (ip_pt q)) /\
  ((forall q, In q ps -> must inside true r (ip_pt q)) -> b = true) /\
  ((exists q, In q ps /\ must inside false r (ip_pt q)) -> b = false).
Proof.
  induction ps as [|p ps IH]; intros n r n' b H; simpl in H.
  - injection H as <- <-. split; [easy|]. split; [discriminate|]. split; [auto|]. intros [q [[] _]].
  - destruct (inside n r (ip_pt p)) as [[|]|] eqn:E; simpl in H; [|injection H as <- <-|discriminate].
    + apply IH in H. destruct H as [H1 [H2 [H3 H4]]]. split; [|split; [|split]].
      * intros B q [->|Q]; [exists n; auto|auto].
      * intro B. destruct (H2 B) as [q [Q1 Q2]]. exists q. simpl. auto.
      * intro M. apply H3. intros q Q. apply M. simpl; auto.
      * intros [q [[->|Q] M]]; [rewrite (M n) in E; discriminate|]. apply H4. eauto.
    + split; [discriminate|]. split; [intros _; exists p; split; [simpl; auto|exists n; auto]|]. split; [|auto].
      intro M. specialize (M p (or_introl eq_refl) n). congruence.
Qed.
Lemma some_segment_true : forall ss n r ps n' b, some_segment inside true n r ps ss = Ok (n', b) ->
  (b = true -> exists s, In s ss /\ forall q, In q ps -> seg_eqb (ip_segment q) s = true -> may inside true r (ip_pt q)) /\
  ((exists s, In s ss /\ forall q, In q ps -> seg_eqb (ip_segment q) s = true -> must inside true r (ip_pt q)) -> b = true).
Proof.
  induction ss as [|s ss IH]; intros n r ps n' b H; simpl in H.
  - injection H as <- <-. split; [discriminate|]. intros [s [[] _]].
  - destruct (all_inside inside n r (filter (fun x => seg_eqb (ip_segment x) s) ps)) as [[n1 b1]|] eqn:E; simpl in H; [|discriminate].
    destruct (some_segment inside true n1 r ps ss) as [[n2 b2]|] eqn:F; simpl in H; [|discriminate]. injection H as <- <-.
    apply all_inside_spec in E. destruct E as (E1 & _ & E3 & _). apply IH in F. destruct F as [F1 F2]. split.
    + intro B. apply orb_true_iff in B. destruct B as [B|B].
      * apply Bool.eqb_prop in B. exists s. split; [simpl; auto|]. intros q Q S. apply E1; auto. apply filter_In; auto.
      * destruct (F1 B) as [t [T1 T2]]. exists t. simpl. auto.
    + intros [t [[<-|T] M]]; apply orb_true_iff.
      * left. rewrite E3; [auto|]. intros q Q. apply filter_In in Q. destruct Q. apply M; auto.
      * right. apply F2. eauto.
Qed.
Lemma some_segment_false : forall ss n r ps n' b, some_segment inside false n r ps ss = Ok (n', b) ->
  (b = true -> one_fails (may inside false r) ps ss) /\ (one_fails (must inside false r) ps ss -> b = true).
Proof.
  induction ss as [|s ss IH]; intros n r ps n' b H; simpl in H.
  - injection H as <- <-. split; [discriminate|]. intros (s & q & [] & _).
  - destruct (all_inside inside n r (filter (fun x => seg_eqb (ip_segment x) s) ps)) as [[n1 b1]|] eqn:E; simpl in H; [|discriminate].
    destruct (some_segment inside false n1 r ps ss) as [[n2 b2]|] eqn:F; simpl in H; [|discriminate]. injection H as <- <-.
    apply all_inside_spec in E. destruct E as (_ & E2 & _ & E4). apply IH in F. destruct F as [F1 F2]. split.
    + intro B. apply orb_true_iff in B. destruct B as [B|B].
      * apply Bool.eqb_prop in B. destruct (E2 B) as [q [Q1 Q2]]. apply filter_In in Q1. exists s, q. simpl. tauto.
      * destruct (F1 B) as (t & q & T). exists t, q. simpl. tauto.
    + intros (t & q & [<-|T] & Q1 & Q2 & Q3); apply orb_true_iff.
      * left. rewrite E4; [auto|]. exists q. split; auto. apply filter_In; auto.
      * right. apply F2. exists t, q. auto.
Qed.
Lemma category_true : forall n r ps ss n' b, category inside true n r ps ss = Ok (n', b) ->
  (b = true -> all_pass (may inside true r) ps ss) /\ (all_pass (must inside true r) ps ss -> b = true).
Proof.
  intros n r ps ss n' b H. unfold category in H. destruct ps as [|p ps].
  - injection H as <- <-. split; [discriminate|]. intros [N _]. congruence.
  - apply some_segment_true in H. destruct H as [H1 H2]. split.
    + intro B. split; [discriminate|auto].
    + intros [_ M]. auto.
Qed.
Lemma category_false : forall n r ps ss n' b, category inside false n r ps ss = Ok (n', b) ->
  (b = true -> one_fails (may inside false r) ps ss) /\ (one_fails (must inside false r) ps ss -> b = true).
Proof.
  intros n r ps ss n' b H. unfold category in H. destruct ps as [|p ps].
  - injection H as <- <-. split; [discriminate|]. intros (s & q & _ & [] & _).
  - apply some_segment_false in H. auto.
Qed.

Definition ok_entry (dn : list (iroom A * part A)) (k : string) (x : intex) : Prop :=
  forall R, 
  ((In R (innenraum x) -> exists r p, In (r, p) dn /\ ir_name r = R /\ p_name p = k /\ all_pass (may inside true r) (p_internal p) (p_segments p)) /\
   ((exists r p, In (r, p) dn /\ ir_name r = R /\ p_name p = k /\ all_pass (must inside true r) (p_internal p) (p_segments p)) -> In R (innenraum x))) /\
  ((In R (aussenraum x) -> exists r p, In (r, p) dn /\ ir_name r = R /\ p_name p = k /\ all_pass (may inside true r) (p_external p) (p_segments p)) /\
   ((exists r p, In (r, p) dn /\ ir_name r = R /\ p_name p = k /\ all_pass (must inside true r) (p_external p) (p_segments p)) -> In R (aussenraum x))) /\
  ((In R (indifferent x) -> exists r p, In (r, p) dn /\ ir_name r = R /\ p_name p = k /\ one_fails (may inside false r) (p_indifferent p) (p_segments p)) /\
   ((exists r p, In (r, p) dn /\ ir_name r = R /\ p_name p = k /\ one_fails (must inside false r) (p_indifferent p) (p_segments p)) -> In R (indifferent x))).

Lemma sadd_in : forall b x s R, In R (sadd b x s) <-> In R s \/ (b = true /\ R = x).
Proof.
  intros b x s R. unfold sadd. destruct b; simpl.
  - destruct (memb String.eqb x s) eqn:M; simpl.
    + apply (memb_In _ _ String.eqb_eq) in M. split; [auto|]. intros [H|[_ ->]]; auto.
    + rewrite in_app_iff. simpl. intuition (subst; auto).
  - intuition discriminate.
Qed.

(** one of the three sets *)
Lemma set_step : forall (dn : list (iroom A * part A)) r ht k (U M : iroom A -> part A -> Prop) (s : list string) b R,
  (b = true -> U r ht) -> (M r ht -> b = true) ->
  ((In R s -> exists r p, In (r, p) dn /\ ir_name r = R /\ p_name p = k /\ U r p) /\
   ((exists r p, In (r, p) dn /\ ir_name r = R /\ p_name p = k /\ M r p) -> In R s)) ->
  let s' := if String.eqb k (p_name ht) then sadd b (ir_name r) s else s in
  (In R s' -> exists r' p, In (r', p) (dn ++ [(r, ht)]) /\ ir_name r' = R /\ p_name p = k /\ U r' p) /\
   ((exists r' p, In (r', p) (dn ++ [(r, ht)]) /\ ir_name r' = R /\ p_name p = k /\ M r' p) -> In R s').
Proof.
  intros dn r ht k U M s b R HU HM [S1 S2] s'. subst s'. destruct (String.eqb_spec k (p_name ht)) as [->|N].
  - split.
    + intro H. apply sadd_in in H. destruct H as [H|[B ->]].
      * apply S1 in H. destruct H as (r' & p & I & J). exists r', p. split; [apply in_app_iff; auto|auto].
      * exists r, ht. split; [apply in_app_iff; simpl; auto|auto].
    + intros (r' & p & I & J1 & J2 & J3). apply sadd_in. apply in_app_iff in I. destruct I as [I|[I|[]]].
      * left. apply S2. exists r', p. auto.
      * injection I as <- <-. right. split; auto.
  - split.
    + intro H. apply S1 in H. destruct H as (r' & p & I & J). exists r', p. split; [apply in_app_iff; auto|auto].
    + intros (r' & p & I & J1 & J2 & J3). apply in_app_iff in I. destruct I as [I|[I|[]]].
      * apply S2. exists r', p. auto.
      * injection I as <- <-. congruence.
Qed.

Definition okt (names : list string) (dn : list (iroom A * part A)) (t : table) : Prop :=
  map fst t = dedup String.eqb names /\ forall k x, In (k, x) t -> ok_entry dn k x.
Lemma probe_spec : forall names dn r ht n t n' t', okt names dn t -> probe inside r (n, t) ht = Ok (n', t') -> okt names (dn ++ [(r, ht)]) t'.
Proof.
  intros names dn r ht n t n' t' [O1 O2] H. unfold probe in H.
  destruct (category inside true n r (p_internal ht) (p_segments ht)) as [[n1 i]|] eqn:C1; simpl in H; [|discriminate].
  destruct (category inside true n1 r (p_external ht) (p_segments ht)) as [[n2 e]|] eqn:C2; simpl in H; [|discriminate].
  destruct (category inside false n2 r (p_indifferent ht) (p_segments ht)) as [[n3 d]|] eqn:C3; simpl in H; [|discriminate].
  match type of H with bind ?e _ = _ => destruct e; simpl in H; [|discriminate] end. injection H as <- <-.
  apply category_true in C1, C2. apply category_false in C3. destruct C1 as [C1 C1'], C2 as [C2 C2'], C3 as [C3 C3'].
  split.
  - rewrite <- O1. rewrite map_map. apply map_ext. intros [k x]. destruct (String.eqb k (p_name ht)); auto.
  - intros k x I. apply in_map_iff in I. destruct I as [[k' y] [E I]]. apply O2 in I.
    assert (K : k' = k) by (destruct (String.eqb k' (p_name ht)); congruence). subst k'.
    assert (X1 : innenraum x = if String.eqb k (p_name ht) then sadd i (ir_name r) (innenraum y) else innenraum y) by (destruct (String.eqb k (p_name ht)); injection E as <-; auto).
    assert (X2 : aussenraum x = if String.eqb k (p_name ht) then sadd e (ir_name r) (aussenraum y) else aussenraum y) by (destruct (String.eqb k (p_name ht)); injection E as <-; auto).
    assert (X3 : indifferent x = if String.eqb k (p_name ht) then sadd d (ir_name r) (indifferent y) else indifferent y) by (destruct (String.eqb k (p_name ht)); injection E as <-; auto).
    intro R. destruct (I R) as (I1 & I2 & I3). rewrite X1, X2, X3. split; [|split].
    + apply (set_step dn r ht k (fun r p => all_pass (may inside true r) (p_internal p) (p_segments p)) (fun r p => all_pass (must inside true r) (p_internal p) (p_segments p))); auto.
    + apply (set_step dn r ht k (fun r p => all_pass (may inside true r) (p_external p) (p_segments p)) (fun r p => all_pass (must inside true r) (p_external p) (p_segments p))); auto.
    + apply (set_step dn r ht k (fun r p => one_fails (may inside false r) (p_indifferent p) (p_segments p)) (fun r p => one_fails (must inside false r) (p_indifferent p) (p_segments p))); auto.
Qed.
Lemma probes_spec : forall names r hts dn n t n' t', okt names dn t -> foldM (probe inside r) hts (n, t) = Ok (n', t') -> okt names (dn ++ map (pair r) hts) t'.
Proof.
  induction hts as [|h hts IH]; intros dn n t n' t' O H; simpl in H.
  - injection H as <- <-. simpl. rewrite app_nil_r. auto.
  - match type of H with bind ?e _ = _ => destruct e as [[n1 t1]|] eqn:E; simpl in H; [|discriminate] end.
    apply (probe_spec names dn) in E; auto. apply (IH (dn ++ [(r, h)])) in H; auto. rewrite <- app_assoc in H. auto.
Qed.
Definition wall_pairs (rs : list (iroom A)) : list (iroom A * part A) := flat_map (fun r => map (pair r) (ir_innen r ++ ir_aussen r)) rs.
Lemma rooms_probe : forall names rs dn n t n' t', okt names dn t ->
  foldM (fun '(n, t) r => prepare r ;;; foldM (probe inside r) (ir_innen r ++ ir_aussen r) (n, t)) rs (n, t) = Ok (n', t') -> okt names (dn ++ wall_pairs rs) t'.
Proof.
  induction rs as [|r rs IH]; intros dn n t n' t' O H; simpl in H.
  - injection H as <- <-. simpl. rewrite app_nil_r. auto.
  - match type of H with bind ?e _ = _ => destruct e as [[n1 t1]|] eqn:E; simpl in H; [|discriminate] end.
    destruct (prepare r); simpl in E; [|discriminate]. apply (probes_spec names r _ dn) in E; auto.
    apply (IH (dn ++ map (pair r) (ir_innen r ++ ir_aussen r))) in H; auto. simpl. rewrite app_assoc. auto.
Qed.
Lemma intex_okt : forall names rooms t, raum_intex prepare inside names rooms = Ok t -> okt names (wall_pairs rooms) t.
Proof.
  intros names rooms t H. unfold raum_intex in H.
  match type of H with bind ?e _ = _ => destruct e as [[n1 t1]|] eqn:E; simpl in H; [|discriminate] end. injection H as ->.
  apply (rooms_probe names rooms []) in E; [exact E|]. split.
  - rewrite map_map. apply map_id.
  - intros k x I. apply in_map_iff in I. destruct I as [k' [EQ _]]. injection EQ as -> <-. intro R. simpl.
    split; [|split]; (split; [intros []|intros (r & p & [] & _)]).
Qed.
Lemma wall_pairs_in : forall rooms r p, In (r, p) (wall_pairs rooms) <-> In r rooms /\ in_wall r p.
Proof.
  intros rooms r p. unfold wall_pairs, in_wall. rewrite in_flat_map. split.
  - intros [r' [I J]]. apply in_map_iff in J. destruct J as [p' [E J]]. injection E as -> ->. apply in_app_iff in J. auto.
  - intros [I J]. exists r. split; auto. apply in_map_iff. exists p. split; auto. apply in_app_iff; auto.
Qed.
End Intex.

(*@ C51_entries *)
(** C51: one entry for each name of a part. *)
Lemma intex_entries : forall (A : Arith) prepare inside (names : list string) (rooms : list (iroom A)) t,
  raum_intex prepare inside names rooms = Ok t -> NoDup (map fst t) /\ forall k, In k (map fst t) <-> In k names.
Proof.
  intros A prepare inside names rooms t H. apply intex_okt in H. destruct H as [H _]. rewrite H. split.
  - apply (dedup_NoDup _ _ String.eqb_eq).
  - intro k. apply (dedup_In _ _ String.eqb_eq).
Qed.

(*@ C51_reported *)
(** C51: what a report means.  R is reported as innenraum (aussenraum) of a part k only if R is the name of a room with
    a part named k in its wall, which has internal (external) probing points and a segment all of whose probing
    points were found inside the room; as indifferent only if one of the indifferent points was found not inside.
    Conversely R is reported if the answers leave no choice. *)
Lemma intex_reported : forall (A : Arith) prepare inside (names : list string) (rooms : list (iroom A)) t k x R,
  raum_intex prepare inside names rooms = Ok t -> In (k, x) t ->
  let wall r p := In r rooms /\ ir_name r = R /\ in_wall r p /\ p_name p = k in
  ((In R (innenraum x) -> exists r p, wall r p /\ all_pass (may inside true r) (p_internal p) (p_segments p)) /\
   ((exists r p, wall r p /\ all_pass (must inside true r) (p_internal p) (p_segments p)) -> In R (innenraum x))) /\
  ((In R (aussenraum x) -> exists r p, wall r p /\ all_pass (may inside true r) (p_external p) (p_segments p)) /\
   ((exists r p, wall r p /\ all_pass (must inside true r) (p_external p) (p_segments p)) -> In R (aussenraum x))) /\
  ((In R (indifferent x) -> exists r p, wall r p /\ one_fails (may inside false r) (p_indifferent p) (p_segments p)) /\
   ((exists r p, wall r p /\ one_fails (must inside false r) (p_indifferent p) (p_segments p)) -> In R (indifferent x))).
Proof.
  intros A prepare inside names rooms t k x R H I wall. apply intex_okt in H. destruct H as [_ H]. destruct (H k x I R) as (H1 & H2 & H3).
  assert (Q : forall (U M : iroom A -> part A -> Prop) s,
    ((In R s -> exists r p, In (r, p) (wall_pairs rooms) /\ ir_name r = R /\ p_name p = k /\ U r p) /\
     ((exists r p, In (r, p) (wall_pairs rooms) /\ ir_name r = R /\ p_name p = k /\ M r p) -> In R s)) ->
    (In R s -> exists r p, wall r p /\ U r p) /\ ((exists r p, wall r p /\ M r p) -> In R s)).
  { intros U M s [Q1 Q2]. split.
    - intro J. apply Q1 in J. destruct J as (r & p & J1 & J2 & J3 & J4). apply wall_pairs_in in J1. exists r, p. unfold wall. tauto.
    - intros (r & p & (J1 & J2 & J3 & J4) & J5). apply Q2. exists r, p. split; [apply wall_pairs_in; auto|auto]. }
  split; [|split].
  - apply (Q (fun r p => all_pass (may inside true r) (p_internal p) (p_segments p)) (fun r p => all_pass (must inside true r) (p_internal p) (p_segments p))). auto.
  - apply (Q (fun r p => all_pass (may inside true r) (p_external p) (p_segments p)) (fun r p => all_pass (must inside true r) (p_external p) (p_segments p))). auto.
  - apply (Q (fun r p => one_fails (may inside false r) (p_indifferent p) (p_segments p)) (fun r p => one_fails (must inside false r) (p_indifferent p) (p_segments p))). auto.
Qed.

(*@ C51_total *)
(** C51: no exception, if the tests raise none and the parts in the walls are parts of the vessel. *)
Lemma intex_total : forall (A : Arith) (prepare : iroom A -> res unit) inside (names : list string) (rooms : list (iroom A)),
  (forall r, In r rooms -> prepare r = Ok tt) -> (forall n r p, exists b, inside n r p = Ok b) ->
  (forall r p, In r rooms -> in_wall r p -> In (p_name p) names) ->
  exists t, raum_intex prepare inside names rooms = Ok t.
Proof.
  intros A prepare inside names rooms HP HI HN. unfold raum_intex.
  assert (AI : forall ps n r, exists n' b, all_inside inside n r ps = Ok (n', b)).
  { induction ps as [|p ps IH]; intros n r; simpl; [eauto|]. destruct (HI n r (ip_pt p)) as [[|] ->]; simpl; eauto. }
  assert (SS : forall ss w n r ps, exists n' b, some_segment inside w n r ps ss = Ok (n', b)).
  { induction ss as [|s ss IH]; intros w n r ps; simpl; [eauto|].
    destruct (AI (filter (fun x => seg_eqb (ip_segment x) s) ps) n r) as (n1 & b1 & ->). simpl.
    destruct (IH w n1 r ps) as (n2 & b2 & ->). simpl. eauto. }
  assert (CA : forall w n r ps ss, exists n' b, category inside w n r ps ss = Ok (n', b)).
  { intros w n r ps ss. unfold category. destruct ps; [eauto|]. apply SS. }
  assert (PR : forall r n (t : table) p, In (p_name p) (map fst t) -> exists n' t', probe inside r (n, t) p = Ok (n', t') /\ map fst t' = map fst t).
  { intros r n t p I. unfold probe. destruct (CA true n r (p_internal p) (p_segments p)) as (n1 & i & ->). simpl.
    destruct (CA true n1 r (p_external p) (p_segments p)) as (n2 & e & ->). simpl.
    destruct (CA false n2 r (p_indifferent p) (p_segments p)) as (n3 & d & ->). simpl.
    destruct (lookup_dom _ _ String.eqb String.eqb_eq _ _ I) as [v ->]. simpl.
    destruct (i || e || d); simpl; (eexists; eexists; split; [reflexivity|]); rewrite map_map; apply map_ext; intros [k y]; destruct (String.eqb k (p_name p)); auto. }
  assert (PS : forall ps r n (t : table), (forall p, In p ps -> In (p_name p) (map fst t)) -> exists n' t', foldM (probe inside r) ps (n, t) = Ok (n', t') /\ map fst t' = map fst t).
  { induction ps as [|p ps IH]; intros r n t I; [simpl; eauto|]. destruct (PR r n t p) as (n1 & t1 & E & F); [apply I; simpl; auto|].
    assert (U : foldM (probe inside r) (p :: ps) (n, t) = bind (probe inside r (n, t) p) (fun s => foldM (probe inside r) ps s)) by reflexivity.
    rewrite U, E. change (bind (Ok (n1, t1)) (fun s => foldM (probe inside r) ps s)) with (foldM (probe inside r) ps (n1, t1)). clear U.
    destruct (IH r n1 t1) as (n2 & t2 & E2 & F2); [intros q Q; rewrite F; apply I; simpl; auto|]. exists n2, t2. split; [exact E2|congruence]. }
  assert (RS : forall rs n (t : table), (forall r, In r rs -> In r rooms) -> map fst t = dedup String.eqb names ->
    exists n' t', foldM (fun '(n, t) r => prepare r ;;; foldM (probe inside r) (ir_innen r ++ ir_aussen r) (n, t)) rs (n, t) = Ok (n', t')).
  { induction rs as [|r rs IH]; intros n t I T; simpl; [eauto|]. rewrite HP by (apply I; simpl; auto). simpl.
    destruct (PS (ir_innen r ++ ir_aussen r) r n t) as (n1 & t1 & E & F).
    - intros p P. rewrite T. apply (dedup_In _ _ String.eqb_eq). apply (HN r); [apply I; simpl; auto|]. apply in_app_iff in P. exact P.
    - rewrite E. simpl. apply IH; [intros; apply I; simpl; auto|congruence]. }
  destruct (RS rooms 0 (map (fun k => (k, mkintex [] [] [])) (dedup String.eqb names))) as (n' & t & E); auto.
  - rewrite map_map. apply map_id.
  - exists t. match goal with |- bind ?e _ = _ => assert (E' : e = Ok (n', t)) by exact E end. rewrite E'. reflexivity.
Qed.

(*@ C51_vacuous_refuted *)
(** C51, finding: if a segment of the part has no internal probing point but another has, every room with the
    part in its wall is reported as innenraum, even if no point is inside. *)
Lemma intex_vacuous : forall (A : Arith) (names : list string) (r : iroom A) p s t k x,
  in_wall r p -> p_name p = k -> p_internal p <> [] -> In s (p_segments p) ->
  (forall q, In q (p_internal p) -> seg_eqb (ip_segment q) s = false) ->
  raum_intex (fun _ => Ok tt) (fun _ _ _ => Ok false) names [r] = Ok t -> In (k, x) t -> In (ir_name r) (innenraum x).
Proof.
  intros A names r p s t k x W N NE S V H I.
  destruct (intex_reported A _ _ names [r] t k x (ir_name r) H I) as [[_ Q] _]. apply Q. exists r, p. split.
  - simpl. auto.
  - split; auto. exists s. split; auto. intros q Q1 Q2. apply V in Q1. congruence.
Qed.

(*@ex C51_example *)
(** C51: a wall with one probing point of each kind in the wall of two rooms, in exact arithmetic; one test says yes for
    the first room only *)
Example intex_example : forall s : seg RA, let q := mkip (si s) s in
  let ma := mkpart "ma1"%string [s] [q] [] [q] in
  let r1 := mkiroom "R1"%string [] [ma] in let r2 := mkiroom "R2"%string [ma] [] in
  let inside (n : nat) (r : iroom RA) (p : pt RA) := Ok (String.eqb (ir_name r) "R1"%string) in
  raum_intex (fun _ => Ok tt) inside ["ma1"; "bo1"]%string [r1; r2] =
    Ok [("ma1", mkintex ["R1"] [] ["R2"]); ("bo1", mkintex [] [] [])]%string.
Proof.
  intros s q ma r1 r2 inside. unfold raum_intex. repeat (cbn -[seg_eqb]; rewrite !seg_eqb_refl). reflexivity.
Qed.

(** ** from_dict *)
Lemma kw_spec : forall V (d : list (string * V)) ks kw, mapM (fun k => v <- lookup String.eqb k d ;; Ok (k, v)) ks = Ok kw ->
  map fst kw = ks /\ forall k v, In (k, v) kw -> In (k, v) d.
Proof.
  induction ks as [|k ks IH]; simpl; intros kw H; [injection H as <-; split; [auto|easy]|].
  destruct (lookup String.eqb k d) as [v|] eqn:L; simpl in H; [|discriminate].
  match type of H with bind ?e _ = _ => destruct e as [kw'|] eqn:E; simpl in H; [|discriminate] end. injection H as <-.
  destruct (IH kw' eq_refl) as [I1 I2]. split; [simpl; f_equal; auto|]. intros k' v' [I|I]; auto.
  injection I as <- <-. apply (lookup_ok _ _ _ String.eqb_eq). auto.
Qed.
Lemma kw_total : forall V (d : list (string * V)) ks, (forall k, In k ks -> In k (map fst d)) -> exists kw, mapM (fun k => v <- lookup String.eqb k d ;; Ok (k, v)) ks = Ok kw.
Proof.
  induction ks as [|k ks IH]; simpl; intro H; [eauto|].
  destruct (lookup_dom _ _ _ String.eqb_eq _ _ (H k (or_introl eq_refl))) as [v ->]. simpl. destruct IH as [kw ->]; [auto|]. simpl. eauto.
Qed.
Lemma kw_missing : forall V (d : list (string * V)) ks k, In k ks -> ~ In k (map fst d) -> mapM (fun k => v <- lookup String.eqb k d ;; Ok (k, v)) ks = Err KeyError.
Proof.
  intros V d ks k I N. eapply in_mapM_err; [|exact I|].
  - intros y _ e' H. destruct (lookup String.eqb y d) as [v|] eqn:L; simpl in H; [discriminate|]. injection H as ->.
    apply (lookup_err _ _ _ String.eqb_eq) in L. tauto.
  - simpl. rewrite (proj2 (lookup_err _ _ _ String.eqb_eq d k) N). auto.
Qed.

(*@ C56_missing *)
(** C56: a dict without one of the required keys is rejected with an Exception, whatever else it contains. *)
Lemma from_dict_missing : forall (V : Type) build sorted_hts has_other c (d : list (string * V)) k,
  In k (required c) -> ~ In k (map fst d) -> from_dict build sorted_hts has_other c d = Err OtherException.
Proof.
  intros V build sorted_hts has_other c d k I N. unfold from_dict.
  rewrite (kw_missing V d (keys_of c) k); auto.
Qed.

(*@ C56_result *)
(** C56: if from_dict returns an object, every required key was there, every key of the dict is an attribute of the
    object, and the attributes set by the constructor are the required keys with the values of the dict (the
    list hts of a KegelKrempe sorted). *)
Lemma from_dict_result : forall (V : Type) build sorted_hts has_other c (d : list (string * V)) o,
  NoDup (map fst d) -> from_dict build sorted_hts has_other c d = Ok o ->
  map fst (o_attrs o) = required c /\
  (forall k v, In k (required c) -> In (k, v) d ->
     if String.eqb k "hts" then exists v', sorted_hts v = Ok v' /\ In (k, v') (o_attrs o) else In (k, v) (o_attrs o)) /\
  (forall k, In k (map fst d) -> In k (required c) \/ has_other o k = Ok true).
Proof.
  intros V build sorted_hts has_other c d o D H. unfold from_dict in H.
  match type of H with match ?e with _ => _ end = _ => destruct e as [o'|e'] eqn:E end; [injection H as ->|destruct e'; discriminate].
  destruct (mapM (fun k => v <- lookup String.eqb k d ;; Ok (k, v)) (keys_of c)) as [kw|] eqn:KW; simpl in E; [|discriminate].
  destruct (construct build sorted_hts (made c) kw) as [o1|] eqn:C; simpl in E; [|discriminate].
  destruct (mapM (fun i => hasattr has_other o1 (fst i)) d) as [bs|] eqn:B; simpl in E; [|discriminate].
  destruct (forallb (fun b => b) bs) eqn:F; simpl in E; [|discriminate]. injection E as ->.
  apply kw_spec in KW. destruct KW as [K1 K2]. change (keys_of c) with (required c) in K1.
  assert (KV : forall k v, In k (required c) -> In (k, v) d -> In (k, v) kw).
  { intros k v I J. rewrite <- K1 in I. apply in_map_iff in I. destruct I as [[k' v'] [<- I]]. simpl in *.
    assert (J' := K2 _ _ I). apply (lookup_in _ _ _ String.eqb_eq) in J, J'; auto. congruence. }
  assert (AT : map fst (o_attrs o) = required c /\ (forall k v, In (k, v) kw -> if String.eqb k "hts" then exists v', sorted_hts v = Ok v' /\ In (k, v') (o_attrs o) else In (k, v) (o_attrs o))).
  { assert (STD : forall cc, cc <> CKegelKrempe -> (build cc kw ;;; Ok (mkobject cc kw)) = Ok o -> c <> CKegelKrempe ->
      map fst (o_attrs o) = required c /\ (forall k v, In (k, v) kw -> if String.eqb k "hts" then exists v', sorted_hts v = Ok v' /\ In (k, v') (o_attrs o) else In (k, v) (o_attrs o))).
    { intros cc _ X NC. destruct (build cc kw); simpl in X; [|discriminate]. injection X as <-. simpl. split; auto. intros k v I.
      destruct (String.eqb_spec k "hts") as [->|_]; auto. exfalso. apply (in_map fst) in I. rewrite K1 in I. simpl in I.
      destruct c; try congruence; simpl in I; intuition discriminate. }
    unfold construct in C. destruct c; cbv beta iota delta [made] in C; try discriminate C;
      try (match type of C with (build ?k _ ;;; _) = _ => apply (STD k); [discriminate|exact C|discriminate] end).
    match type of C with bind ?e _ = _ => destruct e as [kw'|] eqn:M; simpl in C; [|discriminate] end.
    destruct (build CKegelKrempe kw'); simpl in C; [|discriminate]. injection C as <-. simpl o_attrs.
    rewrite <- K1. clear -M. revert kw' M. induction kw as [|[k v] kw IH]; simpl; intros kw' M.
    - injection M as <-. split; [auto|easy].
    - destruct (String.eqb k "hts") eqn:X; simpl in M.
      + destruct (sorted_hts v) as [v'|] eqn:Q; simpl in M; [|discriminate].
        match type of M with bind ?e _ = _ => destruct e as [kw1|] eqn:M1; simpl in M; [|discriminate] end. injection M as <-.
        destruct (IH kw1 eq_refl) as [I1 I2]. split; [simpl; f_equal; auto|]. intros k' w [I|I].
        * injection I as <- <-. rewrite X. exists v'. simpl. auto.
        * apply I2 in I. destruct (String.eqb k' "hts"); simpl; auto. destruct I as [u [U1 U2]]. eauto.
      + match type of M with bind ?e _ = _ => destruct e as [kw1|] eqn:M1; simpl in M; [|discriminate] end. injection M as <-.
        destruct (IH kw1 eq_refl) as [I1 I2]. split; [simpl; f_equal; auto|]. intros k' w [I|I].
        * injection I as <- <-. rewrite X. simpl. auto.
        * apply I2 in I. destruct (String.eqb k' "hts"); simpl; auto. destruct I as [u [U1 U2]]. eauto. }
  destruct AT as [A1 A2]. split; auto. split.
  - intros k v I J. apply A2. auto.
  - intros k I. apply in_map_iff in I. destruct I as [[k' v] [<- I]]. simpl.
    assert (HA : hasattr has_other o k' = Ok true).
    { clear -B F I. revert bs B F. induction d as [|[k v0] d IH]; simpl; intros bs B F; [easy|].
      destruct (hasattr has_other o k) as [b|] eqn:HB; simpl in B; [|discriminate].
      match type of B with bind ?e _ = _ => destruct e as [bs'|] eqn:M1; simpl in B; [|discriminate] end. injection B as <-.
      simpl in F. apply andb_true_iff in F. destruct F as [F1 F2]. destruct I as [I|I]; [injection I as -> ->; congruence|]. eapply IH; eauto. }
    unfold hasattr in HA. rewrite A1 in HA. destruct (memb String.eqb k' (required c)) eqn:M; [left|right; auto].
    apply (memb_In _ _ String.eqb_eq) in M. auto.
Qed.

(*@ C56_accepted *)
(** C56: for a class other than Rohrboden and KegelKrempe: if the required keys are there and the rest of the
    constructor succeeds, then the dict is accepted if its other keys are attributes, and rejected with an
    AssertionError if one is not.  An exception of the constructor comes through (a KeyError as an Exception). *)
Lemma from_dict_accepted : forall (V : Type) build sorted_hts has_other c (d : list (string * V)),
  NoDup (map fst d) -> c <> CRohrboden -> c <> CKegelKrempe -> (forall k, In k (required c) -> In k (map fst d)) ->
  exists o, (forall k v, In k (required c) -> In (k, v) d -> In (k, v) (o_attrs o)) /\ map fst (o_attrs o) = required c /\
  (forall e, build (o_class o) (o_attrs o) = Err e -> from_dict build sorted_hts has_other c d = Err (match e with KeyError => OtherException | _ => e end)) /\
  (build (o_class o) (o_attrs o) = Ok tt ->
   ((forall k, In k (map fst d) -> In k (required c) \/ has_other o k = Ok true) -> from_dict build sorted_hts has_other c d = Ok o) /\
   ((forall k, In k (map fst d) -> exists b, has_other o k = Ok b) -> (exists k, In k (map fst d) /\ ~ In k (required c) /\ has_other o k = Ok false) ->
     from_dict build sorted_hts has_other c d = Err AssertionError)).
Proof.
  intros V build sorted_hts has_other c d D N1 N2 R. unfold from_dict.
  destruct (kw_total V d (keys_of c) R) as [kw KW]. rewrite KW. apply kw_spec in KW. destruct KW as [K1 K2]. change (keys_of c) with (required c) in K1.
  exists (mkobject (made c) kw). simpl o_attrs. simpl o_class.
  assert (KV : forall k v, In k (required c) -> In (k, v) d -> In (k, v) kw).
  { intros k v I J. rewrite <- K1 in I. apply in_map_iff in I. destruct I as [[k' v'] [<- I]]. simpl in *.
    assert (J' := K2 _ _ I). apply (lookup_in _ _ _ String.eqb_eq) in J, J'; auto. congruence. }
  split; auto. split; auto.
  assert (CO : construct build sorted_hts (made c) kw = (build (made c) kw ;;; Ok (mkobject (made c) kw))) by (destruct c; try congruence; reflexivity).
  assert (HA : forall k, hasattr has_other (mkobject (made c) kw) k = if memb String.eqb k (required c) then Ok true else has_other (mkobject (made c) kw) k).
  { intro k. unfold hasattr. simpl o_attrs. rewrite K1. auto. }
  cbn [bind]. rewrite !CO. split.
  - intros e ->. simpl. destruct e; auto.
  - intros ->. simpl bind. split.
    + intro H. rewrite (mapM_all _ _ _ (fun _ => true)).
      * simpl. replace (forallb (fun b => b) (map (fun _ : string * V => true) d)) with true; [auto|]. clear. induction d; simpl; auto.
      * intros [k v] I. simpl. rewrite HA. destruct (memb String.eqb k (required c)) eqn:M; auto. destruct (H k) as [J|J]; auto.
        -- apply (in_map fst) in I. auto.
        -- apply (memb_In _ _ String.eqb_eq) in J. congruence.
    + intros H1 (k0 & I0 & NR & F0).
      assert (Q : exists bs, mapM (fun i => hasattr has_other (mkobject (made c) kw) (fst i)) d = Ok bs /\ forallb (fun b => b) bs = false).
      { assert (T : forall l, (forall k, In k (map fst l) -> exists b, has_other (mkobject (made c) kw) k = Ok b) -> exists bs, mapM (fun i => hasattr has_other (mkobject (made c) kw) (fst i)) (l : list (string * V)) = Ok bs /\ (In k0 (map fst l) -> forallb (fun b => b) bs = false)).
        { induction l as [|[k v] l IH]; simpl; intro H; [exists []; split; [auto|easy]|].
          destruct IH as [bs [-> B2]]; [auto|]. rewrite HA. destruct (memb String.eqb k (required c)) eqn:M; simpl.
          - exists (true :: bs). split; auto. intros [->|I]; [|simpl; auto]. apply (memb_In _ _ String.eqb_eq) in M. contradiction.
          - destruct (H k (or_introl eq_refl)) as [b Hb]. rewrite Hb. simpl. exists (b :: bs). split; auto. intros [->|I].
            + rewrite F0 in Hb. injection Hb as <-. auto.
            + simpl. rewrite (B2 I). apply andb_false_r. }
        destruct (T d) as [bs [B1 B2]]; [auto|]. exists bs. auto. }
      destruct Q as [bs [-> B2]]. simpl. rewrite B2. auto.
Qed.

(*@ C56_rohrboden_refuted *)
(** C56, finding: a Rohrboden cannot be made; with all required keys the result is a TypeError. *)
Lemma from_dict_rohrboden : forall (V : Type) build sorted_hts has_other (d : list (string * V)),
  (forall o, from_dict build sorted_hts has_other CRohrboden d <> Ok o) /\
  ((forall k, In k (required CRohrboden) -> In k (map fst d)) -> from_dict build sorted_hts has_other CRohrboden d = Err TypeError).
Proof.
  intros V build sorted_hts has_other d. unfold from_dict. split.
  - intro o. match goal with |- context [bind ?e _] => destruct e as [kw|x] end; simpl; [discriminate|]. destruct x; discriminate.
  - intro H. destruct (kw_total V d (keys_of CRohrboden) H) as [kw ->]. reflexivity.
Qed.

(*@ C56_standzarge_refuted *)
(** C56, finding: StandZarge.from_dict makes a Mantel. *)
Lemma from_dict_standzarge : forall (V : Type) build sorted_hts has_other (d : list (string * V)) o,
  from_dict build sorted_hts has_other CStandZarge d = Ok o -> o_class o = CMantel.
Proof.
  intros V build sorted_hts has_other d o H. unfold from_dict in H.
  match type of H with match ?e with _ => _ end = _ => destruct e as [o'|e'] eqn:E end; [injection H as ->|destruct e'; discriminate].
  match type of E with bind ?e _ = _ => destruct e as [kw|]; simpl in E; [|discriminate] end.
  destruct (build CMantel kw); simpl in E; [|discriminate].
  match type of E with bind ?e _ = _ => destruct e as [bs|]; simpl in E; [|discriminate] end.
  destruct (forallb (fun b => b) bs); simpl in E; [|discriminate]. injection E as <-. auto.
Qed.

(*@ex C56_example *)
(** C56: a Flachboden, with the key typ, which is an attribute of every part, and with a key that is none *)
Example from_dict_example : let build (c : pclass) (kw : list (string * nat)) := Ok tt in
  let has (o : object nat) x := Ok (String.eqb x "typ") in
  let d := [("d", 2); ("name", 7); ("pos_v", 0); ("pos_h", 1)]%string in
  from_dict build (fun v => Ok v) has CFlachboden (("typ", 9) :: d)%string =
    Ok (mkobject CFlachboden [("name", 7); ("pos_v", 0); ("pos_h", 1); ("d", 2)]%string) /\
  from_dict build (fun v => Ok v) has CFlachboden (("h", 9) :: d)%string = Err AssertionError /\
  from_dict build (fun v => Ok v) has CMantel d = Err OtherException.
Proof. repeat split. Qed.
