(** raum_dict_checker *)
From Coq Require Import String Bool List Arith Permutation Lia.
From Verif Require Import Base Arith MPoint MLine MCycles MRaum SpecCycles SpecRaum PPoint PSplit.
Import ListNotations.

Lemma lookup_ok : forall K V (eqb : K -> K -> bool), decides_eq eqb -> forall (d : list (K * V)) k v,
  lookup eqb k d = Ok v -> In (k, v) d.
Proof.
  intros K V eqb E d k v. induction d as [|[k' v'] r IH]; simpl; [discriminate|].
  destruct (eqb k' k) eqn:X; intro H; [apply E in X; injection H as ->; subst; auto|auto].
Qed.
Lemma lookup_in : forall K V (eqb : K -> K -> bool), decides_eq eqb -> forall (d : list (K * V)) k v,
  NoDup (map fst d) -> In (k, v) d -> lookup eqb k d = Ok v.
Proof.
  intros K V eqb E d k v. induction d as [|[k' v'] r IH]; simpl; intros D H; [easy|].
  inversion D as [|? ? N D']; subst. destruct H as [H|H].
  - injection H as -> ->. replace (eqb k k) with true by (symmetry; apply E; auto). auto.
  - destruct (eqb k' k) eqn:X; [|auto]. apply E in X. subst. exfalso; apply N. apply (in_map fst) in H; auto.
Qed.
Lemma lookup_err : forall K V (eqb : K -> K -> bool), decides_eq eqb -> forall (d : list (K * V)) k,
  (forall e, lookup eqb k d = Err e -> e = KeyError /\ ~ In k (map fst d)) /\ (~ In k (map fst d) -> lookup eqb k d = Err KeyError).
Proof.
  intros K V eqb E d k. induction d as [|[k' v'] r IH]; simpl.
  - split; [intros e H; injection H as <-; auto|auto].
  - destruct (eqb k' k) eqn:X.
    + split; [discriminate|]. intro H; exfalso; apply H; left; apply E; auto.
    + assert (k' <> k) by (intro Y; apply E in Y; congruence). destruct IH as [I1 I2]. split.
      * intros e H'. apply I1 in H'. intuition.
      * intro H'. apply I2. intuition.
Qed.
Lemma lookup_dom : forall K V (eqb : K -> K -> bool), decides_eq eqb -> forall (d : list (K * V)) k,
  In k (map fst d) -> exists v, lookup eqb k d = Ok v.
Proof.
  intros K V eqb E d k H. destruct (lookup eqb k d) eqn:X; [eauto|]. apply (lookup_err K V eqb E) in X. tauto.
Qed.

Lemma mapM_all : forall X Y (f : X -> res Y) (g : X -> Y) l, (forall x, In x l -> f x = Ok (g x)) -> mapM f l = Ok (map g l).
Proof. induction l as [|x r IH]; simpl; intro H; auto. rewrite (H x) by auto. simpl. rewrite IH by auto. auto. Qed.

(** permutations *)
Lemma picks_perm : forall X (l : list X) x r, In (x, r) (picks l) -> Permutation l (x :: r).
Proof.
  induction l as [|y s IH]; simpl; intros x r H; [easy|]. destruct H as [H|H].
  - injection H as -> ->. auto.
  - apply in_map_iff in H. destruct H as [[z t] [H1 H2]]. injection H1 as -> <-.
    apply IH in H2. rewrite H2. apply perm_swap.
Qed.
Lemma picks_in : forall X (l : list X) x, In x l -> exists r, In (x, r) (picks l).
Proof.
  induction l as [|y s IH]; simpl; intros x H; [easy|]. destruct H as [->|H]; [eauto|].
  destruct (IH x H) as [r R]. exists (y :: r). right. apply in_map_iff. exists (x, r). auto.
Qed.
Lemma picks_fst : forall X (l : list X), map fst (picks l) = l.
Proof.
  induction l as [|y s IH]; simpl; auto. f_equal. rewrite map_map.
  rewrite <- IH at 2. apply map_ext. intros [a b]; auto.
Qed.
Lemma perms_in : forall X n (l x : list X), NoDup l -> List.length l = n -> (In x (perms n l) <-> Permutation l x).
Proof.
  induction n as [|n IH]; intros l x D L; simpl.
  - destruct l; [|discriminate]. split; [intros [<-|[]]; auto|]. intro P. apply Permutation_nil in P. auto.
  - rewrite in_flat_map. split.
    + intros [[y r] [H1 H2]]. apply in_map_iff in H2. destruct H2 as [z [<- H2]].
      apply picks_perm in H1. assert (D' : NoDup (y :: r)) by (eapply Permutation_NoDup; eauto).
      apply IH in H2.
      * rewrite H1. auto.
      * inversion D'; auto.
      * apply Permutation_length in H1. simpl in H1. lia.
    + intro P. destruct x as [|y z]; [apply Permutation_sym, Permutation_nil in P; subst; discriminate|].
      assert (I : In y l) by (eapply Permutation_in; [symmetry; eauto|simpl; auto]).
      destruct (picks_in _ _ _ I) as [r R]. exists (y, r). split; auto. apply in_map.
      apply picks_perm in R. assert (D' : NoDup (y :: r)) by (eapply Permutation_NoDup; eauto).
      apply IH.
      * inversion D'; auto.
      * apply Permutation_length in R. simpl in R. lia.
      * apply Permutation_cons_inv with y. rewrite <- R. auto.
Qed.
Lemma NoDup_flat_map : forall X Y (f : X -> list Y) l, NoDup l -> (forall x, In x l -> NoDup (f x)) ->
  (forall x y z, In x l -> In y l -> In z (f x) -> In z (f y) -> x = y) -> NoDup (flat_map f l).
Proof.
  induction l as [|x r IH]; simpl; intros D N U; [constructor|]. inversion D; subst.
  assert (Hn := N x (or_introl eq_refl)). assert (Hr : NoDup (flat_map f r)) by (apply IH; [auto|intros; apply N; auto|intros a b c; intros; apply (U a b c); auto]).
  assert (Hd : forall z, In z (f x) -> ~ In z (flat_map f r)).
  { intros z I J. apply in_flat_map in J. destruct J as [y [J1 J2]]. assert (x = y) by (apply (U x y z); auto). subst. auto. }
  clear -Hn Hr Hd. induction (f x) as [|a s IH]; simpl; auto. inversion Hn; subst. constructor.
  - rewrite in_app_iff. intros [I|I]; [auto|]. apply (Hd a); simpl; auto.
  - apply IH; auto. intros z I. apply Hd; simpl; auto.
Qed.
Lemma perms_nodup : forall X n (l : list X), NoDup l -> List.length l = n -> NoDup (perms n l).
Proof.
  induction n as [|n IH]; intros l D L; simpl; [repeat constructor; auto|].
  assert (DP : NoDup (picks l)) by (apply (NoDup_map_inv fst); rewrite picks_fst; auto).
  apply NoDup_flat_map; auto.
  - intros [x r] H. apply picks_perm in H. assert (D' : NoDup (x :: r)) by (eapply Permutation_NoDup; eauto).
    apply FinFun.Injective_map_NoDup; [intros a b E; congruence|]. apply IH; [inversion D'; auto|].
    apply Permutation_length in H. simpl in H. lia.
  - intros [x r] [y s] z H1 H2 H3 H4. apply in_map_iff in H3, H4. destruct H3 as [a [<- _]], H4 as [b [E _]].
    injection E as -> _. clear -H1 H2 D.
    assert (F := picks_fst _ l). assert (DF : NoDup (map fst (picks l))) by (rewrite F; auto).
    clear F. induction (picks l) as [|[u v] q IHq]; simpl in *; [easy|]. inversion DF as [|? ? N DF']; subst.
    destruct H1 as [H1|H1], H2 as [H2|H2].
    + congruence.
    + injection H1 as -> ->. exfalso; apply N. apply (in_map fst) in H2; auto.
    + injection H2 as -> ->. exfalso; apply N. apply (in_map fst) in H1; auto.
    + auto.
Qed.
Lemma perms_first : forall X n (l : list X), List.length l = n -> exists r, perms n l = l :: r.
Proof.
  induction n as [|n IH]; intros l L; destruct l as [|x s]; try discriminate; simpl; [eauto|].
  injection L as L. destruct (IH s L) as [r R]. rewrite R. simpl. eauto.
Qed.
Lemma perms_some : forall X n (l : list X), n <= List.length l -> exists x r, perms n l = x :: r /\ List.length x = n.
Proof.
  induction n as [|n IH]; intros l L; destruct l as [|x s]; simpl in *; try lia; try (exists [], []; auto; fail).
  destruct (IH s) as (y & r & R & L'); [lia|]. rewrite R. simpl. exists (x :: y). eexists. split; [reflexivity|simpl; lia].
Qed.

Section Checker.
Context {K N : Type} (keqb : K -> K -> bool) (neqb : N -> N -> bool).
Hypothesis (KE : decides_eq keqb) (NE : decides_eq neqb).

Definition letter (p : list (N * nat)) (r : N) : nat := match lookup neqb r p with Ok n => n | Err _ => 0 end.
Definition letters (rs : list N) (p : list (N * nat)) (vv : list N) : list nat := map (letter p) (filter (fun x => memb neqb x vv) rs).
Definition conv (rs : list N) (p : list (N * nat)) (d : list (K * list (K * list N))) : list (K * list (K * list nat)) :=
  map (fun '(k, v) => (k, map (fun '(kk, vv) => (kk, letters rs p vv)) v)) d.
Lemma convert_conv : forall rs p d, (forall r, In r rs -> In r (map fst p)) -> convert neqb rs p d = Ok (conv rs p d).
Proof.
  intros rs p d H. unfold convert, conv. apply mapM_all. intros [k v] _.
  rewrite (mapM_all _ _ _ (fun '(kk, vv) => (kk, letters rs p vv))); [auto|].
  intros [kk vv] _. unfold letters. rewrite (mapM_all _ _ _ (letter p)); [auto|].
  intros r R. apply filter_In in R. destruct R as [R _]. apply H in R.
  destruct (lookup_dom _ _ _ NE _ _ R) as [n E]. unfold letter. rewrite E. auto.
Qed.

Lemma set_eqb_iffn : forall a b, set_eqb Nat.eqb a b = true <-> forall x, In x a <-> In x b.
Proof. apply set_eqb_iff. intros; apply Nat.eqb_eq. Qed.

(** dict_eqb on dicts with distinct keys *)
Lemma dict_eqb_iff : forall V (veqb : V -> V -> bool) (a b : list (K * V)), NoDup (map fst a) -> NoDup (map fst b) ->
  (dict_eqb keqb veqb a b = true <-> (forall k, In k (map fst a) <-> In k (map fst b)) /\
     forall k v w, In (k, v) a -> In (k, w) b -> veqb v w = true).
Proof.
  intros V veqb a b DA DB. unfold dict_eqb. rewrite andb_true_iff, forallb_forall, Nat.eqb_eq. split.
  - intros [L F]. assert (I : incl (map fst a) (map fst b)).
    { intros k I. apply in_map_iff in I. destruct I as [[k' v] [<- I]]. apply F in I. simpl.
      destruct (lookup keqb k' b) eqn:X; [|discriminate]. apply (lookup_ok _ _ _ KE) in X. apply (in_map fst) in X; auto. }
    split.
    + intro k. split; [apply I|]. apply (NoDup_length_incl DA); [rewrite !map_length; lia|auto].
    + intros k v w H1 H2. apply F in H1. rewrite (lookup_in _ _ _ KE _ _ _ DB H2) in H1. auto.
  - intros [HK HV]. split.
    + rewrite <- (map_length fst a), <- (map_length fst b). apply Permutation_length. apply NoDup_Permutation; auto.
    + intros [k v] I. assert (J := in_map fst _ _ I). apply HK in J. destruct (lookup_dom _ _ _ KE _ _ J) as [w W].
      simpl in W. rewrite W. apply (HV k); auto. apply (lookup_ok _ _ _ KE) in W. auto.
Qed.

Lemma conv_keys : forall rs p d, map fst (conv rs p d) = map fst d.
Proof. intros. unfold conv. rewrite map_map. apply map_ext. intros [k v]; auto. Qed.
Lemma conv_in : forall rs p d k u, In (k, u) (conv rs p d) <-> exists v, In (k, v) d /\ u = map (fun '(kk, vv) => (kk, letters rs p vv)) v.
Proof.
  intros. unfold conv. rewrite in_map_iff. split.
  - intros [[k' v] [E I]]. injection E as -> <-. eauto.
  - intros [v [I ->]]. exists (k, v). auto.
Qed.
Lemma cat_keys : forall rs p (v : list (K * list N)), map fst (map (fun '(kk, vv) => (kk, letters rs p vv)) v) = map fst v.
Proof. intros. rewrite map_map. apply map_ext. intros [kk vv]; auto. Qed.
Lemma cat_in : forall rs p (v : list (K * list N)) kk u, In (kk, u) (map (fun '(kk, vv) => (kk, letters rs p vv)) v) <-> exists vv, In (kk, vv) v /\ u = letters rs p vv.
Proof.
  intros. rewrite in_map_iff. split.
  - intros [[k' vv] [E I]]. injection E as -> <-. eauto.
  - intros [vv [I ->]]. exists (kk, vv). auto.
Qed.

(** A bijection f of the rooms and the corresponding order x: f x_i = rs_i *)
Section Order.
Context (rs x : list N) (iv : list nat) (f : N -> N) (d base : list (K * list (K * list N))).
Hypothesis (ND : NoDup rs) (NI : NoDup iv) (LI : List.length iv = List.length rs).
Hypothesis (PX : Permutation rs x) (FX : map f x = rs).
Hypothesis (RD : forall r, In r rs <-> room_of d r) (PD : proper d) (PB : proper base).

Lemma combine_in_fst : forall (l : list N) (m : list nat), List.length l = List.length m -> map fst (combine l m) = l.
Proof. clear. induction l as [|a l IH]; destruct m; simpl; intro H; try discriminate; auto. f_equal; auto. Qed.

Lemma letter_cons : forall a b y n r, letter ((a, n) :: combine y b) r = if neqb a r then n else letter (combine y b) r.
Proof. intros. unfold letter. simpl. destruct (neqb a r); auto. Qed.

(** the letters of r by x and of f r by rs are the same *)
Lemma letter_map : forall (y : list N) b r, NoDup y -> NoDup (map f y) -> In r y -> letter (combine y b) r = letter (combine (map f y) b) (f r).
Proof.
  clear -NE. induction y as [|a y IH]; intros b r D1 D2 R; [easy|].
  destruct b as [|n b]; [reflexivity|]. simpl (combine (a :: y) (n :: b)). simpl (combine (map f (a :: y)) (n :: b)).
  rewrite !letter_cons. simpl in D2. inversion D1 as [|? ? N1 N2]; subst. inversion D2 as [|? ? N3 N4]; subst.
  destruct R as [<-|R].
  - rewrite (proj2 (NE a a) eq_refl), (proj2 (NE (f a) (f a)) eq_refl). auto.
  - destruct (neqb a r) eqn:E1; [apply NE in E1; subst; contradiction|].
    destruct (neqb (f a) (f r)) eqn:E2; [apply NE in E2; exfalso; apply N3; rewrite E2; apply in_map; auto|].
    apply IH; auto.
Qed.
Lemma letter_same : forall r, In r x -> letter (combine x iv) r = letter (combine rs iv) (f r).
Proof.
  intros r R. rewrite letter_map; auto; [rewrite FX; auto|eapply Permutation_NoDup; eauto|rewrite FX; auto].
Qed.
Lemma letter_inj_rs : forall r s, In r rs -> In s rs -> letter (combine rs iv) r = letter (combine rs iv) s -> r = s.
Proof.
  clear -NE ND NI LI. revert iv NI LI. induction rs as [|a y IH]; intros iv NI LI r s R S E; [easy|].
  destruct iv as [|n b]; [discriminate|]. simpl in E. rewrite !letter_cons in E. inversion ND; subst. inversion NI as [|? ? N3 N4]; subst.
  injection LI as LI.
  assert (Q : forall r, In r y -> In (letter (combine y b) r) b).
  { intros q Q. unfold letter. destruct (lookup_dom _ _ _ NE (combine y b) q) as [v V]; [rewrite combine_in_fst; auto|].
    rewrite V. apply (lookup_ok _ _ _ NE) in V. apply in_combine_r in V. auto. }
  destruct (neqb a r) eqn:E1, (neqb a s) eqn:E2.
  - apply NE in E1, E2. congruence.
  - destruct S as [->|S]; [rewrite (proj2 (NE s s) eq_refl) in E2; discriminate|]. exfalso; apply N3. rewrite E. apply Q; auto.
  - destruct R as [->|R]; [rewrite (proj2 (NE r r) eq_refl) in E1; discriminate|]. exfalso; apply N3. rewrite <- E. apply Q; auto.
  - destruct R as [->|R]; [rewrite (proj2 (NE r r) eq_refl) in E1; discriminate|].
    destruct S as [->|S]; [rewrite (proj2 (NE s s) eq_refl) in E2; discriminate|]. eapply IH; eauto.
Qed.

Lemma in_x : forall r, In r x <-> In r rs.
Proof. intro r; split; apply Permutation_in; auto. symmetry; auto. Qed.
Lemma f_rs : forall r, In r rs -> In (f r) rs.
Proof. intros r R. apply in_x in R. rewrite <- FX. apply in_map. auto. Qed.

Lemma letters_iff : forall vv ww, (forall r, In r vv -> In r rs) ->
  ((forall n, In n (letters rs (combine x iv) vv) <-> In n (letters rs (combine rs iv) ww)) <->
   (forall y, In y rs -> (In y ww <-> exists r, In r vv /\ f r = y))).
Proof.
  intros vv ww V.
  assert (L1 : forall n, In n (letters rs (combine x iv) vv) <-> exists r, In r vv /\ letter (combine rs iv) (f r) = n).
  { intro n. unfold letters. rewrite in_map_iff. split; intros [r [H1 H2]].
    - apply filter_In in H2. destruct H2 as [H2 H3]. apply (memb_In _ neqb NE) in H3. exists r. split; auto.
      rewrite <- letter_same; [auto|apply in_x; auto].
    - exists r. split; [rewrite letter_same; [auto|apply in_x; auto]|]. apply filter_In. split; [auto|]. apply (memb_In _ neqb NE); auto. }
  assert (L2 : forall n, In n (letters rs (combine rs iv) ww) <-> exists r, In r rs /\ In r ww /\ letter (combine rs iv) r = n).
  { intro n. unfold letters. rewrite in_map_iff. split.
    - intros [r [H1 H2]]. apply filter_In in H2. destruct H2 as [H2 H3]. apply (memb_In _ neqb NE) in H3. eauto.
    - intros [r [H1 [H2 H3]]]. exists r. split; auto. apply filter_In. split; auto. apply (memb_In _ neqb NE); auto. }
  split.
  - intros H y Y. split.
    + intro I. assert (J : In (letter (combine rs iv) y) (letters rs (combine rs iv) ww)) by (apply L2; eauto).
      apply H, L1 in J. destruct J as [r [J1 J2]]. exists r. split; auto. apply letter_inj_rs; auto. apply f_rs; auto.
    + intros [r [I1 I2]]. assert (J : In (letter (combine rs iv) y) (letters rs (combine x iv) vv)) by (apply L1; exists r; subst; auto).
      apply H, L2 in J. destruct J as [s [J1 [J2 J3]]]. apply letter_inj_rs in J3; auto. subst; auto.
  - intros H n. rewrite L1, L2. split.
    + intros [r [I1 I2]]. exists (f r). split; [apply f_rs; auto|]. split; auto. apply H; [apply f_rs; auto|eauto].
    + intros [s [I1 [I2 I3]]]. apply H in I2; auto. destruct I2 as [r [I2 <-]]. eauto.
Qed.

Lemma test_iff : rdict_eqb keqb (conv rs (combine x iv) d) (conv rs (combine rs iv) base) = true <-> matches f d base.
Proof.
  destruct PD as [PD1 PD2], PB as [PB1 PB2]. unfold rdict_eqb. rewrite dict_eqb_iff by (rewrite conv_keys; auto).
  rewrite !conv_keys. unfold matches. apply and_iff_compat_l. split.
  - intros H k v w V W. specialize (H k _ _ (proj2 (conv_in _ _ _ _ _) (ex_intro _ v (conj V eq_refl))) (proj2 (conv_in _ _ _ _ _) (ex_intro _ w (conj W eq_refl)))).
    rewrite dict_eqb_iff in H by (rewrite cat_keys; eauto). rewrite !cat_keys in H. destruct H as [H1 H2]. split; auto.
    intros kk vv ww VV WW y Y. apply RD in Y. revert y Y. apply letters_iff.
    + intros r R. apply RD. exists k, v, kk, vv. auto.
    + apply set_eqb_iffn. apply (H2 kk); apply cat_in; eauto.
  - intros H k u u' U U'. apply conv_in in U, U'. destruct U as [v [V ->]], U' as [w [W ->]].
    destruct (H k v w V W) as [H1 H2]. rewrite dict_eqb_iff by (rewrite cat_keys; eauto). rewrite !cat_keys. split; auto.
    intros kk a b IA IB. apply cat_in in IA, IB. destruct IA as [vv [VV ->]], IB as [ww [WW ->]].
    apply set_eqb_iffn. apply letters_iff.
    + intros r R. apply RD. exists k, v, kk, vv. auto.
    + intros y Y. apply RD in Y. eapply H2; eauto.
Qed.
End Order.

Lemma order_of : forall (rs : list N) (f : N -> N), NoDup rs -> (forall r, In r rs -> In (f r) rs) -> (forall r s : N, In r rs -> In s rs -> f r = f s -> r = s) ->
  exists x, Permutation rs x /\ map f x = rs.
Proof.
  intros rs f D I J.
  assert (DM : NoDup (map f rs)).
  { clear I. induction rs as [|a y IH]; simpl; [constructor|]. inversion D; subst. constructor.
    - intro H. apply in_map_iff in H. destruct H as [b [E B]]. apply J in E; simpl; auto. subst; auto.
    - apply IH; auto. intros; apply J; simpl; auto. }
  assert (P : Permutation rs (map f rs)).
  { symmetry. apply NoDup_Permutation_bis; auto; [rewrite map_length; auto|]. intros y Y. apply in_map_iff in Y. destruct Y as [r [<- R]]. auto. }
  apply Permutation_map_inv in P. destruct P as [x [E P]]. exists x. auto.
Qed.
Lemma renaming_of : forall (rs x : list N), NoDup rs -> Permutation rs x -> exists f, map f x = rs.
Proof.
  intros rs x D P. exists (fun r => match lookup neqb r (combine x rs) with Ok y => y | Err _ => r end).
  assert (DX : NoDup x) by (eapply Permutation_NoDup; eauto). assert (L := Permutation_length P).
  clear P D. revert rs L. induction x as [|a y IH]; intros rs L; destruct rs as [|b z]; try discriminate; auto. simpl.
  inversion DX; subst. rewrite (proj2 (NE a a) eq_refl). f_equal.
  eapply eq_trans; [|apply (IH H2 z); simpl in L; lia]. apply map_ext_in. intros r R. destruct (neqb a r) eqn:E; auto. apply NE in E. subst; contradiction.
Qed.
Lemma map_eq_on : forall X Y (f g : X -> Y) l, map f l = map g l -> forall r, In r l -> f r = g r.
Proof. induction l as [|a y IH]; simpl; intros E r R; [easy|]. injection E as E1 E2. destruct R as [<-|R]; auto. Qed.

Lemma count_one : forall X (t : X -> bool) l, NoDup l -> (List.length (filter t l) = 1 <-> exists x, In x l /\ t x = true /\ forall y, In y l -> t y = true -> y = x).
Proof.
  intros X t l D. split.
  - intro L. destruct (filter t l) as [|x [|y r]] eqn:F; try discriminate. exists x.
    assert (I : In x (filter t l)) by (rewrite F; simpl; auto). apply filter_In in I. destruct I. repeat split; auto.
    intros y Y T. assert (J : In y (filter t l)) by (apply filter_In; auto). rewrite F in J. destruct J as [J|[]]; auto.
  - intros [x [I [T U]]]. rewrite (filter_unique _ _ _ x); auto. intros y Y. split; [auto|]. intros ->; auto.
Qed.

Section Main.
Context (listed : list N -> list N) (d base : list (K * list (K * list N))).
Hypothesis (LP : forall l, Permutation (listed l) l) (PD : proper d) (PB : proper base).
Let raums := listed (dedup neqb (concat (map snd (concat (map snd d))))).
Lemma raums_in : forall r, In r raums <-> room_of d r.
Proof.
  intro r. unfold raums. assert (Q : In r (listed (dedup neqb (concat (map snd (concat (map snd d)))))) <-> In r (concat (map snd (concat (map snd d))))).
  { rewrite <- (dedup_In _ neqb NE (concat _)). split; apply Permutation_in; [|symmetry]; apply LP. }
  rewrite Q. rewrite in_concat. unfold room_of. split.
  - intros [vv [H1 H2]]. apply in_map_iff in H1. destruct H1 as [[kk vv'] [E H1]]. simpl in E. subst vv'.
    apply in_concat in H1. destruct H1 as [v [H1 H3]]. apply in_map_iff in H1. destruct H1 as [[k v'] [E H1]]. simpl in E. subst v'.
    exists k, v, kk, vv. auto.
  - intros (k & v & kk & vv & H1 & H2 & H3). exists vv. split; auto. apply in_map_iff. exists (kk, vv). split; auto.
    apply in_concat. exists v. split; auto. apply in_map_iff. exists (k, v). auto.
Qed.
Lemma raums_nodup : NoDup raums.
Proof. unfold raums. eapply Permutation_NoDup; [symmetry; apply LP|]. apply (dedup_NoDup _ neqb NE). Qed.
Lemma iv_len : forall n, n <= 26 -> List.length (List.seq 97 (Nat.min 123 (97 + n) - 97)) = n.
Proof. intros n H. rewrite seq_length. lia. Qed.

Lemma checker_eq : List.length raums <= 26 -> exists iv, NoDup iv /\ List.length iv = List.length raums /\
  raum_dict_checker keqb neqb listed d base =
  if Nat.eqb (List.length (filter (fun x => rdict_eqb keqb (conv raums (combine x iv) d) (conv raums (combine raums iv) base)) (perms (List.length raums) raums))) 1
  then Ok true else Err OtherException.
Proof.
  intro L. exists (List.seq 97 (Nat.min 123 (97 + List.length raums) - 97)). split; [apply seq_NoDup|]. split; [apply iv_len; auto|].
  unfold raum_dict_checker. fold raums. rewrite iv_len by auto.
  set (iv := List.seq 97 _). assert (IL : List.length iv = List.length raums) by (apply iv_len; auto).
  destruct (perms_first _ _ raums eq_refl) as [q Q].
  assert (F : get (map (fun x => combine x iv) (perms (List.length raums) raums)) 0 = Ok (combine raums iv)) by (rewrite Q; auto).
  rewrite F. simpl bind. clear F Q q.
  assert (C : forall x e, Permutation raums x -> convert neqb raums (combine x iv) e = Ok (conv raums (combine x iv) e)).
  { intros x e P. apply convert_conv. intros r R. rewrite combine_in_fst by (rewrite IL; symmetry; apply Permutation_length; auto).
    eapply Permutation_in; eauto. }
  rewrite C by auto. simpl bind.
  rewrite (mapM_all _ _ _ (fun p => rdict_eqb keqb (conv raums p d) (conv raums (combine raums iv) base))).
  - simpl bind. rewrite map_map.
    replace (List.length (filter (fun x : bool => x) (map (fun x => rdict_eqb keqb (conv raums (combine x iv) d) (conv raums (combine raums iv) base)) (perms (List.length raums) raums))))
      with (List.length (filter (fun x => rdict_eqb keqb (conv raums (combine x iv) d) (conv raums (combine raums iv) base)) (perms (List.length raums) raums))); auto.
    generalize (perms (List.length raums) raums). intro l. induction l as [|a y IH]; simpl; auto.
    destruct (rdict_eqb keqb (conv raums (combine a iv) d) (conv raums (combine raums iv) base)); simpl; auto.
  - intros p P. apply in_map_iff in P. destruct P as [x [<- P]]. apply perms_in in P; auto; [|apply raums_nodup].
    rewrite C by auto. auto.
Qed.

Lemma checker_main : List.length raums <= 26 ->
  (raum_dict_checker keqb neqb listed d base = Ok true <->
   exists f, renaming (room_of d) f /\ matches f d base /\
     forall g, renaming (room_of d) g -> matches g d base -> forall r, room_of d r -> g r = f r) /\
  (raum_dict_checker keqb neqb listed d base = Ok true \/ raum_dict_checker keqb neqb listed d base = Err OtherException).
Proof.
  intro L. destruct (checker_eq L) as (iv & NI & LI & ->).
  set (t := fun x => rdict_eqb keqb (conv raums (combine x iv) d) (conv raums (combine raums iv) base)).
  assert (TI : forall x f, Permutation raums x -> map f x = raums -> (t x = true <-> matches f d base)).
  { intros x f P E. apply test_iff; auto; [apply raums_nodup|apply raums_in]. }
  assert (RN : forall x f, Permutation raums x -> map f x = raums -> renaming (room_of d) f).
  { intros x f P E. split.
    - intros r R. apply raums_in. apply raums_in in R. rewrite <- E. apply in_map. eapply Permutation_in; eauto.
    - intros r s R S F. apply raums_in in R, S. assert (DM : NoDup (map f x)) by (rewrite E; apply raums_nodup).
      assert (R' : In r x) by (eapply Permutation_in; eauto). assert (S' : In s x) by (eapply Permutation_in; eauto).
      clear -DM R' S' F. induction x as [|a y IH]; [easy|]. simpl in DM. inversion DM; subst.
      destruct R' as [->|R'], S' as [->|S']; auto; exfalso; apply H1; [rewrite F|rewrite <- F]; apply in_map; auto. }
  assert (OF : forall f, renaming (room_of d) f -> exists x, Permutation raums x /\ map f x = raums).
  { intros f [R1 R2]. apply order_of; [apply raums_nodup|..].
    - intros r R. apply raums_in. apply R1. apply raums_in; auto.
    - intros r s R S. apply R2; apply raums_in; auto. }
  assert (CT := count_one _ t (perms (List.length raums) raums) (perms_nodup _ _ _ raums_nodup eq_refl)).
  assert (M : Nat.eqb (List.length (filter t (perms (List.length raums) raums))) 1 = true <->
    exists f, renaming (room_of d) f /\ matches f d base /\
     forall g, renaming (room_of d) g -> matches g d base -> forall r, room_of d r -> g r = f r).
  { rewrite Nat.eqb_eq, CT. split.
    - intros [x [I [T U]]]. apply perms_in in I; auto; [|apply raums_nodup].
      destruct (renaming_of raums x raums_nodup I) as [f F]. exists f. split; [eapply RN; eauto|]. split; [apply (TI x f); auto|].
      intros g G GM r R. destruct (OF g G) as [y [P E]]. assert (y = x).
      { apply U; [apply perms_in; auto; apply raums_nodup|]. apply (TI y g); auto. }
      subst y. apply (map_eq_on _ _ g f x); [congruence|]. eapply Permutation_in; [exact I|]. apply raums_in; auto.
    - intros [f [R [M U]]]. destruct (OF f R) as [x [P E]]. exists x. split; [apply perms_in; auto; apply raums_nodup|].
      split; [apply (TI x f); auto|]. intros y Y T. apply perms_in in Y; auto; [|apply raums_nodup].
      destruct (renaming_of raums y raums_nodup Y) as [g G].
      assert (GF : forall r, room_of d r -> g r = f r) by (apply U; [eapply RN; eauto|apply (TI y g); auto]).
      assert (E2 : map f y = map f x).
      { rewrite E. apply eq_trans with (map g y); [|auto]. apply map_ext_in. intros r I. symmetry. apply GF. apply raums_in. eapply Permutation_in; [symmetry; exact Y|auto]. }
      assert (INJ : forall r s, In r raums -> In s raums -> f r = f s -> r = s).
      { intros r s I J. destruct R as [_ R]. apply R; apply raums_in; auto. }
      assert (IY : forall r, In r y -> In r raums) by (intros r I; eapply Permutation_in; [symmetry; exact Y|auto]).
      assert (IX : forall r, In r x -> In r raums) by (intros r I; eapply Permutation_in; [symmetry; exact P|auto]).
      clear -E2 INJ IY IX. revert x IX E2. induction y as [|a y IH]; intros x IX E2; destruct x as [|b x]; try discriminate; auto.
      simpl in E2. injection E2 as E1 E2. f_equal; [apply INJ; auto; [apply IY|apply IX]; simpl; auto|].
      apply IH; auto; intros; [apply IY|apply IX]; simpl; auto. }
  rewrite <- M. destruct (Nat.eqb _ 1); split; auto; split; congruence.
Qed.

Lemma few : at_most 26 (room_of d) -> List.length raums <= 26.
Proof.
  intros [l [L I]]. eapply Nat.le_trans; [|exact L]. apply NoDup_incl_length; [apply raums_nodup|].
  intros r R. apply I. apply raums_in; auto.
Qed.
End Main.
End Checker.

(*@ C52_unique *)
(** C52: with at most 26 rooms, the result is True exactly if one and only one renaming of the rooms makes the
    dict agree with the reference, in whatever order Python lists a set; otherwise an exception is raised. *)
Lemma checker_unique : forall (K N : Type) (keqb : K -> K -> bool) (neqb : N -> N -> bool) listed (d base : list (K * list (K * list N))),
  decides_eq keqb -> decides_eq neqb -> (forall l, Permutation (listed l) l) -> proper d -> proper base ->
  at_most 26 (room_of d) ->
  (raum_dict_checker keqb neqb listed d base = Ok true <->
   exists f, renaming (room_of d) f /\ matches f d base /\
     forall g, renaming (room_of d) g -> matches g d base -> forall r, room_of d r -> g r = f r) /\
  (raum_dict_checker keqb neqb listed d base = Ok true \/ raum_dict_checker keqb neqb listed d base = Err OtherException).
Proof. intros. apply checker_main; auto. apply few; auto. Qed.

Lemma in_mapM_err : forall T1 T2 (f : T1 -> res T2) l x e, (forall y, In y l -> forall e', f y = Err e' -> e' = e) -> In x l -> f x = Err e -> mapM f l = Err e.
Proof.
  induction l as [|a r IH]; simpl; intros x e U I E; [easy|]. destruct (f a) as [b|e'] eqn:F; simpl.
  - destruct I as [->|I]; [congruence|]. rewrite (IH x e); auto. intros y Y. apply U; auto.
  - f_equal. apply (U a); auto.
Qed.
Lemma mapM_errs : forall X Y (f : X -> res Y) l e, mapM f l = Err e -> exists x, In x l /\ f x = Err e.
Proof.
  induction l as [|a r IH]; simpl; intros e H; [discriminate|]. destruct (f a) as [b|e'] eqn:F; simpl in H.
  - destruct (mapM f r) eqn:G; simpl in H; [discriminate|]. injection H as ->. destruct (IH e eq_refl) as [x [I E]]. eauto.
  - injection H as ->. eauto.
Qed.
Lemma convert_errs : forall K N (neqb : N -> N -> bool), decides_eq neqb -> forall rs p (d : list (K * list (K * list N))) e, convert neqb rs p d = Err e -> e = KeyError.
Proof.
  intros K N neqb NE rs p d e H. apply mapM_errs in H. destruct H as [[k v] [_ H]].
  match type of H with bind ?m _ = _ => destruct m eqn:M end; simpl in H; [discriminate|]. injection H as ->.
  apply mapM_errs in M. destruct M as [[kk vv] [_ M]].
  match type of M with bind ?m _ = _ => destruct m eqn:M' end; simpl in M; [discriminate|]. injection M as ->.
  apply mapM_errs in M'. destruct M' as [r [_ M']]. apply (lookup_err _ _ _ NE) in M'. tauto.
Qed.

(*@ C52_many *)
(** C52: with more than 26 rooms a KeyError is raised, whatever the dicts are. *)
Lemma checker_many : forall (K N : Type) (keqb : K -> K -> bool) (neqb : N -> N -> bool) listed (d base : list (K * list (K * list N))),
  decides_eq neqb -> (forall l, Permutation (listed l) l) -> ~ at_most 26 (room_of d) ->
  raum_dict_checker keqb neqb listed d base = Err KeyError.
Proof.
  intros K N keqb neqb listed d base NE LP NM. unfold raum_dict_checker.
  set (raums := listed (dedup neqb (concat (map snd (concat (map snd d)))))).
  assert (RI := fun r => raums_in neqb NE listed d LP r : In r raums <-> room_of d r).
  assert (L : 26 < List.length raums).
  { apply Nat.nle_gt. intro L. apply NM. exists raums. split; auto. intros r R. apply RI; auto. }
  rewrite seq_length. replace (Nat.min 123 (97 + List.length raums) - 97) with 26 by lia.
  set (iv := List.seq 97 26). destruct (perms_some _ 26 raums) as (x & r & Q & LX); [lia|]. rewrite Q. simpl.
  destruct (convert neqb raums (combine x iv) base) as [b|e] eqn:E1; simpl.
  2: { f_equal. eapply convert_errs; eauto. }
  destruct (convert neqb raums (combine x iv) d) as [a|e] eqn:E2; simpl.
  2: { f_equal. eapply convert_errs; eauto. }
  exfalso. assert (DR : NoDup raums) by (apply (raums_nodup neqb NE listed d LP)).
  assert (M : exists y, In y raums /\ ~ In y x).
  { destruct (List.existsb (fun y => negb (memb neqb y x)) raums) eqn:X.
    - apply existsb_exists in X. destruct X as [y [Y X]]. exists y. split; auto. intro I. apply (memb_In _ neqb NE) in I. rewrite I in X. discriminate.
    - exfalso. assert (incl raums x).
      { intros y Y. apply (memb_In _ neqb NE). destruct (memb neqb y x) eqn:Z; auto. exfalso.
        assert (C : existsb (fun y => negb (memb neqb y x)) raums = true) by (apply existsb_exists; exists y; rewrite Z; auto). congruence. }
      apply (NoDup_incl_length DR) in H. lia. }
  destruct M as [y [Y NY]]. apply RI in Y as Y'. destruct Y' as (k & v & kk & vv & H1 & H2 & H3).
  assert (Q1 : lookup neqb y (combine x iv) = Err KeyError).
  { apply (lookup_err _ _ _ NE). intro I. apply NY. apply in_map_iff in I. destruct I as [[u n] [<- I]]. eapply in_combine_l; eauto. }
  assert (Q2 : mapM (fun r => lookup neqb r (combine x iv)) (filter (fun x => memb neqb x vv) raums) = Err KeyError).
  { eapply in_mapM_err; [|apply filter_In; split; [exact Y|apply (memb_In _ neqb NE); auto]|auto].
    intros z _ e' Z. apply (lookup_err _ _ _ NE) in Z. tauto. }
  assert (Q3 : mapM (fun '(kk, vv) => s <- mapM (fun r => lookup neqb r (combine x iv)) (filter (fun x => memb neqb x vv) raums) ;; Ok (kk, s)) v = Err KeyError).
  { eapply in_mapM_err; [|exact H2|simpl; rewrite Q2; auto]. intros [k2 v2] _ e' Z.
    match type of Z with bind ?m _ = _ => destruct m eqn:M' end; simpl in Z; [discriminate|]. injection Z as ->.
    apply mapM_errs in M'. destruct M' as [z [_ M']]. apply (lookup_err _ _ _ NE) in M'. tauto. }
  assert (Q4 : convert neqb raums (combine x iv) d = Err KeyError).
  { unfold convert. eapply in_mapM_err; [|exact H1|simpl; rewrite Q3; auto]. intros [k2 v2] I e' Z.
    match type of Z with bind ?m _ = _ => destruct m eqn:M' end; simpl in Z; [discriminate|]. injection Z as ->.
    apply mapM_errs in M'. destruct M' as [[k3 v3] [_ M']].
    match type of M' with bind ?m _ = _ => destruct m eqn:M2 end; simpl in M'; [discriminate|]. injection M' as ->.
    apply mapM_errs in M2. destruct M2 as [z [_ M2]]. apply (lookup_err _ _ _ NE) in M2. tauto. }
  congruence.
Qed.

(*@ C52_foreign *)
(** C52: rooms of the reference that are not rooms of the dict have no effect. *)
Lemma checker_foreign : forall (K N : Type) (keqb : K -> K -> bool) (neqb : N -> N -> bool) listed (d base base' : list (K * list (K * list N))),
  decides_eq keqb -> decides_eq neqb -> (forall l, Permutation (listed l) l) -> proper d -> proper base -> proper base' ->
  at_most 26 (room_of d) ->
  (forall k, In k (map fst base) <-> In k (map fst base')) ->
  (forall k v w, In (k, v) base -> In (k, w) base' -> (forall kk, In kk (map fst v) <-> In kk (map fst w)) /\
     forall kk vv ww, In (kk, vv) v -> In (kk, ww) w -> forall x, room_of d x -> (In x vv <-> In x ww)) ->
  raum_dict_checker keqb neqb listed d base = raum_dict_checker keqb neqb listed d base'.
Proof.
  intros K N keqb neqb listed d base base' KE NE LP PD PB PB' AM HK HV.
  assert (M : forall f, matches f d base <-> matches f d base').
  { intro f. unfold matches. split; intros [M1 M2].
    - split; [intro k; rewrite M1; auto|]. intros k v w V W.
      assert (I : In k (map fst base)) by (apply HK; apply (in_map fst) in W; auto).
      apply in_map_iff in I. destruct I as [[k' w'] [E I]]. simpl in E. subst k'. destruct (M2 k v w' V I) as [A B]. destruct (HV k w' w I W) as [C D].
      split; [intro kk; rewrite A; auto|]. intros kk vv ww VV WW x X.
      assert (J : In kk (map fst w')) by (apply C; apply (in_map fst) in WW; auto).
      apply in_map_iff in J. destruct J as [[k' ww'] [E J]]. simpl in E. subst k'. rewrite <- (D kk ww' ww J WW x X). eauto.
    - split; [intro k; rewrite M1; symmetry; auto|]. intros k v w V W.
      assert (I : In k (map fst base')) by (apply HK; apply (in_map fst) in W; auto).
      apply in_map_iff in I. destruct I as [[k' w'] [E I]]. simpl in E. subst k'. destruct (M2 k v w' V I) as [A B]. destruct (HV k w w' W I) as [C D].
      split; [intro kk; rewrite A; symmetry; auto|]. intros kk vv ww VV WW x X.
      assert (J : In kk (map fst w')) by (apply C; apply (in_map fst) in WW; auto).
      apply in_map_iff in J. destruct J as [[k' ww'] [E J]]. simpl in E. subst k'. rewrite (D kk ww ww' WW J x X). eauto. }
  destruct (checker_unique K N keqb neqb listed d base KE NE LP PD PB AM) as [U1 V1].
  destruct (checker_unique K N keqb neqb listed d base' KE NE LP PD PB' AM) as [U2 V2].
  assert (X : raum_dict_checker keqb neqb listed d base = Ok true <-> raum_dict_checker keqb neqb listed d base' = Ok true).
  { rewrite U1, U2. split; intros [f [A [B C]]]; exists f; (split; [auto|]; split; [apply M; auto|]); intros g G GM; apply C; auto; apply M; auto. }
  destruct V1 as [V1|V1], V2 as [V2|V2]; try congruence; exfalso; [apply X in V1|apply X in V2]; congruence.
Qed.

(*@ C52_symmetric_refuted *)
(** C52, finding: a dict that equals the reference is rejected if the rooms can be exchanged. *)
Lemma checker_symmetric : let d := [("ma1", [("innenraum", ["R1"; "R2"])])]%string in
  raum_dict_checker String.eqb String.eqb (fun l => l) d d = Err OtherException.
Proof. reflexivity. Qed.

(*@ex C52_example *)
(** C52: a dict and a reference with the rooms exchanged and one room more *)
Example checker_example :
  let d := [("ma1", [("innenraum", ["R1"]); ("aussenraum", ["R2"])]); ("bo1", [("innenraum", []); ("aussenraum", ["R1"])])]%string in
  let base := [("bo1", [("aussenraum", ["R2"]); ("innenraum", ["R9"])]); ("ma1", [("innenraum", ["R2"]); ("aussenraum", ["R1"])])]%string in
  decides_eq String.eqb /\ (forall l : list string, Permutation (rev l) l) /\ proper d /\ proper base /\ at_most 26 (room_of d) /\
  raum_dict_checker String.eqb String.eqb (@rev string) d base = Ok true /\
  raum_dict_checker String.eqb String.eqb (@rev string) base d = Err OtherException.
Proof.
  intros d base. split; [intros x y; apply String.eqb_eq|]. split; [intro l; symmetry; apply Permutation_rev|].
  assert (ND : forall l : list string, List.length (dedup String.eqb l) = List.length l -> NoDup l).
  { intros l H. apply NoDup_incl_NoDup with (dedup String.eqb l); [apply (dedup_NoDup _ _ String.eqb_eq)|rewrite H; auto|]. intros x X. exact (proj1 (dedup_In _ _ String.eqb_eq l x) X). }
  split; [split; [apply ND; reflexivity|]; intros k v [H|[H|[]]]; injection H as <- <-; apply ND; reflexivity|].
  split; [split; [apply ND; reflexivity|]; intros k v [H|[H|[]]]; injection H as <- <-; apply ND; reflexivity|].
  split; [|split; reflexivity].
  exists ["R1"; "R2"]%string. split; [simpl; lia|]. intros r (k & v & kk & vv & H1 & H2 & H3). simpl in H1.
  repeat match goal with
  | H : _ \/ _ |- _ => destruct H
  | H : (_, _) = (_, _) |- _ => injection H as <- <-
  | H : False |- _ => destruct H
  | H : In _ (_ :: _) |- _ => simpl in H
  | H : In _ [] |- _ => destruct H
  end; subst; simpl; auto.
Qed.
