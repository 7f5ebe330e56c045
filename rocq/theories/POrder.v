(** order(): sorting the segments of a cycle. *)
From Coq Require Import Reals ZArith Lra Lia Bool List Psatz Permutation Arith FinFun.
From Verif Require Import Base Arith ArithR ArithF MPoint MLine MPoly Spec PPoint PLine PShape PConvex.
Import ListNotations.
#[local] Existing Instance RA.

(** * Search, update, rotation *)
Lemma find_from_none : forall X (f : X -> bool) l k, (forall j x, nth_error l j = Some x -> f x = false) -> find_from f k l = None.
Proof.
  induction l as [|x l IH]; intros k H; simpl; auto.
  rewrite (H 0%nat x eq_refl). apply IH. intros j y E. apply (H (S j) y E).
Qed.

Lemma find_from_unique : forall X (f : X -> bool) l j0 x0, nth_error l j0 = Some x0 -> f x0 = true ->
  (forall j x, nth_error l j = Some x -> f x = true -> j = j0) -> forall k, find_from f k l = Some (k + j0)%nat.
Proof.
  induction l as [|x l IH]; intros j0 x0 E F U k; [destruct j0; discriminate|]. simpl.
  destruct j0 as [|j0].
  - simpl in E. injection E as ->. rewrite F. f_equal. lia.
  - destruct (f x) eqn:FX; [discriminate (U 0%nat x eq_refl FX)|].
    rewrite (IH j0 x0 E F); [f_equal; lia|]. intros j y Ey Fy.
    specialize (U (S j) y Ey Fy). lia.
Qed.

Lemma upd_length : forall X (f : X -> X) l k, length (upd k f l) = length l.
Proof. induction l as [|x l IH]; intros [|k]; simpl; auto. Qed.
Lemma upd_nth : forall X (f : X -> X) l k j, nth_error (upd k f l) j =
  if Nat.eqb j k then option_map f (nth_error l j) else nth_error l j.
Proof.
  induction l as [|x l IH]; intros [|k] [|j]; simpl; auto.
  - destruct (Nat.eqb j k); reflexivity.
Qed.

Lemma rotate_right_snoc : forall X (l : list X) x, rotate_right (l ++ [x]) = x :: l.
Proof. intros. unfold rotate_right. rewrite rev_app_distr. simpl. rewrite rev_involutive. reflexivity. Qed.

Lemma rotate_to_spec : forall (f : seg RA) (b c : list (seg RA)) (x : seg RA) fuel,
  seg_eqb f f = true -> seg_eqb x f = false -> (forall y, In y b -> seg_eqb y f = false) ->
  (length b < fuel)%nat -> rotate_to fuel f (x :: c ++ f :: b) = f :: b ++ x :: c.
Proof.
  intros f b. induction b as [|y b IH] using rev_ind; intros c x fuel FF XF BF L.
  - destruct fuel as [|fuel]; [simpl in L; lia|]. simpl. rewrite XF.
    change (x :: c ++ [f]) with ((x :: c) ++ [f]). rewrite rotate_right_snoc.
    destruct fuel; simpl; rewrite ?FF; reflexivity.
  - rewrite app_length in L. simpl in L. destruct fuel as [|fuel]; [lia|]. simpl. rewrite XF.
    replace (x :: c ++ f :: b ++ [y]) with ((x :: c ++ f :: b) ++ [y]) by (rewrite <- app_comm_cons, <- app_assoc; reflexivity).
    rewrite rotate_right_snoc.
    change (y :: x :: c ++ f :: b) with (y :: (x :: c) ++ f :: b). rewrite IH; auto; try lia.
    + simpl. rewrite <- app_assoc. reflexivity.
    + apply BF. apply in_or_app; simpl; auto.
    + intros z I. apply BF. apply in_or_app; auto.
Qed.

(** The head of a sorted list is minimal. *)
Lemma sort_by_head : forall X (lt : X -> X -> bool),
  (forall x y z, lt x z = true -> lt x y = true \/ lt y z = true) -> (forall x y, lt x y = true -> lt y x = false) ->
  forall l h t, sort_by lt l = h :: t -> forall x, In x l -> lt x h = false.
Proof.
  intros X lt NT AS. induction l as [|y l IH]; intros h t E x I; [destruct I|].
  simpl in E. destruct (sort_by lt l) as [|h' t'] eqn:S.
  - simpl in E. injection E as <- <-.
    assert (l = []) as -> by (apply Permutation_nil; rewrite <- S; apply sort_by_perm).
    destruct I as [<-|[]]. destruct (lt y y) eqn:L; auto. rewrite (AS y y L) in L. discriminate.
  - simpl in E. destruct (lt h' y) eqn:L; injection E as <- <-.
    + destruct I as [<-|I]; [apply AS; auto|]. eapply IH; eauto.
    + destruct I as [<-|I].
      * destruct (lt y y) eqn:L2; auto. rewrite (AS y y L2) in L2. discriminate.
      * destruct (lt x y) eqn:L2; auto. destruct (NT x h' y L2) as [K|K]; [|congruence].
        rewrite (IH h' t' eq_refl x I) in K. discriminate.
Qed.

Definition okey (s : seg RA) := (pt_distance (Point_new n0 n0) (si s), px (si s), py (si s), norm s).
Lemma order_key_iff : forall a b : seg RA, order_key_ltb a b = true <->
  (pt_distance (Point_new n0 n0) (si a) < pt_distance (Point_new n0 n0) (si b) \/
   (pt_distance (Point_new n0 n0) (si a) = pt_distance (Point_new n0 n0) (si b) /\
    (px (si a) < px (si b) \/ (px (si a) = px (si b) /\
     (py (si a) < py (si b) \/ (py (si a) = py (si b) /\ norm a < norm b))))))%R.
Proof.
  intros a b. unfold order_key_ltb. ra_simpl.
  repeat match goal with
  | |- context [if Reqb ?x ?y then _ else _] => 
      let E := fresh in destruct (Reqb x y) eqn:E; [apply Reqb_true in E|apply Reqb_false in E]
  end; rewrite Rltb_true; simpl in *; ra_simpl;
  (split; intros; [|repeat match goal with H : _ \/ _ |- _ => destruct H | H : _ /\ _ |- _ => destruct H end; lra]).
  all: tauto.
Qed.

Lemma order_key_nt : forall x y z : seg RA, order_key_ltb x z = true -> order_key_ltb x y = true \/ order_key_ltb y z = true.
Proof.
  intros x y z. rewrite !order_key_iff.
  set (a := pt_distance _ (si x)). set (b := pt_distance _ (si y)). set (c := pt_distance _ (si z)). 
  set (a1 := px (si x)). set (b1 := px (si y)). set (c1 := px (si z)).
  set (a2 := py (si x)). set (b2 := py (si y)). set (c2 := py (si z)).
  set (a3 := norm x). set (b3 := norm y). set (c3 := norm z). simpl in *.
  clearbody a b c a1 b1 c1 a2 b2 c2 a3 b3 c3. simpl in *.
  destruct (Rtotal_order a b) as [|[|]]; destruct (Rtotal_order a1 b1) as [|[|]]; 
  destruct (Rtotal_order a2 b2) as [|[|]]; destruct (Rtotal_order a3 b3) as [|[|]]; lra.
Qed.

Lemma order_key_as : forall x y : seg RA, order_key_ltb x y = true -> order_key_ltb y x = false.
Proof.
  intros x y H. apply not_true_iff_false. rewrite order_key_iff in *.
  set (a := pt_distance _ (si x)) in *. set (b := pt_distance _ (si y)) in *. lra.
Qed.

Lemma mod_congN : forall n, (3 <= n)%nat -> forall a b c, (a mod n = b mod n)%nat -> ((a + c) mod n = (b + c) mod n)%nat.
Proof. intros n n3 a b c H. rewrite (Nat.add_mod a), (Nat.add_mod b) by lia. rewrite H. reflexivity. Qed.
Lemma mod_cancelN : forall n, (3 <= n)%nat -> forall a b c, ((a + c) mod n = (b + c) mod n)%nat -> (a mod n = b mod n)%nat.
Proof.
  intros n n3 a b c H. apply (mod_congN n n3 _ _ ((n - 1) * c)) in H.
  replace (a + c + (n - 1) * c)%nat with (a + c * n)%nat in H by nia.
  replace (b + c + (n - 1) * c)%nat with (b + c * n)%nat in H by nia.
  rewrite !Nat.mod_add in H by lia. exact H.
Qed.

(** * The loop on a cycle *)
Section Cyc.
Variables (n : nat) (wv : nat -> pt RA) (pos : nat -> nat) (l : list (seg RA)) (s0 : seg RA).
Hypothesis n3 : (3 <= n)%nat.
Hypothesis len : length l = n.
Hypothesis wvper : forall k, wv (k + n) = wv k.
Hypothesis posper : forall k, pos (k + n) = pos k.
Hypothesis sep : forall i j, pt_eqb (wv i) (wv j) = true <-> (i mod n = j mod n)%nat.
Hypothesis posb : forall k, (pos k < n)%nat.
Hypothesis posinj : forall i j, pos i = pos j -> (i mod n = j mod n)%nat.
Hypothesis possurj : forall x, (x < n)%nat -> exists k, (k < n)%nat /\ pos k = x.
Hypothesis edge : forall k, joins (wv k, wv (S k)) (nth (pos k) l s0).
Hypothesis pos0 : pos 0%nat = 0%nat.
Hypothesis dir0 : si (nth 0 l s0) = wv 0 /\ sj (nth 0 l s0) = wv 1.

Definition fw (k : nat) : seg RA := mkseg (sc (nth (pos k) l s0)) (wv k) (wv (S k)).

Lemma per_mod : forall X (f : nat -> X), (forall k, f (k + n)%nat = f k) -> forall k, f (k mod n)%nat = f k.
Proof.
  intros X f P k. rewrite (Nat.div_mod k n) at 2 by lia.
  generalize (k / n)%nat as q. intros q. induction q as [|q IH].
  - replace (n * 0 + k mod n)%nat with (k mod n)%nat by lia. reflexivity.
  - replace (n * S q + k mod n)%nat with ((n * q + k mod n) + n)%nat by lia. rewrite P. exact IH.
Qed.
Lemma fw_per : forall k, fw (k + n) = fw k.
Proof. intros k. unfold fw. rewrite posper, wvper. change (S (k + n)) with (S k + n)%nat. rewrite wvper. reflexivity. Qed.

Lemma mod_small' : forall k, (k < n)%nat -> (k mod n = k)%nat. Proof. intros. apply Nat.mod_small; auto. Qed.
Lemma mod_cong : forall a b c, (a mod n = b mod n)%nat -> ((a + c) mod n = (b + c) mod n)%nat.
Proof. exact (mod_congN n n3). Qed.
Lemma mod_cancel : forall a b c, ((a + c) mod n = (b + c) mod n)%nat -> (a mod n = b mod n)%nat.
Proof. exact (mod_cancelN n n3). Qed.
Lemma mod_ne : forall a c, (0 < c < n)%nat -> ((a + c) mod n <> a mod n)%nat.
Proof.
  intros a c L H. replace (a + c)%nat with (c + a)%nat in H by lia. change a with (0 + a)%nat in H at 2.
  apply mod_cancel in H. rewrite Nat.mod_0_l, Nat.mod_small in H by lia. lia.
Qed.

Lemma sepf : forall i j, (i mod n <> j mod n)%nat -> pt_eqb (wv i) (wv j) = false.
Proof. intros i j H. apply not_true_iff_false. rewrite sep. exact H. Qed.
Lemma sept : forall i j, (i mod n = j mod n)%nat -> pt_eqb (wv i) (wv j) = true.
Proof. intros i j H. apply sep; auto. Qed.

Definition bw (k : nat) : seg RA := seg_reverse (fw k).

Lemma eqb_fw_fw : forall i j, (i mod n <> j mod n)%nat -> seg_eqb (fw i) (fw j) = false.
Proof.
  intros i j H. unfold seg_eqb. simpl. rewrite (sepf i j H). rewrite ?andb_false_r. reflexivity.
Qed.
Lemma eqb_fw_bw : forall i j, seg_eqb (fw i) (bw j) = false.
Proof.
  intros i j. unfold seg_eqb. simpl.
  destruct (pt_eqb (wv i) (wv (S j))) eqn:E1; [|rewrite ?andb_false_r; reflexivity].
  destruct (pt_eqb (wv (S i)) (wv j)) eqn:E2; [|rewrite ?andb_false_r; reflexivity].
  exfalso. apply sep in E1, E2.
  assert ((S i mod n) = (S (S j)) mod n)%nat as E by (rewrite <- (Nat.add_1_r i), <- (Nat.add_1_r (S j)); apply mod_cong; auto).
  rewrite E2 in E. apply (mod_ne j 2); [lia|]. rewrite E. f_equal. lia.
Qed.
Lemma eqb_bw_fw : forall i j, seg_eqb (bw i) (fw j) = false.
Proof.
  intros i j. unfold seg_eqb. simpl.
  destruct (pt_eqb (wv (S i)) (wv j)) eqn:E1; [|rewrite ?andb_false_r; reflexivity].
  destruct (pt_eqb (wv i) (wv (S j))) eqn:E2; [|rewrite ?andb_false_r; reflexivity].
  exfalso. apply sep in E1, E2.
  assert ((S (S i) mod n) = (S j) mod n)%nat as E by (rewrite <- (Nat.add_1_r j), <- (Nat.add_1_r (S i)); apply mod_cong; auto).
  rewrite <- E2 in E. apply (mod_ne i 2); [lia|]. rewrite <- E. f_equal. lia.
Qed.
Lemma eqb_fw_refl : forall i j, (i mod n = j mod n)%nat -> seg_eqb (fw i) (fw j) = true.
Proof.
  intros i j H. rewrite <- (per_mod _ _ fw_per i), <- (per_mod _ _ fw_per j), H.
  unfold seg_eqb, fw. cbn [si sj sc]. rewrite !sept by reflexivity. destruct (sc (nth _ l s0)); reflexivity.
Qed.
Lemma fw_ne_bw : forall k, fw k <> bw k.
Proof.
  intros k H. apply (f_equal (fun s => pt_eqb (si s) (si (fw k)))) in H. simpl in H.
  rewrite sept in H by reflexivity. symmetry in H. apply sep in H. apply (mod_ne k 1); [lia|].
  rewrite Nat.add_1_r. exact H.
Qed.

Definition rets (m : nat) : list nat := map pos (seq 1 (Nat.min m n)).

Definition Inv (m : nat) (o : ostate) : Prop :=
  length (o_segs o) = n /\
  (forall k, (k < n)%nat -> exists s, nth_error (o_segs o) (pos k) = Some s /\ (s = fw k \/ (s = bw k /\ (m < k)%nat))) /\
  o_akt o = pos m /\ o_end o = wv (S m) /\ o_ret o = rets m.

Lemma inv0 : Inv 0 (mko l 0 (sj (nth 0 l s0)) []).
Proof.
  split; [exact len|]. split; [|simpl; rewrite pos0; split; [reflexivity|split; [apply dir0|reflexivity]]].
  intros k L. exists (nth (pos k) l s0). split; [simpl; apply nth_error_nth'; rewrite len; apply posb|].
  destruct k as [|k].
  - left. unfold fw. rewrite pos0. destruct dir0 as [<- <-]. destruct (nth 0 l s0); reflexivity.
  - destruct (edge (S k)) as [[E1 E2]|[E1 E2]]; simpl in E1, E2.
    + left. unfold fw. rewrite <- E1, <- E2. destruct (nth (pos (S k)) l s0); reflexivity.
    + right. split; [|lia]. unfold bw, seg_reverse, fw. simpl. rewrite <- E1, <- E2. destruct (nth (pos (S k)) l s0); reflexivity.
Qed.

Lemma inv_nth : forall m o j s, Inv m o -> nth_error (o_segs o) j = Some s -> exists k, (k < n)%nat /\ pos k = j /\ (s = fw k \/ (s = bw k /\ (m < k)%nat)).
Proof.
  intros m o j s (L & S & _) E.
  assert (J : (j < n)%nat) by (rewrite <- L; apply nth_error_Some; congruence).
  destruct (possurj j J) as (k & K & P). exists k. split; auto. split; auto.
  destruct (S k K) as (s' & E' & D). rewrite P, E in E'. injection E' as ->. exact D.
Qed.

Lemma mod_lt' : forall k, (k mod n < n)%nat. Proof. intros. apply Nat.mod_upper_bound. lia. Qed.
Lemma mod_le' : forall k, (k mod n <= k)%nat. Proof. intros. apply Nat.mod_le. lia. Qed.

Lemma inv_fw : forall m o k, Inv m o -> (k mod n <= m)%nat -> nth_error (o_segs o) (pos k) = Some (fw k).
Proof.
  intros m o k (L & S & _) K. destruct (S (k mod n) (mod_lt' k)) as (s & E & [D|[_ D]]); [|lia].
  rewrite (per_mod _ _ posper) in E. rewrite E, D, (per_mod _ _ fw_per). reflexivity.
Qed.

Lemma rets_S : forall m, (m < n)%nat -> rets (S m) = rets m ++ [pos (S m)].
Proof.
  intros m L. unfold rets. rewrite (Nat.min_l (S m)), (Nat.min_l m) by lia. rewrite seq_S, map_app. reflexivity.
Qed.
Lemma rets_big : forall m, (n <= m)%nat -> rets (S m) = rets m.
Proof. intros m L. unfold rets. rewrite !Nat.min_r by lia. reflexivity. Qed.
Lemma rets_In : forall m j, In j (rets m) <-> exists k, (1 <= k <= n)%nat /\ (k <= m)%nat /\ pos k = j.
Proof.
  intros m j. induction m as [|m IH].
  - simpl. split; [intros []|]. intros (k & ? & ? & ?). lia.
  - destruct (le_lt_dec n m) as [G|G].
    + rewrite rets_big by auto. rewrite IH. split; intros (k & ? & ? & ?); exists k; repeat split; try lia; auto.
    + rewrite rets_S by auto. rewrite in_app_iff, IH. simpl. split.
      * intros [(k & ? & ? & ?)|[E|[]]]; [exists k|exists (S m)]; repeat split; try lia; auto.
      * intros (k & ? & ? & E). destruct (Nat.eq_dec k (S m)) as [->|]; [auto|left; exists k; repeat split; try lia; auto].
Qed.

Lemma inv_step : forall m o, Inv m o -> exists o', order_step o = inl o' /\ Inv (S m) o'.
Proof.
  intros m o I. pose proof I as (L & SS & AK & EN & RE).
  unfold order_step.
  assert (AKT : nth_error (o_segs o) (o_akt o) = Some (fw m)) by (rewrite AK; apply (inv_fw m o m I), mod_le').
  rewrite AKT. cbv zeta.
  set (k' := (S m mod n)%nat).
  assert (K' : (k' < n)%nat) by apply mod_lt'.
  assert (KM : (k' mod n = S m mod n)%nat) by (unfold k'; apply Nat.mod_mod; lia).
  assert (PK : pos k' = pos (S m)) by apply (per_mod _ _ posper).
  assert (FK : fw k' = fw (S m)) by apply (per_mod _ _ fw_per).
  destruct (SS k' K') as (s & Es & Ds).
  set (f1 := fun x : seg RA => pt_eqb (si x) (o_end o) && negb (seg_eqb x (fw m))).
  set (f2 := fun x : seg RA => pt_eqb (sj x) (o_end o) && negb (seg_eqb x (fw m))).
  assert (F1 : forall j x, nth_error (o_segs o) j = Some x -> f1 x = true -> j = pos k' /\ x = fw k').
  { intros j x E F. destruct (inv_nth m o j x I E) as (k & Kn & P & [D|[D G]]); subst x; unfold f1 in F; rewrite EN in F; simpl in F;
      apply andb_true_iff in F; destruct F as [F _]; apply sep in F.
    - rewrite <- KM, !mod_small' in F by auto. subst k. auto.
    - exfalso. rewrite <- (Nat.add_1_r k), <- (Nat.add_1_r m) in F. apply mod_cancel in F.
      rewrite (mod_small' k Kn) in F. pose proof (mod_le' m). lia. }
  destruct Ds as [Ds|[Ds G]].
  - (* already in the right direction *)
    assert (F1s : f1 s = true).
    { unfold f1. rewrite EN, Ds. simpl. rewrite sept by auto. rewrite FK, eqb_fw_fw; [reflexivity|].
      rewrite <- (Nat.add_1_r m). apply mod_ne. lia. }
    rewrite (find_from_unique _ f1 _ (pos k') s Es F1s) by (intros j x E F; apply (F1 j x E F)).
    rewrite Nat.add_0_l, Es. rewrite andb_false_r.
    set (inret := existsb _ (o_ret o)).
    rewrite Es. eexists. split; [reflexivity|].
    assert (IR : inret = true <-> (n <= m)%nat).
    { unfold inret. rewrite existsb_exists, RE. split.
      - intros (r & Ir & Er). apply rets_In in Ir. destruct Ir as (k & Rk & Lk & Pk).
        destruct (le_lt_dec n m) as [?|Lm]; auto. exfalso.
        assert (NE : (k mod n <> S m mod n)%nat); [|
          apply orb_true_iff in Er; destruct Er as [Er|Er];
          [apply Nat.eqb_eq in Er; rewrite <- Pk, PK in Er; apply posinj in Er; auto|
           rewrite <- Pk, (inv_fw m o k I) in Er by (pose proof (mod_le' k); lia);
           rewrite Ds, FK, eqb_fw_fw in Er; [discriminate|exact NE]]]. intros E.
        destruct (Nat.eq_dec k n) as [->|Nk]; [lia|]. rewrite (mod_small' k) in E by lia.
        destruct (Nat.eq_dec (S m) n) as [En|Nn]; [rewrite En, Nat.mod_same in E by lia; lia|].
        rewrite mod_small' in E by lia. lia.
      - intros G. exists (pos k'). split.
        + apply rets_In. destruct (Nat.eq_dec k' 0) as [E0|N0].
          * exists n. repeat split; try lia. rewrite E0. rewrite <- (posper 0). reflexivity.
          * exists k'. repeat split; lia.
        + rewrite Nat.eqb_refl. reflexivity. }
    repeat split; simpl.
    + exact L.
    + intros k Kn. destruct (SS k Kn) as (s' & E' & D'). exists s'. split; auto.
      destruct D' as [D'|[D' G]]; auto. destruct (Nat.eq_dec k (S m)) as [->|]; [|right; split; auto; lia].
      left. unfold k' in Es. rewrite mod_small' in Es by auto. unfold k' in Ds. rewrite mod_small' in Ds by auto. congruence.
    + exact PK.
    + rewrite Ds, FK. reflexivity.
    + rewrite RE. destruct inret.
      * rewrite rets_big; auto. apply IR; auto.
      * rewrite rets_S by (destruct (le_lt_dec n m) as [G|]; auto; apply IR in G; discriminate). rewrite PK. reflexivity.
  - (* reversed *)
    assert (Sm : (S m < n)%nat) by (unfold k' in *; destruct (le_lt_dec n (S m)); [|lia]; lia).
    assert (k' = S m) as Ek by (unfold k'; apply mod_small'; auto).
    rewrite (find_from_none _ f1).
    2:{ intros j x E. destruct (f1 x) eqn:F; auto. exfalso. destruct (F1 j x E F) as [-> ->]. rewrite Es, Ds in E.
        apply (fw_ne_bw k'). congruence. }
    assert (F2s : f2 s = true).
    { unfold f2. rewrite EN, Ds. simpl. rewrite sept by auto. rewrite eqb_bw_fw. reflexivity. }
    assert (F2 : forall j x, nth_error (o_segs o) j = Some x -> f2 x = true -> j = pos k').
    { intros j x E F. destruct (inv_nth m o j x I E) as (k & Kn & P & D). unfold f2 in F. rewrite EN in F.
      apply andb_true_iff in F. destruct F as [F F']. destruct D as [D|[D Gk]]; subst x; simpl in F; apply sep in F.
      - exfalso. rewrite <- (Nat.add_1_r k), <- (Nat.add_1_r m) in F. apply mod_cancel in F.
        rewrite eqb_fw_refl in F' by auto. discriminate.
      - rewrite !mod_small' in F by auto. subst. congruence. }
    rewrite (find_from_unique _ f2 _ (pos k') s Es F2s) by (intros; eapply F2; eauto).
    rewrite Nat.add_0_l, Es.
    set (inret := existsb _ (o_ret o)).
    assert (IR : inret = false).
    { apply not_true_iff_false. unfold inret. rewrite existsb_exists, RE. intros (r & Ir & Er).
      apply rets_In in Ir. destruct Ir as (k & Rk & Lk & Pk).
      apply orb_true_iff in Er. destruct Er as [Er|Er].
      - apply Nat.eqb_eq in Er. rewrite <- Pk in Er. apply posinj in Er. rewrite (mod_small' k), (mod_small' k') in Er by lia. lia.
      - rewrite <- Pk, (inv_fw m o k I) in Er by (pose proof (mod_le' k); lia).
        rewrite Ds, eqb_fw_bw in Er. discriminate. }
    rewrite IR. simpl (negb false && true). cbv iota.
    assert (NX : nth_error (upd (pos k') seg_reverse (o_segs o)) (pos k') = Some (fw k')).
    { rewrite upd_nth, Nat.eqb_refl, Es, Ds. reflexivity. }
    rewrite NX. eexists. split; [reflexivity|]. repeat split; simpl.
    + rewrite upd_length. exact L.
    + intros k Kn. rewrite upd_nth. destruct (Nat.eqb_spec (pos k) (pos k')) as [E|E].
      * exists (fw k). apply posinj in E. rewrite !mod_small' in E by auto. subst k.
        rewrite Es, Ds. split; auto.
      * destruct (SS k Kn) as (s' & E' & D'). exists s'. split; auto. destruct D' as [D'|[D' G']]; auto.
        right. split; auto. destruct (Nat.eq_dec k (S m)) as [->|]; [|lia]. rewrite Ek in E. congruence.
    + exact PK.
    + rewrite Ek. reflexivity.
    + rewrite RE. rewrite rets_S by lia. rewrite Ek. reflexivity.
Qed.

Lemma loop_ok : forall j c m o, Inv m o -> (j + c <= 500)%nat ->
  exists o', order_loop j c o = Ok (inl o') /\ Inv (m + j) o'.
Proof.
  induction j as [|j IH]; intros c m o I C.
  - exists o. rewrite Nat.add_0_r. auto.
  - destruct (inv_step m o I) as (o1 & E1 & I1). cbn [order_loop]. rewrite E1.
    destruct (Nat.ltb_spec 500 (S c)) as [G|G]; [lia|].
    destruct (IH (S c) (S m) o1 I1 ltac:(lia)) as (o2 & E2 & I2). exists o2. split; auto.
    replace (m + S j)%nat with (S m + j)%nat by lia. exact I2.
Qed.
Lemma loop_err : forall j c m o, Inv m o -> (500 < j + c)%nat -> (c <= 500)%nat ->
  order_loop j c o = Err OtherException.
Proof.
  induction j as [|j IH]; intros c m o I C Cb; [lia|].
  destruct (inv_step m o I) as (o1 & E1 & I1). cbn [order_loop]. rewrite E1.
  destruct (Nat.ltb_spec 500 (S c)) as [G|G]; [reflexivity|].
  apply (IH (S c) (S m) o1 I1); lia.
Qed.

Lemma ret_segs : forall m o, (n <= m)%nat -> Inv m o ->
  flat_map (fun k => match nth_error (o_segs o) k with Some s => [s] | None => [] end) (o_ret o) = map fw (seq 1 n).
Proof.
  intros m o G I. pose proof I as (_ & _ & _ & _ & RE). rewrite RE. unfold rets.
  rewrite Nat.min_r by lia.
  assert (forall ks, flat_map (fun k => match nth_error (o_segs o) k with Some s => [s] | None => [] end) (map pos ks) = map fw ks) as H; [|apply H].
  induction ks as [|k ks IH]; [reflexivity|]. simpl. rewrite (inv_fw m o k I) by (pose proof (mod_lt' k); lia).
  rewrite IH. reflexivity.
Qed.

Lemma rotate_fw : forall t, (t < n)%nat -> map fw (seq (S t) n) = map fw (seq (S t) (n - t)) ++ map fw (seq 1 t).
Proof.
  intros t L. replace n with ((n - t) + t)%nat at 1 by lia. rewrite seq_app, map_app. f_equal.
  replace (S t + (n - t))%nat with (1 + n)%nat by lia.
  assert (forall a b, map fw (seq (a + n) b) = map fw (seq a b)) as H; [|apply H].
  intros a b. revert a. induction b as [|b IH]; intros a; [reflexivity|]. simpl. rewrite fw_per.
  f_equal. apply (IH (S a)).
Qed.

Lemma order_cycle : (n < 250)%nat -> exists t, (t < n)%nat /\ order l = Ok (true, map fw (seq (S t) n)) /\
  forall k, order_key_ltb (fw k) (fw (S t)) = false.
Proof.
  intros NB. assert (exists akt l', l = akt :: l') as (akt & l' & EL) by (destruct l as [|akt l']; [simpl in len; lia|eauto]).
  assert (EO : order l = (r <- order_loop (2 * length l + 1) 0 (mko l 0 (sj akt) []) ;;
    match r with
    | inr segs => Ok (false, segs)
    | inl o =>
      let ret := flat_map (fun k => match nth_error (o_segs o) k with Some s => [s] | None => [] end) (o_ret o) in
      match sort_by order_key_ltb ret with
      | [] => Err IndexError
      | first :: _ => Ok (true, rotate_to (length ret) first ret)
      end
    end)) by (rewrite EL; reflexivity).
  rewrite EO. clear EO. cbv zeta.
  destruct (loop_ok (2 * length l + 1) 0 0 _ inv0 ltac:(lia)) as (o & E & I).
  replace (sj akt) with (sj (nth 0 l s0)) by (rewrite EL; reflexivity). rewrite E. cbn [bind].
  rewrite (ret_segs (0 + (2 * length l + 1)) o ltac:(lia) I).
  pose proof (sort_by_perm _ order_key_ltb (map fw (seq 1 n))) as P.
  destruct (sort_by order_key_ltb (map fw (seq 1 n))) as [|f r] eqn:ES.
  { apply Permutation_length in P. rewrite map_length, seq_length in P. simpl in P. lia. }
  assert (IF : In f (map fw (seq 1 n))) by (eapply Permutation_in; [exact P|left; reflexivity]).
  apply in_map_iff in IF. destruct IF as (k & Ef & IK). apply in_seq in IK.
  exists (k - 1)%nat. split; [lia|]. replace (S (k - 1)) with k by lia. split.
  - do 2 f_equal. rewrite map_length, seq_length.
    assert (Nk : forall j, (1 <= j <= n)%nat -> j <> k -> seg_eqb (fw j) f = false).
    { intros j J Nj. rewrite <- Ef. apply eqb_fw_fw. intros M.
      destruct (Nat.eq_dec j n) as [->|]; destruct (Nat.eq_dec k n) as [->|]; try lia;
      rewrite ?Nat.mod_same in M by lia; rewrite ?mod_small' in M by lia; lia. }
    assert (FF : seg_eqb f f = true) by (rewrite <- Ef; apply eqb_fw_refl; reflexivity).
    destruct (Nat.eq_dec k 1) as [->|K1].
    + destruct n as [|n']; [lia|]. simpl. rewrite Ef, FF. reflexivity.
    + replace (seq 1 n) with (1%nat :: seq 2 (k - 2) ++ k :: seq (S k) (n - k)).
      2:{ replace n with (1 + ((k - 2) + S (n - k)))%nat at 2 by lia. rewrite (seq_app 1). simpl. f_equal.
          rewrite seq_app. f_equal. replace (2 + (k - 2))%nat with k by lia. reflexivity. }
      simpl map at 1. rewrite map_app. simpl map at 2. rewrite Ef, rotate_to_spec; auto.
      * pose proof (rotate_fw (k - 1) ltac:(lia)) as R. replace (S (k - 1)) with k in R by lia. rewrite R.
        replace (n - (k - 1))%nat with (S (n - k)) by lia. simpl. rewrite Ef. f_equal. f_equal.
        replace (k - 1)%nat with (S (k - 2)) by lia. reflexivity.
      * apply Nk; lia.
      * intros y Iy. apply in_map_iff in Iy. destruct Iy as (j & <- & J). apply in_seq in J. apply Nk; lia.
      * rewrite map_length, seq_length. lia.
  - intros j. rewrite Ef. eapply (sort_by_head _ order_key_ltb order_key_nt order_key_as _ _ _ ES).
    rewrite <- (per_mod _ _ fw_per j). destruct (Nat.eq_dec (j mod n) 0) as [Z|Z].
    + rewrite Z. rewrite <- (fw_per 0). apply in_map. apply in_seq. simpl. lia.
    + apply in_map. apply in_seq. pose proof (mod_lt' j). lia.
Qed.

Lemma order_cycle_big : (250 <= n)%nat -> order l = Err OtherException.
Proof.
  intros NB. assert (exists akt l', l = akt :: l') as (akt & l' & EL) by (destruct l as [|akt l']; [simpl in len; lia|eauto]).
  assert (EO : order l = (r <- order_loop (2 * length l + 1) 0 (mko l 0 (sj akt) []) ;;
    match r with
    | inr segs => Ok (false, segs)
    | inl o =>
      let ret := flat_map (fun k => match nth_error (o_segs o) k with Some s => [s] | None => [] end) (o_ret o) in
      match sort_by order_key_ltb ret with
      | [] => Err IndexError
      | first :: _ => Ok (true, rotate_to (length ret) first ret)
      end
    end)) by (rewrite EL; reflexivity).
  rewrite EO. clear EO. cbv zeta. replace (sj akt) with (sj (nth 0 l s0)) by (rewrite EL; reflexivity).
  rewrite (loop_err _ 0 0 _ inv0) by lia. reflexivity.
Qed.
End Cyc.

Lemma cycle_edges_length : forall X (vs : list X), length (cycle_edges vs) = length vs.
Proof.
  intros X [|v r]; [reflexivity|]. unfold cycle_edges. rewrite combine_length, app_length. simpl. rewrite Nat.add_1_r. simpl. rewrite Nat.min_id. reflexivity.
Qed.
Lemma Forall2_nth_error : forall X Y (R : X -> Y -> Prop) a b, Forall2 R a b ->
  forall k x y, nth_error a k = Some x -> nth_error b k = Some y -> R x y.
Proof.
  induction 1; intros [|k] u v E1 E2; simpl in *; try discriminate; [congruence|eauto].
Qed.

Lemma Forall2_len : forall X Y (R : X -> Y -> Prop) a b, Forall2 R a b -> length a = length b.
Proof. induction 1; simpl; auto. Qed.

Lemma cyc_setup : forall (vs : list (pt RA)) given cyc, (3 <= length vs)%nat -> NoDup vs -> separated vs ->
  Forall2 joins (cycle_edges vs) cyc -> Permutation given cyc ->
  let n := length vs in
  exists s0 wv pos, length given = n /\ (forall k, wv (k + n)%nat = wv k) /\ (forall k, pos (k + n)%nat = pos k) /\
  (forall i j, pt_eqb (wv i) (wv j) = true <-> (i mod n = j mod n)%nat) /\
  (forall k, (pos k < n)%nat) /\ (forall i j, pos i = pos j -> (i mod n = j mod n)%nat) /\
  (forall x, (x < n)%nat -> exists k, (k < n)%nat /\ pos k = x) /\
  (forall k, joins (wv k, wv (S k)) (nth (pos k) given s0)) /\
  pos 0%nat = 0%nat /\ (si (nth 0 given s0) = wv 0 /\ sj (nth 0 given s0) = wv 1)%nat /\
  (forall v, In v vs <-> exists k, (k < n)%nat /\ v = wv k).
Proof.
  intros vs given cyc N3 ND SEP F2 P n.
  assert (exists d vs', vs = d :: vs') as (d & _ & _) by (destruct vs; [simpl in N3; lia|eauto]).
  change (3 <= n)%nat in N3.
  assert (Lc : length cyc = n) by (apply Forall2_len in F2; rewrite cycle_edges_length in F2; auto).
  assert (Lg : length given = n) by (rewrite <- Lc; apply Permutation_length; auto).
  assert (exists s0 g', given = s0 :: g') as (s0 & _ & _) by (destruct given; [simpl in Lg; lia|eauto]).
  pose proof (proj1 (Permutation_nth given cyc s0) P) as (_ & f & FB & FI & FE). rewrite Lg in FB, FI, FE |- *.
  pose proof FI as FS. apply bInjective_bSurjective in FS; auto.
  set (V := fun x => nth (x mod n) vs d).
  assert (MB : forall x, (x mod n < n)%nat) by (intros; apply Nat.mod_upper_bound; lia).
  assert (VI : forall x, In (V x) vs) by (intros x; apply nth_In; apply MB).
  assert (VS : forall x y, pt_eqb (V x) (V y) = true <-> (x mod n = y mod n)%nat).
  { intros x y. split.
    - intros E. apply (separated_eqb _ SEP) in E; auto.
      apply (proj1 (NoDup_nth vs d) ND) in E; auto; apply MB.
    - intros E. unfold V. rewrite E. apply (proj2 (pt_eqb_iff _ _)). rewrite !Rminus_eq_0, Rabs_R0. split; lra. }
  assert (EDG : forall x, joins (V x, V (S x)) (nth (f (x mod n)%nat) given s0)).
  { intros x. rewrite <- FE by apply MB.
    eapply (Forall2_nth_error _ _ _ _ _ F2 (x mod n)%nat).
    - apply cycle_edges_nth. split; [apply nth_error_nth'; apply MB|].
      assert (SM : (S x mod n = if Nat.eqb (S (x mod n)) n then 0 else S (x mod n))%nat).
      { rewrite <- Nat.add_1_r, <- Nat.add_mod_idemp_l by lia. rewrite Nat.add_1_r.
        destruct (Nat.eqb_spec (S (x mod n)) n) as [->|Ne]; [apply Nat.mod_same; lia|].
        apply Nat.mod_small. specialize (MB x). lia. }
      unfold V. rewrite SM. apply nth_error_nth'. fold n. rewrite <- SM. apply MB.
    - apply nth_error_nth'. rewrite Lc. apply MB. }
  destruct (FS 0%nat ltac:(lia)) as (k0 & K0 & F0).
  assert (GEN : forall a b c, (c = 1 /\ a = b \/ c = n - 1 /\ a = S b)%nat -> (b mod n = k0)%nat ->
    (si (nth 0 given s0) = V a /\ sj (nth 0 given s0) = V (a + c)%nat) ->
    exists (s0 : seg RA) wv pos, n = n /\ (forall k, wv (k + n)%nat = wv k) /\ (forall k, pos (k + n)%nat = pos k) /\
    (forall i j, pt_eqb (wv i) (wv j) = true <-> (i mod n = j mod n)%nat) /\
    (forall k, (pos k < n)%nat) /\ (forall i j, pos i = pos j -> (i mod n = j mod n)%nat) /\
    (forall x, (x < n)%nat -> exists k, (k < n)%nat /\ pos k = x) /\
    (forall k, joins (wv k, wv (S k)) (nth (pos k) given s0)) /\
    pos 0%nat = 0%nat /\ (si (nth 0 given s0) = wv 0 /\ sj (nth 0 given s0) = wv 1)%nat /\
    (forall v, In v vs <-> exists k, (k < n)%nat /\ v = wv k)).
  { intros a b c AC BK D0.
    assert (INV : forall q i j, ((q + c * i) mod n = (q + c * j) mod n)%nat <-> (i mod n = j mod n)%nat).
    { intros q i j. destruct AC as [[-> _]|[-> _]].
      - rewrite !Nat.mul_1_l, !(Nat.add_comm q). split; [apply (mod_cancelN n N3)|apply (mod_congN n N3)].
      - split; intros E.
        + apply (mod_congN n N3 _ _ (i + j)) in E.
          replace (q + (n - 1) * i + (i + j))%nat with (j + q + i * n)%nat in E by nia.
          replace (q + (n - 1) * j + (i + j))%nat with (i + q + j * n)%nat in E by nia.
          rewrite !Nat.mod_add in E by lia. apply (mod_cancelN n N3) in E; auto.
        + apply (mod_cancelN n N3 _ _ (i + j)).
          replace (q + (n - 1) * i + (i + j))%nat with (j + q + i * n)%nat by nia.
          replace (q + (n - 1) * j + (i + j))%nat with (i + q + j * n)%nat by nia.
          rewrite !Nat.mod_add by lia. apply (mod_congN n N3); auto. }
    assert (PER : forall q k, ((q + c * (k + n)) mod n = (q + c * k) mod n)%nat).
    { intros q k. replace (q + c * (k + n))%nat with (q + c * k + c * n)%nat by ring. apply Nat.mod_add. lia. }
    assert (ONTO : forall q x, (x < n)%nat -> exists k, (k < n)%nat /\ ((q + c * k) mod n = x)%nat).
    { intros q x X.
      assert (BI : bInjective n (fun k => ((q + c * k) mod n)%nat)).
        { intros i j I J E. apply INV in E. rewrite !Nat.mod_small in E by auto. exact E. }
        apply bInjective_bSurjective in BI; [|intros k _; apply MB]. destruct (BI x X) as (k & ? & ?). eauto. }
    exists s0, (fun k => V (a + c * k)%nat), (fun k => f ((b + c * k) mod n)%nat).
    split; [reflexivity|]. split; [intros k; unfold V; rewrite PER; reflexivity|].
    split; [intros k; rewrite PER; reflexivity|].
    split; [intros i j; rewrite VS; apply INV|].
    split; [intros k; apply FB, MB|].
    split; [intros i j E; apply FI in E; try apply MB; apply INV in E; exact E|].
    split.
    { intros x X. destruct (FS x X) as (y & Y & E). destruct (ONTO b y Y) as (k & K & E2). exists k. split; auto. rewrite E2. exact E. }
    split.
    { intros k. destruct AC as [[-> ->]|[-> ->]].
      - replace (b + 1 * S k)%nat with (S (b + 1 * k)) by lia. apply EDG.
      - assert (EV : V (S b + (n - 1) * S k)%nat = V (b + (n - 1) * k)%nat).
        { unfold V. replace (S b + (n - 1) * S k)%nat with (b + (n - 1) * k + 1 * n)%nat by nia. rewrite Nat.mod_add by lia. reflexivity. }
        rewrite EV. destruct (EDG (b + (n - 1) * k)%nat) as [[E1 E2]|[E1 E2]]; cbn [fst snd] in E1, E2; [right|left]; auto. }
    split; [rewrite Nat.mul_0_r, Nat.add_0_r, BK; exact F0|].
    split; [rewrite Nat.mul_0_r, Nat.add_0_r, Nat.mul_1_r; exact D0|].
    intros v. split.
    - intros I. apply (In_nth _ _ d) in I as (x & X & E). destruct (ONTO a x X) as (k & K & E2).
      exists k. split; auto. unfold V. rewrite E2. auto.
    - intros (k & _ & ->). apply VI. }
  pose proof (EDG k0) as E0. rewrite (Nat.mod_small k0) in E0 by auto. rewrite F0 in E0.
  destruct E0 as [[E1 E2]|[E1 E2]]; simpl in E1, E2.
  - apply (GEN k0 k0 1%nat); [auto|apply Nat.mod_small; auto|]. rewrite Nat.add_1_r. auto.
  - apply (GEN (S k0) k0 (n - 1)%nat); [auto|apply Nat.mod_small; auto|]. split; auto.
    rewrite E2. unfold V. replace (S k0 + (n - 1))%nat with (k0 + 1 * n)%nat by lia. rewrite Nat.mod_add by lia. reflexivity.
Qed.

Lemma fw_rev : forall (n : nat) wv pos (l : list (seg RA)) s0 k,
  joins (wv k, wv (S k)) (nth (pos k) l s0) ->
  fw wv pos l s0 k = nth (pos k) l s0 \/ fw wv pos l s0 k = mkseg (sc (nth (pos k) l s0)) (sj (nth (pos k) l s0)) (si (nth (pos k) l s0)).
Proof.
  intros n wv pos l s0 k [[E1 E2]|[E1 E2]]; simpl in E1, E2; unfold fw; rewrite <- E1, <- E2; auto.
  left. destruct (nth (pos k) l s0); reflexivity.
Qed.

Lemma nearer_key : forall a b : seg RA, order_key_ltb b a = false -> nearer_origin (si a) (si b).
Proof.
  intros a b H. apply not_true_iff_false in H. rewrite order_key_iff in H. unfold nearer_origin. cbv zeta.
  rewrite !dist_distance.
  replace (@mkpt RA 0%R 0%R) with (@Point_new RA n0 n0).
  - set (x := pt_distance _ (si a)) in *. set (y := pt_distance _ (si b)) in *. clearbody x y. simpl in *.
    destruct (Rtotal_order x y) as [|[|]]; [tauto| |tauto].
    destruct (Rtotal_order (px (si a)) (px (si b))) as [|[|]]; [tauto| |exfalso; apply H; right; split; auto; left; auto].
    right. split; auto. right. split; auto. apply Rnot_lt_le. intros K. apply H. right. split; auto.
  - apply Point_new_id; simpl; apply grid_IZR.
Qed.

Lemma NoDup_map_in : forall X Y (f : X -> Y) l, (forall a b, In a l -> In b l -> f a = f b -> a = b) -> NoDup l -> NoDup (map f l).
Proof.
  induction l as [|x l IH]; intros I N; simpl; constructor; inversion N; subst.
  - intros C. apply in_map_iff in C as (y & E & Iy). apply I in E; simpl; auto. congruence.
  - apply IH; auto. intros a b Ia Ib. apply I; simpl; auto.
Qed.

(*@ C31_order_cycle *)
(** C31: vs are the corners of a cycle of 3 to 249 segments, no two of them identified by ==; the
    given segments are its edges in any order and with any directions.  order() returns True and
    leaves the same segments, some reversed, as a closed continuous polygon around the same corners;
    it starts at the corner nearest the origin (ties: smaller x, then smaller y). *)
Lemma order_spec : forall (vs : list (pt RA)) (given cyc : list (seg RA)),
  (3 <= length vs < 250)%nat -> NoDup vs -> separated vs ->
  Forall2 joins (cycle_edges vs) cyc -> Permutation given cyc ->
  exists us r, order given = Ok (true, r) /\ rearranged r given /\
    Permutation us vs /\ map (fun s => (si s, sj s)) r = cycle_edges us /\
    iscontinuous r = true /\ isclosed r = Ok true /\
    (forall v w, In v vs -> nth_error us 0 = Some w -> nearer_origin w v).
Proof.
  intros vs given cyc [N3 NB] ND SEP F2 P.
  destruct (cyc_setup vs given cyc N3 ND SEP F2 P) as (s0 & wv & pos & len & wvp & posp & sep & posb & posi & poss & edge & p0 & d0 & vin).
  set (n := length vs) in *.
  destruct (order_cycle n wv pos given s0 N3 len wvp posp sep posb posi poss edge p0 d0 NB) as (t & T & EO & MIN).
  set (F := fw wv pos given s0) in *.
  assert (MS : forall X (f : nat -> X) k, map f (seq k n) = f k :: map f (seq (S k) (n - 1))).
  { intros X f k. replace n with (S (n - 1)) at 1 by lia. reflexivity. }
  assert (ROT : forall X (f : nat -> X), (forall k, f (k + n)%nat = f k) -> forall k, Permutation (map f (seq k n)) (map f (seq 0 n))).
  { intros X f Pf. induction k as [|k IH]; [reflexivity|]. rewrite <- IH. rewrite (MS _ f k).
    replace (seq (S k) n) with (seq (S k) (n - 1) ++ [k + n])%nat.
    - rewrite map_app. simpl. rewrite Pf. symmetry. apply Permutation_cons_append.
    - replace n with (S (n - 1)) at 3 by lia. rewrite seq_S. do 2 f_equal. lia. }
  assert (NTH : forall k x s, nth_error (map F (seq k n)) x = Some s -> (x < n)%nat /\ s = F (k + x)%nat).
  { intros k x s E. assert (X : (x < n)%nat) by (assert (nth_error (map F (seq k n)) x <> None) as Q by congruence; apply nth_error_Some in Q; rewrite map_length, seq_length in Q; auto).
    split; auto. rewrite (map_nth_error F x (seq k n) (d := (k + x)%nat)) in E; [congruence|].
    rewrite nth_error_nth' with (d := 0%nat) by (rewrite seq_length; auto). rewrite seq_nth; auto. }
  assert (CONT : iscontinuous (map F (seq (S t) n)) = true).
  { apply iscontinuous_iff. intros k a b E1 E2. apply NTH in E1, E2. destruct E1 as [_ ->], E2 as [_ ->].
    replace (S t + S k)%nat with (S (S t + k)) by lia. apply continuous_same. reflexivity. }
  exists (map wv (seq (S t) n)), (map F (seq (S t) n)). split; [exact EO|].
  split; [|split; [|split; [|split; [|split]]]].
  - exists (map (fun k => nth (pos k) given s0) (seq (S t) n)). split.
    + rewrite ROT by (intros k; rewrite posp; reflexivity).
      rewrite <- (map_map pos (fun x => nth x given s0)).
      assert (PP : Permutation (map pos (seq 0 n)) (seq 0 n)).
      { apply NoDup_Permutation_bis.
        - apply NoDup_map_in; [|apply seq_NoDup]. intros i j Ii Ij E. apply in_seq in Ii, Ij.
          apply posi in E. rewrite !Nat.mod_small in E by lia. exact E.
        - rewrite map_length. auto.
        - intros x I. apply in_map_iff in I as (k & <- & _). apply in_seq. specialize (posb k). lia. }
      rewrite (Permutation_map _ PP). rewrite <- len. 
      assert (forall (l : list (seg RA)) d, map (fun x => nth x l d) (seq 0 (length l)) = l) as EQ.
      { intros l d. induction l as [|y l IH]; [reflexivity|]. simpl. f_equal. rewrite <- seq_shift, map_map. exact IH. }
      rewrite EQ. reflexivity.
    + clear -edge. induction (seq (S t) n) as [|k ks IH]; simpl; constructor; auto. apply (fw_rev n). apply edge.
  - rewrite ROT by auto. apply NoDup_Permutation; auto.
    + apply NoDup_map_in; [|apply seq_NoDup]. intros i j Ii Ij E. apply in_seq in Ii, Ij.
      assert (pt_eqb (wv i) (wv j) = true) as Q by (rewrite E; apply sep; reflexivity).
      apply sep in Q. rewrite !Nat.mod_small in Q by lia. exact Q.
    + intros v. rewrite vin, in_map_iff. split.
      * intros (k & <- & I). apply in_seq in I. exists k. split; auto. lia.
      * intros (k & K & ->). exists k. split; auto. apply in_seq. lia.
  - rewrite map_map. rewrite (MS _ wv). rewrite cycle_edges_pairs.
    replace (wv (S t) :: map wv (seq (S (S t)) (n - 1)) ++ [wv (S t)]) with (map wv (seq (S t) (S n))).
    + generalize (S t) as a. generalize n as b. clear. induction b as [|b IH]; intros a; [reflexivity|].
      change (seq a (S b)) with (a :: seq (S a) b). change (seq a (S (S b))) with (a :: S a :: seq (S (S a)) b).
      rewrite map_cons, IH. reflexivity.
    + rewrite seq_S, map_app, MS. simpl. rewrite <- wvp. replace (S (t + n)) with (S t + n)%nat by lia. reflexivity.
  - exact CONT.
  - unfold isclosed. rewrite CONT. rewrite MS. unfold first_point, last_point, first_segment, last_segment.
    replace (map F (seq (S (S t)) (n - 1))) with (map F (seq (S (S t)) (n - 2)) ++ [F (t + n)%nat]).
    + unfold get. simpl nth_error. unfold last_opt. rewrite last_last. simpl. f_equal. apply sep.
      replace (S (t + n)) with (S t + 1 * n)%nat by lia. rewrite Nat.mod_add by lia. reflexivity.
    + replace (n - 1)%nat with (S (n - 2)) by lia. rewrite seq_S, map_app. replace (S (S t) + (n - 2))%nat with (t + n)%nat by lia. reflexivity.
  - intros v w Iv E. rewrite (MS _ wv) in E. simpl in E. injection E as <-. apply vin in Iv. destruct Iv as (k & _ & ->).
    apply (nearer_key (F (S t)) (F k)). apply MIN.
Qed.

(*@ex C31_example *)
(** C31: the hypotheses hold for a concrete triangle with shuffled, partly reversed edges. *)
Example order_example : let vs := [@mkpt RA 3 1; @mkpt RA 9 2; @mkpt RA 4 7]%R in
  let cyc := [LineSegment (@mkpt RA 3 1) (@mkpt RA 9 2); LineSegment (@mkpt RA 4 7) (@mkpt RA 9 2); LineSegment (@mkpt RA 4 7) (@mkpt RA 3 1)]%R in
  (3 <= length vs < 250)%nat /\ NoDup vs /\ separated vs /\ Forall2 joins (cycle_edges vs) cyc /\ Permutation (rev cyc) cyc.
Proof.
  assert (PE : forall a b c d : R, @mkpt RA a b = @mkpt RA c d -> a = c) by (intros a b c d H; congruence).
  simpl. split; [lia|]. split; [|split; [|split]].
  - repeat constructor; simpl; intros H; decompose [or] H; try contradiction; match goal with K : _ = _ |- _ => apply PE in K; lra end.
  - intros p q Hp Hq A B. simpl in Hp, Hq. 
    destruct Hp as [<-|[<-|[<-|[]]]]; destruct Hq as [<-|[<-|[<-|[]]]]; auto;
    simpl in A; exfalso; unfold Rabs in A; destruct (Rcase_abs _); lra.
  - repeat apply Forall2_cons; try apply Forall2_nil; unfold joins; simpl; auto.
  - apply (Permutation_sym (Permutation_rev [_; _; _])).
Qed.

(*@ C32_limit *)
(** C32: with 250 or more edges a cycle is never ordered: the call raises. *)
Lemma order_limit : forall (vs : list (pt RA)) (given cyc : list (seg RA)),
  (250 <= length vs)%nat -> NoDup vs -> separated vs ->
  Forall2 joins (cycle_edges vs) cyc -> Permutation given cyc ->
  order given = Err OtherException.
Proof.
  intros vs given cyc NB ND SEP F2 P. assert (N3 : (3 <= length vs)%nat) by lia.
  destruct (cyc_setup vs given cyc N3 ND SEP F2 P) as (s0 & wv & pos & len & wvp & posp & sep & posb & posi & poss & edge & p0 & d0 & vin).
  exact (order_cycle_big (length vs) wv pos given s0 N3 len wvp posp sep posb posi poss edge p0 d0 NB).
Qed.

(*@ex C32_limit_example *)
(** C32: a cycle with 250 corners on a parabola meets the hypotheses. *)
Example limit_example : let vs := map (fun k => @mkpt RA (INR k) (INR k * INR k)%R) (seq 0 250) in
  (250 <= length vs)%nat /\ NoDup vs /\ separated vs /\ Forall2 joins (cycle_edges vs) (cycle_poly vs).
Proof.
  intros vs. split; [unfold vs; rewrite map_length, seq_length; lia|]. split; [|split].
  - unfold vs. apply NoDup_map_in; [|apply seq_NoDup]. intros a b _ _ E.
    assert (INR a = INR b) as E' by congruence. apply INR_eq; auto.
  - intros p q Ip Iq A _. apply in_map_iff in Ip as (a & <- & _). apply in_map_iff in Iq as (b & <- & _).
    simpl in A. rewrite !INR_IZR_INZ, <- minus_IZR, <- abs_IZR in A.
    assert (Z.abs (Z.of_nat a - Z.of_nat b) < 1)%Z by (apply lt_IZR; lra).
    assert (a = b) as -> by lia. reflexivity.
  - unfold cycle_poly. generalize (cycle_edges vs). clear. intros es. induction es as [|e es IH]; simpl; constructor; auto.
    left. split; reflexivity.
Qed.

(** * C32: nothing is invented *)
Definition same_or_rev {A : Arith} (s s' : seg A) : Prop := s = s' \/ s = mkseg (sc s') (sj s') (si s').

Section Invent.
Context {A : Arith}.
Variable g : list (seg A).
Definition Inv2 (o : ostate) : Prop :=
  Forall2 same_or_rev (o_segs o) g /\ NoDup (o_ret o) /\ (forall k, In k (o_ret o) -> (k < length g)%nat).

Lemma upd_rev : forall (l l' : list (seg A)) k, Forall2 same_or_rev l l' -> Forall2 same_or_rev (upd k seg_reverse l) l'.
Proof.
  induction l as [|x l IH]; intros l' [|k] H; inversion H; subst; simpl; constructor; auto.
  destruct H2 as [-> | ->]; [right|left]; unfold seg_reverse; simpl; auto. destruct y; reflexivity.
Qed.

Lemma step2 : forall o, Inv2 o -> (forall o', order_step o = inl o' -> Inv2 o') /\
  (forall segs, order_step o = inr segs -> Forall2 same_or_rev segs g).
Proof.
  intros o (S & N & B). unfold order_step.
  destruct (nth_error (o_segs o) (o_akt o)) as [akt|]; [|split; [discriminate|intros segs [= <-]; auto]]. cbv zeta.
  match goal with |- context [match ?p with Some _ => _ | None => _ end] => destruct p as [[k flip]|] end;
    [|split; [discriminate|intros segs [= <-]; auto]].
  destruct (nth_error (o_segs o) k) as [nxt|] eqn:E; [|split; [discriminate|intros segs [= <-]; auto]].
  set (inret := existsb _ (o_ret o)).
  match goal with |- context [match ?p with Some _ => _ | None => _ end] => destruct p as [nxt'|] end;
    [|split; [discriminate|intros segs [= <-]; auto]].
  split; [|discriminate]. intros o' [= <-]. split; [|split]; simpl.
  - destruct (negb inret && flip); auto. apply upd_rev; auto.
  - destruct inret eqn:EI; auto. apply NoDup_Add with (l := o_ret o) (a := k).
    + pose proof (Add_app k (o_ret o) []) as Q. rewrite app_nil_r in Q. exact Q.
    + split; auto. intros I. assert (inret = true); [|congruence]. unfold inret. apply existsb_exists.
      exists k. split; auto. rewrite Nat.eqb_refl. reflexivity.
  - intros j I. assert (L : (k < length g)%nat) by (rewrite <- (Forall2_len _ _ _ _ _ S); apply nth_error_Some; congruence).
    destruct inret; auto. apply in_app_iff in I. destruct I as [I|[<-|[]]]; auto.
Qed.

Lemma loop2 : forall n c o, Inv2 o -> (forall o', order_loop n c o = Ok (inl o') -> Inv2 o') /\
  (forall segs, order_loop n c o = Ok (inr segs) -> Forall2 same_or_rev segs g).
Proof.
  induction n as [|n IH]; intros c o I.
  - split; [intros o' [= <-]; auto|discriminate].
  - cbn [order_loop]. destruct (step2 o I) as [S1 S2]. destruct (order_step o) as [o1|segs].
    + destruct (Nat.ltb 500 (S c)); [split; discriminate|]. apply IH. auto.
    + split; [discriminate|]. intros segs' [= <-]. auto.
Qed.
End Invent.

Lemma rotate_right_perm : forall X (l : list X), Permutation (rotate_right l) l.
Proof.
  intros X l. unfold rotate_right. destruct (rev l) as [|x r] eqn:E.
  - apply (f_equal (@rev X)) in E. rewrite rev_involutive in E. subst. reflexivity.
  - apply (f_equal (@rev X)) in E. rewrite rev_involutive in E. subst. simpl. apply Permutation_cons_append.
Qed.
Lemma rotate_to_perm : forall (A : Arith) n (f : seg A) l, Permutation (rotate_to n f l) l.
Proof.
  induction n as [|n IH]; intros f l; simpl; auto. destruct l as [|x l]; auto.
  destruct (seg_eqb x f); auto. rewrite IH. apply rotate_right_perm.
Qed.

Lemma pick_rest : forall X (g : list X) ks d, NoDup ks -> (forall k, In k ks -> (k < length g)%nat) ->
  exists rest, Permutation (map (fun k => nth k g d) ks ++ rest) g.
Proof.
  intros X g ks d N B.
  assert (exists js, Permutation (ks ++ js) (seq 0 (length g))) as [js P].
  { exists (filter (fun k => negb (existsb (Nat.eqb k) ks)) (seq 0 (length g))). apply NoDup_Permutation.
    - clear -N. assert (NF : NoDup (filter (fun k => negb (existsb (Nat.eqb k) ks)) (seq 0 (length g)))) by (apply NoDup_filter, seq_NoDup).
      assert (D : forall x, In x ks -> ~ In x (filter (fun k => negb (existsb (Nat.eqb k) ks)) (seq 0 (length g)))).
      { intros x I J. apply filter_In in J as [_ J]. rewrite negb_true_iff in J.
        assert (existsb (Nat.eqb x) ks = true) by (apply existsb_exists; exists x; split; auto; apply Nat.eqb_refl). congruence. }
      revert NF D. generalize (filter (fun k => negb (existsb (Nat.eqb k) ks)) (seq 0 (length g))) as m.
      induction N as [|x ks H N IH]; intros m NF D; simpl; auto. constructor.
      + rewrite in_app_iff. intros [I|I]; auto. exact (D x (or_introl eq_refl) I).
      + apply IH; auto. intros y I. apply D. right; auto.
    - apply seq_NoDup.
    - intros x. rewrite in_app_iff, filter_In, in_seq, negb_true_iff. split.
      + intros [I|[I _]]; [specialize (B x I); lia|lia].
      + intros I. destruct (existsb (Nat.eqb x) ks) eqn:E; [|right; split; auto].
        left. apply existsb_exists in E as (y & Iy & E). apply Nat.eqb_eq in E. subst; auto. }
  exists (map (fun k => nth k g d) js). rewrite <- map_app, (Permutation_map _ P).
  assert (forall l : list X, map (fun x => nth x l d) (seq 0 (length l)) = l) as EQ.
  { induction l as [|y l IH]; [reflexivity|]. simpl. f_equal. rewrite <- seq_shift, map_map. exact IH. }
  rewrite EQ. reflexivity.
Qed.

(*@ C32_no_invention *)
(** C32: whatever the input and the arithmetic, order() only permutes, reverses and drops segments;
    when it returns False it has at most reversed some of them in place. *)
Lemma order_no_invention : forall (A : Arith) (g r : list (seg A)) (b : bool), order g = Ok (b, r) ->
  (b = false -> Forall2 (fun s s' => s = s' \/ s = mkseg (sc s') (sj s') (si s')) r g) /\
  (b = true -> exists kept dropped, Permutation (kept ++ dropped) g /\ rearranged r kept).
Proof.
  intros A [|akt g'] r b H; [discriminate|]. set (g := akt :: g') in *.
  assert (I0 : Inv2 g (mko g 0 (sj akt) [])).
  { split; [|split]; simpl; [|constructor|intros k []].
    generalize g. clear. induction g as [|x g IH]; constructor; auto. left; reflexivity. }
  unfold order in H. fold g in H. change (match g with [] => Err IndexError | _ :: _ => _ end) with
    (r <- order_loop (2 * length g + 1) 0 (mko g 0 (sj akt) []) ;; 
     match r with inr segs => Ok (false, segs) | inl o =>
      let ret := flat_map (fun k => match nth_error (o_segs o) k with Some s => [s] | None => [] end) (o_ret o) in
      match sort_by order_key_ltb ret with [] => Err IndexError | first :: _ => Ok (true, rotate_to (length ret) first ret) end end) in H.
  destruct (loop2 g (2 * length g + 1) 0 _ I0) as [L1 L2].
  destruct (order_loop (2 * length g + 1) 0 (mko g 0 (sj akt) [])) as [[o|segs]|e]; cbn [bind] in H; [| |discriminate].
  - specialize (L1 o eq_refl). cbv zeta in H. set (ret := flat_map _ (o_ret o)) in H.
    destruct (sort_by order_key_ltb ret) as [|f t]; [discriminate|]. injection H as <- <-.
    split; [discriminate|]. intros _. destruct L1 as (S & N & B).
    destruct (pick_rest _ g (o_ret o) akt N B) as [rest P].
    exists (map (fun k => nth k g akt) (o_ret o)), rest. split; auto.
    assert (F : Forall2 same_or_rev ret (map (fun k => nth k g akt) (o_ret o))).
    { unfold ret. clear -S B. induction (o_ret o) as [|k ks IH]; simpl; [constructor|].
      assert (L : (k < length g)%nat) by (apply B; left; auto).
      assert (exists s, nth_error (o_segs o) k = Some s) as [s E].
      { destruct (nth_error (o_segs o) k) eqn:E; eauto. apply nth_error_None in E. rewrite (Forall2_len _ _ _ _ _ S) in E. lia. }
      rewrite E. simpl. constructor; [|apply IH; intros; apply B; right; auto].
      eapply (Forall2_nth_error _ _ _ _ _ S k); [exact E|]. apply (nth_error_nth' g akt L). }
    assert (RP : Permutation ret (rotate_to (length ret) f ret)) by (symmetry; apply rotate_to_perm).
    destruct (Permutation_Forall2 RP F) as (g2 & P2 & F2). exists g2. split; [symmetry; auto|exact F2].
  - injection H as <- <-. split; [|discriminate]. intros _. exact (L2 segs eq_refl).
Qed.

(** Structural comparison of results, to evaluate binary64 claims in the virtual machine. *)
Definition sf_same (x y : SpecFloat.spec_float) : bool :=
  match x, y with
  | SpecFloat.S754_zero a, SpecFloat.S754_zero b => Bool.eqb a b
  | SpecFloat.S754_infinity a, SpecFloat.S754_infinity b => Bool.eqb a b
  | SpecFloat.S754_nan, SpecFloat.S754_nan => true
  | SpecFloat.S754_finite a m e, SpecFloat.S754_finite b m' e' => Bool.eqb a b && Pos.eqb m m' && Z.eqb e e'
  | _, _ => false
  end.
Lemma sf_same_eq : forall x y, sf_same x y = true -> x = y.
Proof.
  intros [?|?| |? ? ?] [?|?| |? ? ?]; simpl; intros H; try discriminate; auto;
  repeat rewrite andb_true_iff in H; repeat match goal with K : _ /\ _ |- _ => destruct K end;
  repeat match goal with
  | K : Bool.eqb _ _ = true |- _ => apply eqb_prop in K; subst
  | K : Pos.eqb _ _ = true |- _ => apply Pos.eqb_eq in K; subst
  | K : Z.eqb _ _ = true |- _ => apply Z.eqb_eq in K; subst
  end; reflexivity.
Qed.
Definition fpt_same {L} (p q : pt (FA L)) : bool := sf_same (px p) (px q) && sf_same (py p) (py q).
Lemma fpt_same_eq : forall L (p q : pt (FA L)), fpt_same p q = true -> p = q.
Proof. intros L [a b] [c d] H. apply andb_true_iff in H as [H1 H2]. apply sf_same_eq in H1, H2. simpl in *. congruence. Qed.
Definition fseg_same {L} (s t : seg (FA L)) : bool := scls_eqb (sc s) (sc t) && fpt_same (si s) (si t) && fpt_same (sj s) (sj t).
Lemma fseg_same_eq : forall L (p q : seg (FA L)), fseg_same p q = true -> p = q.
Proof.
  intros L [a b c] [d e f] H. apply andb_true_iff in H as [H H2]. apply andb_true_iff in H as [H0 H1].
  apply fpt_same_eq in H1, H2. simpl in *. destruct a, d; try discriminate; congruence.
Qed.
Fixpoint fpoly_same {L} (l m : list (seg (FA L))) : bool :=
  match l, m with [], [] => true | s :: l', t :: m' => fseg_same s t && fpoly_same l' m' | _, _ => false end.
Lemma fpoly_same_eq : forall L (l m : list (seg (FA L))), fpoly_same l m = true -> l = m.
Proof.
  induction l as [|s l IH]; intros [|t m] H; try discriminate; auto.
  apply andb_true_iff in H as [H1 H2]. apply fseg_same_eq in H1. apply IH in H2. congruence.
Qed.
Lemma order_check : forall L (g r : list (seg (FA L))) b,
  match order g with Ok (b', r') => Bool.eqb b b' && fpoly_same r' r | Err _ => false end = true -> order g = Ok (b, r).
Proof.
  intros L g r b H. destruct (order g) as [[b' r']|]; [|discriminate]. apply andb_true_iff in H as [H1 H2].
  apply eqb_prop in H1. apply fpoly_same_eq in H2. congruence.
Qed.
Lemma isclosed_check : forall L (g : list (seg (FA L))) b,
  match isclosed g with Ok b' => Bool.eqb b b' | Err _ => false end = true -> isclosed g = Ok b.
Proof. intros L g b H. destruct (isclosed g); [|discriminate]. apply eqb_prop in H. congruence. Qed.

(*@ C32_findings_refuted *)
(** C32, findings (binary64): of two separate triangles one is silently dropped although True is
    returned; a triangle with a tail gives True and a line that is not closed; an open chain gives
    False but one segment stays reversed; the same triangle given in two directions is ordered into
    two different polygons, and on an empty polygon the call fails. *)
Lemma order_findings : forall L : Libm,
  let T := zpts (FA L) [(0,0);(10,0);(5,5)]%Z in
  let U := zpts (FA L) [(20,0);(30,0);(25,5)]%Z in
  let chain ps := map (fun '(p, q) => LineSegment p q) (pairs (zpts (FA L) ps)) in
  (order (cycle_poly T ++ cycle_poly U) = Ok (true, cycle_poly T)) /\
  (order (chain [(5,60);(5,30);(5,5)]%Z ++ cycle_poly T) = Ok (true, chain [(0,0);(10,0);(5,5)]%Z ++ chain [(5,30);(5,5);(0,0)]%Z) /\
   isclosed (chain [(0,0);(10,0);(5,5)]%Z ++ chain [(5,30);(5,5);(0,0)]%Z) = Ok false) /\
  (order (chain [(0,0);(5,5)]%Z ++ chain [(9,0);(5,5)]%Z) = Ok (false, chain [(0,0);(5,5);(9,0)]%Z)) /\
  (order (cycle_poly T) = Ok (true, cycle_poly T) /\
   order (cycle_poly (rev T)) = Ok (true, cycle_poly (zpts (FA L) [(0,0);(5,5);(10,0)]%Z))) /\
  @order (FA L) [] = Err IndexError.
Proof.
  intros L. cbv zeta.
  split; [apply order_check; vm_compute; reflexivity|].
  split; [split; [apply order_check; vm_compute; reflexivity|apply isclosed_check; vm_compute; reflexivity]|].
  split; [apply order_check; vm_compute; reflexivity|].
  split; [split; apply order_check; vm_compute; reflexivity|reflexivity].
Qed.
