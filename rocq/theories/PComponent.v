(** order() on lists of segments in which every end point occurs exactly twice: it picks the cycle of the
    first segment. *)
From Coq Require Import Reals ZArith Lra Lia Bool List Psatz Permutation Arith Classical.
From Verif Require Import Base Arith ArithR ArithF MPoint MLine MPoly MGroup Spec SpecGroup PPoint PLine PShape PConvex POrder PGroup PWalk.
Import ListNotations.
#[local] Existing Instance RA.

(** * order() on a list of which the first segment belongs to a cycle that touches no other segment *)
Section Cyc.
Variables (n : nat) (wv : nat -> pt RA) (pos : nat -> nat) (l : list (seg RA)) (s0 : seg RA).
Hypothesis n3 : (3 <= n)%nat.
Hypothesis len : l <> [].
Hypothesis wvper : forall k, wv (k + n) = wv k.
Hypothesis posper : forall k, pos (k + n) = pos k.
Hypothesis sep : forall i j, pt_eqb (wv i) (wv j) = true <-> (i mod n = j mod n)%nat.
Hypothesis posb : forall k, (pos k < length l)%nat.
Hypothesis posinj : forall i j, pos i = pos j -> (i mod n = j mod n)%nat.
Hypothesis other : forall j x, nth_error l j = Some x -> (exists k, (k < n)%nat /\ pos k = j) \/ (forall k, pt_eqb (si x) (wv k) = false /\ pt_eqb (sj x) (wv k) = false).
Hypothesis edge : forall k, joins (wv k, wv (S k)) (nth (pos k) l s0).
Hypothesis pos0 : pos 0%nat = 0%nat.
Hypothesis dir0 : si (nth 0 l s0) = wv 0 /\ sj (nth 0 l s0) = wv 1.

Definition fw (k : nat) : seg RA := mkseg (sc (nth (pos k) l s0)) (wv k) (wv (S k)).

Lemma per_mod : forall X (f : nat -> X), (forall k, f (k + n)%nat = f k) -> forall k, f (k mod n)%nat = f k.
Proof.
  intros X f P k. rewrite (Nat.div_mod k n) at 2 by lia.
  generalize (k / n)%nat as q. intros q. induction q as [|q IH].
  - replace (n * 0 + k mod n)%nat with (k mod n)%nat by lia. reflexivity.
  - replace (n * S q + k mod n)%nat with ((n * q + k mod n) + n)%nat by lia. rewrite P. exact IH.
Qed.
Lemma fw_per : forall k, fw (k + n) = fw k.
Proof. intros k. unfold fw. rewrite posper, wvper. change (S (k + n)) with (S k + n)%nat. rewrite wvper. reflexivity. Qed.

Lemma mod_small' : forall k, (k < n)%nat -> (k mod n = k)%nat. Proof. intros. apply Nat.mod_small; auto. Qed.
Lemma mod_cong : forall a b c, (a mod n = b mod n)%nat -> ((a + c) mod n = (b + c) mod n)%nat.
Proof. exact (mod_congN n n3). Qed.
Lemma mod_cancel : forall a b c, ((a + c) mod n = (b + c) mod n)%nat -> (a mod n = b mod n)%nat.
Proof. exact (mod_cancelN n n3). Qed.
Lemma mod_ne : forall a c, (0 < c < n)%nat -> ((a + c) mod n <> a mod n)%nat.
Proof.
  intros a c L H. replace (a + c)%nat with (c + a)%nat in H by lia. change a with (0 + a)%nat in H at 2.
  apply mod_cancel in H. rewrite Nat.mod_0_l, Nat.mod_small in H by lia. lia.
Qed.

Lemma sepf : forall i j, (i mod n <> j mod n)%nat -> pt_eqb (wv i) (wv j) = false.
Proof. intros i j H. apply not_true_iff_false. rewrite sep. exact H. Qed.
Lemma sept : forall i j, (i mod n = j mod n)%nat -> pt_eqb (wv i) (wv j) = true.
Proof. intros i j H. apply sep; auto. Qed.

Definition bw (k : nat) : seg RA := seg_reverse (fw k).

Lemma eqb_fw_fw : forall i j, (i mod n <> j mod n)%nat -> seg_eqb (fw i) (fw j) = false.
Proof.
  intros i j H. unfold seg_eqb. simpl. rewrite (sepf i j H). rewrite ?andb_false_r. reflexivity.
Qed.
Lemma eqb_fw_bw : forall i j, seg_eqb (fw i) (bw j) = false.
Proof.
  intros i j. unfold seg_eqb. simpl.
  destruct (pt_eqb (wv i) (wv (S j))) eqn:E1; [|rewrite ?andb_false_r; reflexivity].
  destruct (pt_eqb (wv (S i)) (wv j)) eqn:E2; [|rewrite ?andb_false_r; reflexivity].
  exfalso. apply sep in E1, E2.
  assert ((S i mod n) = (S (S j)) mod n)%nat as E by (rewrite <- (Nat.add_1_r i), <- (Nat.add_1_r (S j)); apply mod_cong; auto).
  rewrite E2 in E. apply (mod_ne j 2); [lia|]. rewrite E. f_equal. lia.
Qed.
Lemma eqb_bw_fw : forall i j, seg_eqb (bw i) (fw j) = false.
Proof.
  intros i j. unfold seg_eqb. simpl.
  destruct (pt_eqb (wv (S i)) (wv j)) eqn:E1; [|rewrite ?andb_false_r; reflexivity].
  destruct (pt_eqb (wv i) (wv (S j))) eqn:E2; [|rewrite ?andb_false_r; reflexivity].
  exfalso. apply sep in E1, E2.
  assert ((S (S i) mod n) = (S j) mod n)%nat as E by (rewrite <- (Nat.add_1_r j), <- (Nat.add_1_r (S i)); apply mod_cong; auto).
  rewrite <- E2 in E. apply (mod_ne i 2); [lia|]. rewrite <- E. f_equal. lia.
Qed.
Lemma eqb_fw_refl : forall i j, (i mod n = j mod n)%nat -> seg_eqb (fw i) (fw j) = true.
Proof.
  intros i j H. rewrite <- (per_mod _ _ fw_per i), <- (per_mod _ _ fw_per j), H.
  unfold seg_eqb, fw. cbn [si sj sc]. rewrite !sept by reflexivity. destruct (sc (nth _ l s0)); reflexivity.
Qed.
Lemma fw_ne_bw : forall k, fw k <> bw k.
Proof.
  intros k H. apply (f_equal (fun s => pt_eqb (si s) (si (fw k)))) in H. simpl in H.
  rewrite sept in H by reflexivity. symmetry in H. apply sep in H. apply (mod_ne k 1); [lia|].
  rewrite Nat.add_1_r. exact H.
Qed.

Definition rets (m : nat) : list nat := map pos (seq 1 (Nat.min m n)).

Definition Inv (m : nat) (o : ostate) : Prop :=
  length (o_segs o) = length l /\
  (forall j, (forall k, pos k <> j) -> nth_error (o_segs o) j = nth_error l j) /\
  (forall k, (k < n)%nat -> exists s, nth_error (o_segs o) (pos k) = Some s /\ (s = fw k \/ (s = bw k /\ (m < k)%nat))) /\
  o_akt o = pos m /\ o_end o = wv (S m) /\ o_ret o = rets m.

Lemma inv0 : Inv 0 (mko l 0 (sj (nth 0 l s0)) []).
Proof.
  split; [reflexivity|]. split; [reflexivity|]. split; [|simpl; rewrite pos0; split; [reflexivity|split; [apply dir0|reflexivity]]].
  intros k L. exists (nth (pos k) l s0). split; [simpl; apply nth_error_nth'; apply posb|].
  destruct k as [|k].
  - left. unfold fw. rewrite pos0. destruct dir0 as [<- <-]. destruct (nth 0 l s0); reflexivity.
  - destruct (edge (S k)) as [[E1 E2]|[E1 E2]]; simpl in E1, E2.
    + left. unfold fw. rewrite <- E1, <- E2. destruct (nth (pos (S k)) l s0); reflexivity.
    + right. split; [|lia]. unfold bw, seg_reverse, fw. simpl. rewrite <- E1, <- E2. destruct (nth (pos (S k)) l s0); reflexivity.
Qed.

Lemma inv_nth : forall m o j s, Inv m o -> nth_error (o_segs o) j = Some s ->
  (exists k, (k < n)%nat /\ pos k = j /\ (s = fw k \/ (s = bw k /\ (m < k)%nat))) \/
  (forall k, pt_eqb (si s) (wv k) = false /\ pt_eqb (sj s) (wv k) = false).
Proof.
  intros m o j s (L & OT & SS & _) E.
  assert (J : (j < length l)%nat) by (rewrite <- L; apply nth_error_Some; congruence).
  destruct (nth_error l j) as [x|] eqn:EX; [|apply nth_error_None in EX; lia].
  destruct (other j x EX) as [(k & K & P)|O].
  - left. exists k. split; auto. split; auto.
    destruct (SS k K) as (s' & E' & D). rewrite P, E in E'. injection E' as ->. exact D.
  - destruct (classic (exists k, (k < n)%nat /\ pos k = j)) as [(k & K & P)|NX].
    + left. exists k. split; auto. split; auto.
      destruct (SS k K) as (s' & E' & D). rewrite P, E in E'. injection E' as ->. exact D.
    + right. rewrite OT in E.
      * rewrite EX in E. injection E as <-. exact O.
      * intros k P. apply NX. exists (k mod n)%nat. split; [apply Nat.mod_upper_bound; lia|]. rewrite (per_mod _ _ posper). exact P.
Qed.

Lemma mod_lt' : forall k, (k mod n < n)%nat. Proof. intros. apply Nat.mod_upper_bound. lia. Qed.
Lemma mod_le' : forall k, (k mod n <= k)%nat. Proof. intros. apply Nat.mod_le. lia. Qed.

Lemma inv_fw : forall m o k, Inv m o -> (k mod n <= m)%nat -> nth_error (o_segs o) (pos k) = Some (fw k).
Proof.
  intros m o k (L & _ & S & _) K. destruct (S (k mod n) (mod_lt' k)) as (s & E & [D|[_ D]]); [|lia].
  rewrite (per_mod _ _ posper) in E. rewrite E, D, (per_mod _ _ fw_per). reflexivity.
Qed.

Lemma rets_S : forall m, (m < n)%nat -> rets (S m) = rets m ++ [pos (S m)].
Proof.
  intros m L. unfold rets. rewrite (Nat.min_l (S m)), (Nat.min_l m) by lia. rewrite seq_S, map_app. reflexivity.
Qed.
Lemma rets_big : forall m, (n <= m)%nat -> rets (S m) = rets m.
Proof. intros m L. unfold rets. rewrite !Nat.min_r by lia. reflexivity. Qed.
Lemma rets_In : forall m j, In j (rets m) <-> exists k, (1 <= k <= n)%nat /\ (k <= m)%nat /\ pos k = j.
Proof.
  intros m j. induction m as [|m IH].
  - simpl. split; [intros []|]. intros (k & ? & ? & ?). lia.
  - destruct (le_lt_dec n m) as [G|G].
    + rewrite rets_big by auto. rewrite IH. split; intros (k & ? & ? & ?); exists k; repeat split; try lia; auto.
    + rewrite rets_S by auto. rewrite in_app_iff, IH. simpl. split.
      * intros [(k & ? & ? & ?)|[E|[]]]; [exists k|exists (S m)]; repeat split; try lia; auto.
      * intros (k & ? & ? & E). destruct (Nat.eq_dec k (S m)) as [->|]; [auto|left; exists k; repeat split; try lia; auto].
Qed.

Lemma inv_step : forall m o, Inv m o -> exists o', order_step o = inl o' /\ Inv (S m) o'.
Proof.
  intros m o I. pose proof I as (L & OT & SS & AK & EN & RE).
  unfold order_step.
  assert (AKT : nth_error (o_segs o) (o_akt o) = Some (fw m)) by (rewrite AK; apply (inv_fw m o m I), mod_le').
  rewrite AKT. cbv zeta.
  set (k' := (S m mod n)%nat).
  assert (K' : (k' < n)%nat) by apply mod_lt'.
  assert (KM : (k' mod n = S m mod n)%nat) by (unfold k'; apply Nat.mod_mod; lia).
  assert (PK : pos k' = pos (S m)) by apply (per_mod _ _ posper).
  assert (FK : fw k' = fw (S m)) by apply (per_mod _ _ fw_per).
  destruct (SS k' K') as (s & Es & Ds).
  set (f1 := fun x : seg RA => pt_eqb (si x) (o_end o) && negb (seg_eqb x (fw m))).
  set (f2 := fun x : seg RA => pt_eqb (sj x) (o_end o) && negb (seg_eqb x (fw m))).
  assert (F1 : forall j x, nth_error (o_segs o) j = Some x -> f1 x = true -> j = pos k' /\ x = fw k').
  { intros j x E F. destruct (inv_nth m o j x I E) as [(k & Kn & P & [D|[D G]])|O]; [subst x|subst x|unfold f1 in F; rewrite EN, (proj1 (O (S m))) in F; discriminate]; unfold f1 in F; rewrite EN in F; simpl in F;
      apply andb_true_iff in F; destruct F as [F _]; apply sep in F.
    - rewrite <- KM, !mod_small' in F by auto. subst k. auto.
    - exfalso. rewrite <- (Nat.add_1_r k), <- (Nat.add_1_r m) in F. apply mod_cancel in F.
      rewrite (mod_small' k Kn) in F. pose proof (mod_le' m). lia. }
  destruct Ds as [Ds|[Ds G]].
  - (* already in the right direction *)
    assert (F1s : f1 s = true).
    { unfold f1. rewrite EN, Ds. simpl. rewrite sept by auto. rewrite FK, eqb_fw_fw; [reflexivity|].
      rewrite <- (Nat.add_1_r m). apply mod_ne. lia. }
    rewrite (find_from_unique _ f1 _ (pos k') s Es F1s) by (intros j x E F; apply (F1 j x E F)).
    rewrite Nat.add_0_l, Es. rewrite andb_false_r.
    set (inret := existsb _ (o_ret o)).
    rewrite Es. eexists. split; [reflexivity|].
    assert (IR : inret = true <-> (n <= m)%nat).
    { unfold inret. rewrite existsb_exists, RE. split.
      - intros (r & Ir & Er). apply rets_In in Ir. destruct Ir as (k & Rk & Lk & Pk).
        destruct (le_lt_dec n m) as [?|Lm]; auto. exfalso.
        assert (NE : (k mod n <> S m mod n)%nat); [|
          apply orb_true_iff in Er; destruct Er as [Er|Er];
          [apply Nat.eqb_eq in Er; rewrite <- Pk, PK in Er; apply posinj in Er; auto|
           rewrite <- Pk, (inv_fw m o k I) in Er by (pose proof (mod_le' k); lia);
           rewrite Ds, FK, eqb_fw_fw in Er; [discriminate|exact NE]]]. intros E.
        destruct (Nat.eq_dec k n) as [->|Nk]; [lia|]. rewrite (mod_small' k) in E by lia.
        destruct (Nat.eq_dec (S m) n) as [En|Nn]; [rewrite En, Nat.mod_same in E by lia; lia|].
        rewrite mod_small' in E by lia. lia.
      - intros G. exists (pos k'). split.
        + apply rets_In. destruct (Nat.eq_dec k' 0) as [E0|N0].
          * exists n. repeat split; try lia. rewrite E0. rewrite <- (posper 0). reflexivity.
          * exists k'. repeat split; lia.
        + rewrite Nat.eqb_refl. reflexivity. }
    repeat split; simpl.
    + exact L.
    + exact OT.
    + intros k Kn. destruct (SS k Kn) as (s' & E' & D'). exists s'. split; auto.
      destruct D' as [D'|[D' G]]; auto. destruct (Nat.eq_dec k (S m)) as [->|]; [|right; split; auto; lia].
      left. unfold k' in Es. rewrite mod_small' in Es by auto. unfold k' in Ds. rewrite mod_small' in Ds by auto. congruence.
    + exact PK.
    + rewrite Ds, FK. reflexivity.
    + rewrite RE. destruct inret.
      * rewrite rets_big; auto. apply IR; auto.
      * rewrite rets_S by (destruct (le_lt_dec n m) as [G|]; auto; apply IR in G; discriminate). rewrite PK. reflexivity.
  - (* reversed *)
    assert (Sm : (S m < n)%nat) by (unfold k' in *; destruct (le_lt_dec n (S m)); [|lia]; lia).
    assert (k' = S m) as Ek by (unfold k'; apply mod_small'; auto).
    rewrite (find_from_none _ f1).
    2:{ intros j x E. destruct (f1 x) eqn:F; auto. exfalso. destruct (F1 j x E F) as [-> ->]. rewrite Es, Ds in E.
        apply (fw_ne_bw k'). congruence. }
    assert (F2s : f2 s = true).
    { unfold f2. rewrite EN, Ds. simpl. rewrite sept by auto. rewrite eqb_bw_fw. reflexivity. }
    assert (F2 : forall j x, nth_error (o_segs o) j = Some x -> f2 x = true -> j = pos k').
    { intros j x E F. destruct (inv_nth m o j x I E) as [(k & Kn & P & D)|O]; [|unfold f2 in F; rewrite EN, (proj2 (O (S m))) in F; discriminate]. unfold f2 in F. rewrite EN in F.
      apply andb_true_iff in F. destruct F as [F F']. destruct D as [D|[D Gk]]; subst x; simpl in F; apply sep in F.
      - exfalso. rewrite <- (Nat.add_1_r k), <- (Nat.add_1_r m) in F. apply mod_cancel in F.
        rewrite eqb_fw_refl in F' by auto. discriminate.
      - rewrite !mod_small' in F by auto. subst. congruence. }
    rewrite (find_from_unique _ f2 _ (pos k') s Es F2s) by (intros; eapply F2; eauto).
    rewrite Nat.add_0_l, Es.
    set (inret := existsb _ (o_ret o)).
    assert (IR : inret = false).
    { apply not_true_iff_false. unfold inret. rewrite existsb_exists, RE. intros (r & Ir & Er).
      apply rets_In in Ir. destruct Ir as (k & Rk & Lk & Pk).
      apply orb_true_iff in Er. destruct Er as [Er|Er].
      - apply Nat.eqb_eq in Er. rewrite <- Pk in Er. apply posinj in Er. rewrite (mod_small' k), (mod_small' k') in Er by lia. lia.
      - rewrite <- Pk, (inv_fw m o k I) in Er by (pose proof (mod_le' k); lia).
        rewrite Ds, eqb_fw_bw in Er. discriminate. }
    rewrite IR. simpl (negb false && true). cbv iota.
    assert (NX : nth_error (upd (pos k') seg_reverse (o_segs o)) (pos k') = Some (fw k')).
    { rewrite upd_nth, Nat.eqb_refl, Es, Ds. reflexivity. }
    rewrite NX. eexists. split; [reflexivity|]. repeat split; simpl.
    + rewrite upd_length. exact L.
    + intros j Nj. rewrite upd_nth. destruct (Nat.eqb_spec j (pos k')) as [E|E]; [exfalso; exact (Nj k' (eq_sym E))|apply OT; auto].
    + intros k Kn. rewrite upd_nth. destruct (Nat.eqb_spec (pos k) (pos k')) as [E|E].
      * exists (fw k). apply posinj in E. rewrite !mod_small' in E by auto. subst k.
        rewrite Es, Ds. split; auto.
      * destruct (SS k Kn) as (s' & E' & D'). exists s'. split; auto. destruct D' as [D'|[D' G']]; auto.
        right. split; auto. destruct (Nat.eq_dec k (S m)) as [->|]; [|lia]. rewrite Ek in E. congruence.
    + exact PK.
    + rewrite Ek. reflexivity.
    + rewrite RE. rewrite rets_S by lia. rewrite Ek. reflexivity.
Qed.

Lemma loop_ok : forall j c m o, Inv m o -> (j + c <= 500)%nat ->
  exists o', order_loop j c o = Ok (inl o') /\ Inv (m + j) o'.
Proof.
  induction j as [|j IH]; intros c m o I C.
  - exists o. rewrite Nat.add_0_r. auto.
  - destruct (inv_step m o I) as (o1 & E1 & I1). cbn [order_loop]. rewrite E1.
    destruct (Nat.ltb_spec 500 (S c)) as [G|G]; [lia|].
    destruct (IH (S c) (S m) o1 I1 ltac:(lia)) as (o2 & E2 & I2). exists o2. split; auto.
    replace (m + S j)%nat with (S m + j)%nat by lia. exact I2.
Qed.
Lemma ret_segs : forall m o, (n <= m)%nat -> Inv m o ->
  flat_map (fun k => match nth_error (o_segs o) k with Some s => [s] | None => [] end) (o_ret o) = map fw (seq 1 n).
Proof.
  intros m o G I. pose proof I as (_ & _ & _ & _ & _ & RE). rewrite RE. unfold rets.
  rewrite Nat.min_r by lia.
  assert (forall ks, flat_map (fun k => match nth_error (o_segs o) k with Some s => [s] | None => [] end) (map pos ks) = map fw ks) as H; [|apply H].
  induction ks as [|k ks IH]; [reflexivity|]. simpl. rewrite (inv_fw m o k I) by (pose proof (mod_lt' k); lia).
  rewrite IH. reflexivity.
Qed.

Lemma rotate_fw : forall t, (t < n)%nat -> map fw (seq (S t) n) = map fw (seq (S t) (n - t)) ++ map fw (seq 1 t).
Proof.
  intros t L. replace n with ((n - t) + t)%nat at 1 by lia. rewrite seq_app, map_app. f_equal.
  replace (S t + (n - t))%nat with (1 + n)%nat by lia.
  assert (forall a b, map fw (seq (a + n) b) = map fw (seq a b)) as H; [|apply H].
  intros a b. revert a. induction b as [|b IH]; intros a; [reflexivity|]. simpl. rewrite fw_per.
  f_equal. apply (IH (S a)).
Qed.

Lemma order_cycle : (length l < 250)%nat -> (n <= length l)%nat -> exists t, (t < n)%nat /\ order l = Ok (true, map fw (seq (S t) n)) /\
  forall k, order_key_ltb (fw k) (fw (S t)) = false.
Proof.
  intros NB NL. assert (exists akt l', l = akt :: l') as (akt & l' & EL) by (destruct l as [|akt l']; [congruence|eauto]).
  assert (EO : order l = (r <- order_loop (2 * length l + 1) 0 (mko l 0 (sj akt) []) ;;
    match r with
    | inr segs => Ok (false, segs)
    | inl o =>
      let ret := flat_map (fun k => match nth_error (o_segs o) k with Some s => [s] | None => [] end) (o_ret o) in
      match sort_by order_key_ltb ret with
      | [] => Err IndexError
      | first :: _ => Ok (true, rotate_to (length ret) first ret)
      end
    end)) by (rewrite EL; reflexivity).
  rewrite EO. clear EO. cbv zeta.
  destruct (loop_ok (2 * length l + 1) 0 0 _ inv0 ltac:(lia)) as (o & E & I).
  replace (sj akt) with (sj (nth 0 l s0)) by (rewrite EL; reflexivity). rewrite E. cbn [bind].
  rewrite (ret_segs (0 + (2 * length l + 1)) o ltac:(lia) I).
  pose proof (sort_by_perm _ order_key_ltb (map fw (seq 1 n))) as P.
  destruct (sort_by order_key_ltb (map fw (seq 1 n))) as [|f r] eqn:ES.
  { apply Permutation_length in P. rewrite map_length, seq_length in P. simpl in P. lia. }
  assert (IF : In f (map fw (seq 1 n))) by (eapply Permutation_in; [exact P|left; reflexivity]).
  apply in_map_iff in IF. destruct IF as (k & Ef & IK). apply in_seq in IK.
  exists (k - 1)%nat. split; [lia|]. replace (S (k - 1)) with k by lia. split.
  - do 2 f_equal. rewrite map_length, seq_length.
    assert (Nk : forall j, (1 <= j <= n)%nat -> j <> k -> seg_eqb (fw j) f = false).
    { intros j J Nj. rewrite <- Ef. apply eqb_fw_fw. intros M.
      destruct (Nat.eq_dec j n) as [->|]; destruct (Nat.eq_dec k n) as [->|]; try lia;
      rewrite ?Nat.mod_same in M by lia; rewrite ?mod_small' in M by lia; lia. }
    assert (FF : seg_eqb f f = true) by (rewrite <- Ef; apply eqb_fw_refl; reflexivity).
    destruct (Nat.eq_dec k 1) as [->|K1].
    + destruct n as [|n']; [lia|]. simpl. rewrite Ef, FF. reflexivity.
    + replace (seq 1 n) with (1%nat :: seq 2 (k - 2) ++ k :: seq (S k) (n - k)).
      2:{ replace n with (1 + ((k - 2) + S (n - k)))%nat at 2 by lia. rewrite (seq_app 1). simpl. f_equal.
          rewrite seq_app. f_equal. replace (2 + (k - 2))%nat with k by lia. reflexivity. }
      simpl map at 1. rewrite map_app. simpl map at 2. rewrite Ef, rotate_to_spec; auto.
      * pose proof (rotate_fw (k - 1) ltac:(lia)) as R. replace (S (k - 1)) with k in R by lia. rewrite R.
        replace (n - (k - 1))%nat with (S (n - k)) by lia. simpl. rewrite Ef. f_equal. f_equal.
        replace (k - 1)%nat with (S (k - 2)) by lia. reflexivity.
      * apply Nk; lia.
      * intros y Iy. apply in_map_iff in Iy. destruct Iy as (j & <- & J). apply in_seq in J. apply Nk; lia.
      * rewrite map_length, seq_length. lia.
  - intros j. rewrite Ef. eapply (sort_by_head _ order_key_ltb order_key_nt order_key_as _ _ _ ES).
    rewrite <- (per_mod _ _ fw_per j). destruct (Nat.eq_dec (j mod n) 0) as [Z|Z].
    + rewrite Z. rewrite <- (fw_per 0). apply in_map. apply in_seq. simpl. lia.
    + apply in_map. apply in_seq. pose proof (mod_lt' j). lia.
Qed.

End Cyc.

(** * The positions of the segments with an end at p *)
Definition touchb (p : pt RA) (s : seg RA) : bool := pt_sameb p (si s) || pt_sameb p (sj s).
Lemma touchb_iff : forall p s, touchb p s = true <-> In p (ij s).
Proof.
  intros p s. unfold touchb. rewrite orb_true_iff, !pt_sameb_iff. unfold ij. simpl. split.
  - intros [-> | ->]; auto.
  - intros [<-|[<-|[]]]; auto.
Qed.
Fixpoint inc (p : pt RA) (l : list (seg RA)) : list nat :=
  match l with
  | [] => []
  | s :: r => (if touchb p s then [0%nat] else []) ++ map S (inc p r)
  end.
Lemma inc_iff : forall p l j, In j (inc p l) <-> exists s, nth_error l j = Some s /\ In p (ij s).
Proof.
  intros p. induction l as [|s l IH]; intros j; simpl.
  - split; [intros []|]. intros (s & E & _). destruct j; discriminate.
  - rewrite in_app_iff, in_map_iff. split.
    + intros [I|(k & <- & I)].
      * destruct (touchb p s) eqn:T; [|destruct I]. destruct I as [<-|[]]. exists s. split; auto. apply touchb_iff; auto.
      * apply IH in I. exact I.
    + intros (t & E & I). destruct j as [|j].
      * left. simpl in E. injection E as ->. apply touchb_iff in I. rewrite I. left; auto.
      * right. exists j. split; auto. apply IH. exists t. auto.
Qed.
Lemma inc_NoDup : forall p l, NoDup (inc p l).
Proof.
  intros p. induction l as [|s l IH]; simpl; [constructor|].
  assert (N : NoDup (map S (inc p l))) by (apply FinFun.Injective_map_NoDup; auto; intros a b H; congruence).
  destruct (touchb p s); simpl; auto. constructor; auto. intros I. apply in_map_iff in I as (k & E & _). discriminate.
Qed.
Definition count (p : pt RA) (l : list (seg RA)) : nat := length (filter (pt_sameb p) (flat_map ij l)).
Lemma inc_length : forall p l, (forall s, In s l -> si s <> sj s) -> length (inc p l) = count p l.
Proof.
  intros p. unfold count. induction l as [|s l IH]; intros ND; [reflexivity|].
  cbn [inc flat_map]. rewrite app_length, map_length, filter_app, app_length, IH by (intros; apply ND; right; auto).
  f_equal. unfold touchb, ij. simpl. specialize (ND s (or_introl eq_refl)).
  destruct (pt_sameb p (si s)) eqn:E1, (pt_sameb p (sj s)) eqn:E2; simpl; auto.
  apply pt_sameb_iff in E1, E2. congruence.
Qed.

(** Every end point occurs exactly twice; no segment without length, no two segments with the same ends. *)
Definition ends_apart (l : list (seg RA)) : Prop :=
  (forall s, In s l -> si s <> sj s) /\
  (forall i j s t, nth_error l i = Some s -> nth_error l j = Some t ->
     (si s = si t /\ sj s = sj t) \/ (si s = sj t /\ sj s = si t) -> i = j).

Lemma twice_iff : forall l : list (seg RA), twice l = true <-> forall p, In p (flat_map ij l) -> count p l = 2%nat.
Proof.
  intros l. unfold twice, count. rewrite forallb_forall. split; intros H p I; specialize (H p I).
  - apply Nat.eqb_eq in H. exact H.
  - apply Nat.eqb_eq. exact H.
Qed.

(** * Following the segments *)
Section Orbit.
Variable l : list (seg RA).
Variable s0 : seg RA.
Hypothesis EA : ends_apart l.
Hypothesis TW : forall p, In p (flat_map ij l) -> count p l = 2%nat.

Definition opp (s : seg RA) (p : pt RA) : pt RA := if pt_sameb p (si s) then sj s else si s.
Lemma opp_in : forall s p, In (opp s p) (ij s).
Proof. intros s p. unfold opp, ij. destruct (pt_sameb _ _); simpl; auto. Qed.
Lemma opp_ne : forall s p, si s <> sj s -> In p (ij s) -> opp s p <> p.
Proof.
  intros s p N I. unfold opp. destruct (pt_sameb p (si s)) eqn:E.
  - apply pt_sameb_iff in E. congruence.
  - apply pt_sameb_false in E. congruence.
Qed.
Lemma opp_opp : forall s p, si s <> sj s -> In p (ij s) -> opp s (opp s p) = p.
Proof.
  intros s p N I. unfold ij in I. destruct I as [<-|[<-|[]]]; unfold opp.
  - rewrite pt_sameb_refl. destruct (pt_sameb (sj s) (si s)) eqn:E; auto. apply pt_sameb_iff in E. congruence.
  - destruct (pt_sameb (sj s) (si s)) eqn:E; [apply pt_sameb_iff in E; congruence|]. rewrite pt_sameb_refl. auto.
Qed.
Lemma two_ends : forall s p q, si s <> sj s -> In p (ij s) -> In q (ij s) -> q = p \/ q = opp s p.
Proof.
  intros s p q N Ip Iq. unfold opp. destruct (pt_sameb p (si s)) eqn:E.
  - apply pt_sameb_iff in E. destruct Iq as [<-|[<-|[]]]; auto.
  - apply pt_sameb_false in E. destruct Ip as [K|[K|[]]]; [congruence|]. destruct Iq as [<-|[<-|[]]]; auto.
Qed.

(** a position and the end point we walk to *)
Definition ok (x : nat * pt RA) : Prop := exists s, nth_error l (fst x) = Some s /\ In (snd x) (ij s).
Definition at_ (j : nat) : seg RA := nth j l s0.
Lemma ok_at : forall x, ok x -> (fst x < length l)%nat /\ In (snd x) (ij (at_ (fst x))) /\ si (at_ (fst x)) <> sj (at_ (fst x)) /\ In (at_ (fst x)) l.
Proof.
  intros x (s & E & I). unfold at_. rewrite (nth_error_nth _ _ s0 E).
  assert (IN : In s l) by (eapply nth_error_In; eauto). split; [apply nth_error_Some; congruence|]. split; auto. split; auto. apply EA; auto.
Qed.
Lemma ok_intro : forall j p, (j < length l)%nat -> In p (ij (at_ j)) -> ok (j, p).
Proof. intros j p L I. exists (at_ j). split; auto. apply nth_error_nth'; auto. Qed.

Definition across (p : pt RA) (j : nat) : nat :=
  match inc p l with [a; b] => if Nat.eqb a j then b else a | _ => j end.
Lemma inc2 : forall x, ok x -> exists b, b <> fst x /\ In b (inc (snd x) l) /\ across (snd x) (fst x) = b /\ across (snd x) b = fst x /\
  (forall c, In c (inc (snd x) l) -> c = fst x \/ c = b).
Proof.
  intros [j p] OK. simpl. destruct OK as (s & E & I). simpl in E, I.
  assert (IL : In p (flat_map ij l)) by (apply in_flat_map; exists s; split; auto; eapply nth_error_In; eauto).
  pose proof (TW p IL) as T. rewrite <- inc_length in T by apply EA.
  pose proof (inc_NoDup p l) as ND.
  assert (J : In j (inc p l)) by (apply inc_iff; eauto).
  unfold across. destruct (inc p l) as [|a [|b [|c r]]]; simpl in T; try lia.
  inversion ND as [|a' l' N1 N2]; subst. assert (AB : a <> b) by (intros ->; apply N1; left; auto).
  destruct J as [-> | [-> | []]].
  - exists b. rewrite Nat.eqb_refl. assert (Nat.eqb j b = false) as -> by (apply Nat.eqb_neq; auto).
    split; [congruence|]. split; [simpl; auto|]. split; auto. split; auto. intros c [<-|[<-|[]]]; auto.
  - exists a. assert (Nat.eqb a j = false) as -> by (apply Nat.eqb_neq; auto). rewrite Nat.eqb_refl.
    split; [congruence|]. split; [simpl; auto|]. split; auto. split; auto. intros c [<-|[<-|[]]]; auto.
Qed.

Definition step (x : nat * pt RA) : nat * pt RA :=
  let j := across (snd x) (fst x) in (j, opp (at_ j) (snd x)).
Definition flip (x : nat * pt RA) : nat * pt RA := (fst x, opp (at_ (fst x)) (snd x)).

Lemma across_ok : forall x, ok x -> ok (across (snd x) (fst x), snd x).
Proof.
  intros x OK. destruct (inc2 x OK) as (b & _ & B & -> & _). apply inc_iff in B as (s & E & I). exists s. auto.
Qed.
Lemma flip_ok : forall x, ok x -> ok (flip x).
Proof. intros x OK. destruct (ok_at x OK) as (L & _). apply ok_intro; auto. apply opp_in. Qed.
Lemma step_flip : forall x, step x = flip (across (snd x) (fst x), snd x).
Proof. reflexivity. Qed.
Lemma step_ok : forall x, ok x -> ok (step x).
Proof. intros x OK. rewrite step_flip. apply flip_ok, across_ok; auto. Qed.
Lemma flip_flip : forall x, ok x -> flip (flip x) = x.
Proof.
  intros x OK. destruct (ok_at x OK) as (_ & I & N & _). unfold flip. simpl. rewrite opp_opp by auto. destruct x; reflexivity.
Qed.
Lemma flip_ne : forall x, ok x -> flip x <> x.
Proof.
  intros x OK E. destruct (ok_at x OK) as (_ & I & N & _). apply (opp_ne _ _ N I).
  apply (f_equal snd) in E. exact E.
Qed.
Lemma step_pos : forall x, ok x -> fst (step x) <> fst x.
Proof. intros x OK. destruct (inc2 x OK) as (b & N & _ & E & _). unfold step. simpl. rewrite E. exact N. Qed.
(** walking back *)
Lemma step_back : forall x, ok x -> step (flip (step x)) = flip x.
Proof.
  intros x OK. rewrite (step_flip x), flip_flip by (apply across_ok; auto).
  destruct (inc2 x OK) as (b & N & B & E1 & E2 & _). unfold step. simpl. rewrite E1, E2. reflexivity.
Qed.
Lemma step_inj : forall x y, ok x -> ok y -> step x = step y -> x = y.
Proof.
  intros x y X Y E. apply (f_equal flip) in E. apply (f_equal step) in E. rewrite !step_back in E by auto.
  apply (f_equal flip) in E. rewrite !flip_flip in E by auto. exact E.
Qed.

Variable x0 : nat * pt RA.
Hypothesis X0 : ok x0.
Definition orb (k : nat) : nat * pt RA := Nat.iter k step x0.
Lemma orb_ok : forall k, ok (orb k).
Proof. induction k as [|k IH]; [exact X0|]. apply step_ok. exact IH. Qed.
Lemma orb_S : forall k, orb (S k) = step (orb k).
Proof. reflexivity. Qed.
Lemma orb_back : forall c a b, orb (a + c) = orb (b + c) -> orb a = orb b.
Proof.
  induction c as [|c IH]; intros a b E; [rewrite !Nat.add_0_r in E; exact E|].
  rewrite !Nat.add_succ_r, !orb_S in E. apply IH. apply step_inj; auto using orb_ok.
Qed.

Definition pair_dec (x y : nat * pt RA) : {x = y} + {x <> y}.
Proof. decide equality; [apply pt_dec|apply Nat.eq_dec]. Defined.

Lemma period : exists n, (0 < n <= 2 * length l)%nat /\ orb n = orb 0 /\ forall m, (0 < m < n)%nat -> orb m <> orb 0.
Proof.
  assert (EX : exists n, (0 < n <= 2 * length l)%nat /\ orb n = orb 0).
  { apply NNPP. intros NX.
    assert (ND : NoDup (map orb (seq 0 (S (2 * length l))))).
    { apply NoDup_map_in; [|apply seq_NoDup]. intros a b Ia Ib E. apply in_seq in Ia, Ib.
      destruct (Nat.lt_trichotomy a b) as [L|[L|L]]; auto; exfalso; apply NX.
      - exists (b - a)%nat. split; [lia|]. apply (orb_back a). rewrite Nat.sub_add by lia. symmetry. exact E.
      - exists (a - b)%nat. split; [lia|]. apply (orb_back b). rewrite Nat.sub_add by lia. exact E. }
    set (all := flat_map (fun j => [(j, si (at_ j)); (j, sj (at_ j))]) (seq 0 (length l))).
    assert (LA : forall m k, length (flat_map (fun j => [(j, si (at_ j)); (j, sj (at_ j))]) (seq k m)) = (2 * m)%nat).
    { induction m as [|m IH]; intros k; [reflexivity|]. cbn [seq flat_map app length]. rewrite IH. lia. }
    assert (L : (length (map orb (seq 0 (S (2 * length l)))) <= length all)%nat).
    { apply NoDup_incl_length; auto. intros x I. apply in_map_iff in I as (k & <- & _).
      destruct (ok_at _ (orb_ok k)) as (L & I & _). apply in_flat_map. exists (fst (orb k)). split; [apply in_seq; lia|].
      destruct (orb k) as [j p]. simpl in *. destruct I as [<-|[<-|[]]]; auto. }
    unfold all in L. rewrite LA, map_length, seq_length in L. lia. }
  destruct EX as (n & Ln & En). revert Ln En. induction n as [n IH] using lt_wf_ind. intros Ln En.
  destruct (classic (exists m, (0 < m < n)%nat /\ orb m = orb 0)) as [(m & Lm & Em)|NX].
  - apply (IH m); auto; lia.
  - exists n. split; auto. split; auto. intros m Lm Em. apply NX. eauto.
Qed.

(** a walk never comes back along a segment *)
Lemma no_return : forall q i, flip (orb i) <> orb (i + q).
Proof.
  induction q as [q IH] using lt_wf_ind. intros i E. destruct q as [|[|q]].
  - rewrite Nat.add_0_r in E. apply (flip_ne _ (orb_ok i)). exact E.
  - rewrite Nat.add_1_r, orb_S in E. apply (step_pos _ (orb_ok i)). rewrite <- E. reflexivity.
  - replace (i + S (S q))%nat with (S (S i + q)) in E by lia. rewrite orb_S in E.
    rewrite <- (step_back _ (orb_ok i)), <- orb_S in E. apply step_inj in E; auto using orb_ok, flip_ok.
    apply (IH q ltac:(lia) (S i)). exact E.
Qed.

Section Period.
Variable n : nat.
Hypothesis n0 : (0 < n)%nat.
Hypothesis per : orb n = orb 0.
Hypothesis least : forall m, (0 < m < n)%nat -> orb m <> orb 0.

Lemma orb_per : forall k, orb (k + n) = orb k.
Proof. induction k as [|k IH]; [exact per|]. simpl. f_equal. exact IH. Qed.
Lemma orb_mod : forall k, orb (k mod n) = orb k.
Proof.
  intros k. rewrite (Nat.div_mod k n) at 2 by lia. generalize (k / n)%nat as q. induction q as [|q IH].
  - rewrite Nat.mul_0_r. reflexivity.
  - replace (n * S q + k mod n)%nat with ((n * q + k mod n) + n)%nat by lia. rewrite orb_per. exact IH.
Qed.
Lemma orb_eq : forall i j, orb i = orb j <-> (i mod n = j mod n)%nat.
Proof.
  intros i j. split; [|intros E; rewrite <- (orb_mod i), <- (orb_mod j), E; reflexivity].
  rewrite <- (orb_mod i), <- (orb_mod j). intros E.
  assert (A : (i mod n < n)%nat) by (apply Nat.mod_upper_bound; lia). assert (B : (j mod n < n)%nat) by (apply Nat.mod_upper_bound; lia).
  set (a := (i mod n)%nat) in *. set (b := (j mod n)%nat) in *. clearbody a b.
  destruct (Nat.lt_trichotomy a b) as [L|[L|L]]; auto; exfalso.
  - apply (least (b - a) ltac:(lia)). apply (orb_back a). rewrite Nat.sub_add by lia. symmetry. exact E.
  - apply (least (a - b) ltac:(lia)). apply (orb_back b). rewrite Nat.sub_add by lia. exact E.
Qed.
Lemma never_flip : forall i j, flip (orb i) <> orb j.
Proof.
  intros i j E. apply (no_return (j + n * i - i) i). replace (i + (j + n * i - i))%nat with (j + n * i)%nat by nia.
  rewrite E. apply orb_eq. rewrite (Nat.mul_comm n), Nat.mod_add by lia. reflexivity.
Qed.

Definition tail (k : nat) : pt RA := snd (flip (orb k)).
Definition place (k : nat) : nat := fst (orb k).
Lemma tail_S : forall k, tail (S k) = snd (orb k).
Proof.
  intros k. unfold tail. rewrite orb_S, step_flip, flip_flip by (apply across_ok, orb_ok). reflexivity.
Qed.
Lemma place_eq : forall i j, place i = place j -> (i mod n = j mod n)%nat.
Proof.
  intros i j E. apply orb_eq. unfold place in E.
  destruct (ok_at _ (orb_ok i)) as (_ & Ii & N & _). destruct (ok_at _ (orb_ok j)) as (_ & Ij & _). rewrite E in Ii, N.
  destruct (two_ends _ _ _ N Ij Ii) as [K|K].
  - destruct (orb i), (orb j). simpl in *. congruence.
  - exfalso. apply (never_flip j i). unfold flip. rewrite <- K, <- E. destruct (orb i); reflexivity.
Qed.
Lemma tail_eq : forall i j, tail i = tail j <-> (i mod n = j mod n)%nat.
Proof.
  intros i j. split; [|intros E; unfold tail; apply orb_eq in E; rewrite E; reflexivity]. intros E.
  destruct (Nat.eq_dec (place i) (place j)) as [P|P]; [apply place_eq; auto|]. exfalso.
  pose proof (flip_ok _ (orb_ok i)) as Oi. pose proof (flip_ok _ (orb_ok j)) as Oj.
  destruct (inc2 _ Oi) as (b & Nb & _ & E1 & _ & U). unfold tail in E.
  assert (Pj : In (fst (flip (orb j))) (inc (snd (flip (orb i))) l)).
  { rewrite E. apply inc_iff. destruct Oj as (s & K & I). exists s. auto. }
  destruct (U _ Pj) as [K|K]; [apply P; symmetry; exact K|].
  (* orb j leaves tail i along the other segment: it is the step from flip (orb i) *)
  assert (ST : step (flip (orb i)) = orb j).
  { rewrite step_flip, E1, <- K, E. transitivity (flip (flip (orb j))); [|apply flip_flip, orb_ok].
    reflexivity. }
  apply (never_flip i (j + n - 1)%nat). apply step_inj; auto using orb_ok.
  rewrite ST, <- orb_S. replace (S (j + n - 1)) with (j + n)%nat by lia. rewrite orb_per. reflexivity.
Qed.
Lemma place_joins : forall k, joins (tail k, tail (S k)) (nth (place k) l s0).
Proof.
  intros k. rewrite tail_S. destruct (ok_at _ (orb_ok k)) as (_ & I & N & _). unfold tail, place, flip. simpl.
  fold (at_ (fst (orb k))). set (s := at_ (fst (orb k))) in *. set (p := snd (orb k)) in *. unfold joins, opp. simpl.
  destruct (pt_sameb p (si s)) eqn:E.
  - apply pt_sameb_iff in E. right. auto.
  - apply pt_sameb_false in E. left. destruct I as [I|[I|[]]]; [congruence|]. auto.
Qed.
Lemma tail_touch : forall k j s, nth_error l j = Some s -> In (tail (S k)) (ij s) -> j = place k \/ j = place (S k).
Proof.
  intros k j s E I. rewrite tail_S in I. destruct (inc2 _ (orb_ok k)) as (b & _ & _ & E1 & _ & U).
  destruct (U j) as [K|K]; [apply inc_iff; eauto|left; exact K|right].
  unfold place. rewrite orb_S. unfold step. simpl. rewrite E1. exact K.
Qed.
Lemma n_big : (3 <= n)%nat.
Proof.
  assert (P01 : place 1 <> place 0) by (apply (step_pos _ (orb_ok 0))).
  destruct n as [|[|[|m]]]; try lia; exfalso.
  - apply P01. unfold place. rewrite per. reflexivity.
  - assert (T : tail 2 = tail 0) by (unfold tail; rewrite per; reflexivity).
    pose proof (place_joins 0) as J0. pose proof (place_joins 1) as J1. rewrite T in J1.
    apply P01. destruct EA as [_ U].
    destruct (ok_at _ (orb_ok 0)) as (L0 & _). destruct (ok_at _ (orb_ok 1)) as (L1 & _).
    apply (U _ _ _ _ (nth_error_nth' l s0 L1) (nth_error_nth' l s0 L0)).
    unfold joins in J0, J1; cbn [fst snd] in J0, J1; unfold place in *.
    destruct J0 as [[A B]|[A B]], J1 as [[C D]|[C D]]; [right|left|left|right]; split; congruence.
Qed.
End Period.
End Orbit.

Lemma seq_cycle : forall X (f : nat -> X) n k, (0 < n)%nat -> f (k + n)%nat = f k ->
  map (fun x => (f x, f (S x))) (seq k n) = cycle_edges (map f (seq k n)).
Proof.
  intros X f n k N P. destruct n as [|m]; [lia|].
  change (map f (seq k (S m))) with (f k :: map f (seq (S k) m)). rewrite cycle_edges_pairs.
  replace (f k :: map f (seq (S k) m) ++ [f k]) with (map f (seq k (S (S m)))).
  - generalize (S m) as b. clear. intros b. revert k. induction b as [|b IH]; intros a; [reflexivity|].
    change (seq a (S b)) with (a :: seq (S a) b). change (seq a (S (S b))) with (a :: S a :: seq (S (S a)) b).
    rewrite map_cons, IH. reflexivity.
  - rewrite seq_S, map_app. cbn [seq map app]. rewrite P. reflexivity.
Qed.

Lemma mod_neN : forall n, (3 <= n)%nat -> forall a c, (0 < c < n)%nat -> ((a + c) mod n <> a mod n)%nat.
Proof.
  intros n n3 a c L H. replace (a + c)%nat with (c + a)%nat in H by lia. change a with (0 + a)%nat in H at 2.
  apply (mod_cancelN n n3) in H. rewrite Nat.mod_0_l, Nat.mod_small in H by lia. lia.
Qed.

(** order() picks the cycle of the first segment. *)
Lemma component_order : forall l : list (seg RA), separated (flat_map ij l) -> ends_apart l -> twice l = true -> l <> [] -> (length l < 250)%nat ->
  exists us r, order l = Ok (true, r) /\ (3 <= length us)%nat /\ NoDup us /\ incl us (flat_map ij l) /\
    map (fun s => (si s, sj s)) r = cycle_edges us /\ (forall s, nth_error l 0 = Some s -> In s r).
Proof.
  intros l SEP EA TW NE NB. pose proof (proj1 (twice_iff l) TW) as TW'.
  destruct l as [|s0 l'] eqn:EL; [congruence|]. rewrite <- EL in *.
  assert (X0 : ok l (0%nat, sj s0)) by (exists s0; rewrite EL; split; [reflexivity|simpl; auto]).
  destruct (period l s0 EA TW' _ X0) as (n & [N0 _] & PE & LE).
  pose proof (n_big l s0 EA TW' _ X0 n N0 PE LE) as N3.
  set (wv := tail l s0 (0%nat, sj s0)). set (pos := place l s0 (0%nat, sj s0)).
  assert (WE : forall i j, wv i = wv j <-> (i mod n = j mod n)%nat) by (apply (tail_eq l s0 EA TW' _ X0 n N0 PE LE)).
  assert (PI : forall i j, pos i = pos j -> (i mod n = j mod n)%nat) by (apply (place_eq l s0 EA TW' _ X0 n N0 PE LE)).
  assert (WP : forall k, wv (k + n)%nat = wv k).
  { intros k. apply WE. rewrite <- (Nat.mul_1_l n) at 1. apply Nat.mod_add; lia. }
  assert (PP : forall k, pos (k + n)%nat = pos k).
  { intros k. unfold pos, place. rewrite (orb_per l s0 _ n PE). reflexivity. }
  assert (JO : forall k, joins (wv k, wv (S k)) (nth (pos k) l s0)) by (apply (place_joins l s0 EA TW' _ X0)).
  assert (PB : forall k, (pos k < length l)%nat) by (intros k; apply (ok_at l s0 EA _ (orb_ok l s0 EA TW' _ X0 k))).
  assert (WI : forall k, In (wv k) (flat_map ij l)).
  { intros k. apply in_flat_map. exists (nth (pos k) l s0). split; [apply nth_In; auto|].
    destruct (JO k) as [[A B]|[A B]]; unfold ij; rewrite A, B; simpl; auto. }
  assert (SE : forall i j, pt_eqb (wv i) (wv j) = true <-> (i mod n = j mod n)%nat).
  { intros i j. rewrite <- WE. split; [apply separated_eqb with (flat_map ij l); auto|intros ->; apply pt_eqb_refl]. }
  assert (OT : forall j x, nth_error l j = Some x -> (exists k, (k < n)%nat /\ pos k = j) \/ (forall k, pt_eqb (si x) (wv k) = false /\ pt_eqb (sj x) (wv k) = false)).
  { intros j x E. destruct (classic (exists k, In (wv (S k)) (ij x))) as [(k & I)|NX].
    - left. destruct (tail_touch l s0 EA TW' _ X0 k j x E I) as [K|K]; [exists (k mod n)%nat|exists (S k mod n)%nat];
        (split; [apply Nat.mod_upper_bound; lia|]); unfold pos, place; rewrite (orb_mod l s0 _ n N0 PE); symmetry; exact K.
    - right. assert (NW : forall k, ~ In (wv k) (ij x)).
      { intros k I. apply NX. exists (k + n - 1)%nat. replace (S (k + n - 1)) with (k + n)%nat by lia. rewrite WP. exact I. }
      assert (IX : forall p, In p (ij x) -> In p (flat_map ij l)) by (intros p I; apply in_flat_map; exists x; split; auto; eapply nth_error_In; eauto).
      assert (G : forall p k, In p (ij x) -> pt_eqb p (wv k) = false).
      { intros p k I. apply not_true_iff_false. intros Q. apply (separated_eqb _ SEP) in Q; auto. subst p. apply (NW k); auto. }
      intros k. split; apply G; simpl; auto. }
  assert (P0 : pos 0%nat = 0%nat) by reflexivity.
  assert (H0 : nth 0 l s0 = s0) by (rewrite EL; reflexivity).
  assert (D0 : si (nth 0 l s0) = wv 0%nat /\ sj (nth 0 l s0) = wv 1%nat).
  { assert (W1 : wv 1%nat = sj s0) by (apply (tail_S l s0 EA TW' _ X0 0)).
    pose proof (JO 0%nat) as J. rewrite P0, H0, W1 in J. rewrite H0. split; [|auto].
    destruct J as [[A _]|[A B]]; simpl in A; auto. exfalso.
    destruct EA as [ND _]. apply (ND s0); [rewrite EL; left; auto|exact A]. }
  assert (NL : (n <= length l)%nat).
  { rewrite <- (seq_length n 0), <- (map_length pos), <- (seq_length (length l) 0). apply NoDup_incl_length.
    - apply NoDup_map_in; [|apply seq_NoDup]. intros i j Ii Ij E. apply in_seq in Ii, Ij. apply PI in E. rewrite !Nat.mod_small in E by lia. exact E.
    - intros j I. apply in_map_iff in I as (k & <- & _). apply in_seq. specialize (PB k). lia. }
  destruct (order_cycle n wv pos l s0 N3 NE WP PP SE PB PI OT JO P0 D0 NB NL) as (t & T & EO & _).
  exists (map wv (seq (S t) n)), (map (fw wv pos l s0) (seq (S t) n)). split; [exact EO|].
  split; [rewrite map_length, seq_length; exact N3|]. split; [|split; [|split]].
  - assert (RT : forall k, NoDup (map wv (seq k n))).
    { intros k. apply NoDup_map_in; [|apply seq_NoDup]. intros i j Ii Ij E. apply in_seq in Ii, Ij. apply WE in E.
      assert (forall a b, (a < b < a + n)%nat -> (a mod n <> b mod n)%nat) as D.
      { intros a b L Q. apply (mod_neN n N3 a (b - a)); [lia|]. rewrite Q. f_equal. lia. }
      destruct (Nat.lt_trichotomy i j) as [L|[L|L]]; auto; exfalso.
      - apply (D i j); [lia|auto].
      - apply (D j i); [lia|auto]. }
    apply RT.
  - intros v I. apply in_map_iff in I as (k & <- & _). apply WI.
  - rewrite map_map. cbn [fw si sj]. apply (seq_cycle _ wv); [lia|apply WP].
  - intros s E. rewrite EL in E. injection E as <-. apply in_map_iff. exists n. split; [|apply in_seq; lia].
    unfold fw. rewrite (PP 0%nat : pos n = pos 0%nat), P0, H0, (WP 0%nat : wv n = wv 0%nat), (WP 1%nat : wv (S n) = wv 1%nat).
    destruct D0 as [<- <-]. rewrite H0. destruct s0; reflexivity.
Qed.
