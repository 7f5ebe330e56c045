(** disjunct_cycles (C48) and overlaps_in_cycles (C49). *)
From Coq Require Import ZArith Lia Bool List Permutation Arith.
From Verif Require Import Base Arith ArithR ArithF MPoint MLine MPoly MCycles SpecCycles.
Import ListNotations.

(** * C48 *)

Lemma disjunct_row_nil : forall P (eqb : P -> P -> bool) H pe zs k acc, snd (disjunct_row eqb H k pe zs acc) = acc.
Proof.
  induction zs as [|z zs IH]; intros k acc; [reflexivity|]. cbn [disjunct_row].
  destruct (common eqb H k pe (snd z)) as [k' i]. apply IH.
Qed.

(*@ C48_always_empty *)
(** C48: every cycle is listed, each with the empty list, whatever the cycles and the hashes are. *)
Lemma disjunct_empty : forall (P : Type) (eqb : P -> P -> bool) (H : hashing P) (cycles : list (nat * list P)),
  disjunct_cycles eqb H cycles = map (fun c => (fst c, [])) cycles.
Proof.
  intros P eqb H cycles. unfold disjunct_cycles. generalize 0%nat. generalize cycles at 2 3.
  induction cycles0 as [|[e pe] es IH]; intros k; [reflexivity|]. cbn [disjunct_rows map fst].
  pose proof (disjunct_row_nil P eqb H pe (others cycles e) k []) as N.
  destruct (disjunct_row eqb H k pe (others cycles e) []) as [k' row]. cbn in N. subst. f_equal. apply IH.
Qed.

(*@ C48_disjunct_refuted *)
(** C48, finding (binary64): two cycles without a common part are not reported. *)
Lemma disjunct_missed : forall (L : Libm) (H : hashing (list (seg (FA L)))),
  let s a b c d := LineSegment (Point_new (nofZ a) (nofZ b)) (Point_new (nofZ c) (nofZ d)) : seg (FA L) in
  let p := [s 0 0 4 0; s 4 0 4 4; s 4 4 0 0]%Z in
  let q := [s 10 0 14 0; s 14 0 14 4; s 14 4 10 0]%Z in
  segments_in_cycles [p; q] [(0, p); (1, q)]%nat = [(0, [p]); (1, [q])]%nat /\
  (forall x y, In x p -> In y q -> seg_eqb x y = false) /\
  disjunct_cycles poly_eqb H (segments_in_cycles [p; q] [(0, p); (1, q)]%nat) = [(0, []); (1, [])]%nat.
Proof.
  intros L H s p q.
  assert (A : segments_in_cycles [p; q] [(0, p); (1, q)]%nat = [(0, [p]); (1, [q])]%nat).
  { unfold segments_in_cycles. cbn [map filter].
    assert (B1 : loose_subset p p || existsb (fun y => memb seg_eqb y p) p = true) by (vm_compute; reflexivity).
    assert (B2 : loose_subset p q || existsb (fun y => memb seg_eqb y q) p = false) by (vm_compute; reflexivity).
    assert (B3 : loose_subset q p || existsb (fun y => memb seg_eqb y p) q = false) by (vm_compute; reflexivity).
    assert (B4 : loose_subset q q || existsb (fun y => memb seg_eqb y q) q = true) by (vm_compute; reflexivity).
    rewrite B1, B2, B3, B4. reflexivity. }
  split; [exact A|]. split.
  - assert (C : forallb (fun x => forallb (fun y => negb (seg_eqb x y)) q) p = true) by (vm_compute; reflexivity).
    intros x y Hx Hy. apply negb_true_iff. rewrite forallb_forall in C. specialize (C x Hx). rewrite forallb_forall in C. apply C, Hy.
  - rewrite A, disjunct_empty. reflexivity.
Qed.

(** * C49 *)

Section Proofs.
Context {P : Type} (eqb : P -> P -> bool) (H : hashing P).

Lemma hset_of_sub : forall xs k s y, In y (map snd (snd (hset_of eqb H k s xs))) -> In y (map snd s) \/ In y xs.
Proof.
  induction xs as [|x xs IH]; intros k s y I; [left; exact I|]. cbn [hset_of] in I. apply IH in I as [I|I]; [|right; right; exact I].
  unfold hset_add in I. destruct (hset_mem eqb _ x s); [left; exact I|]. rewrite map_app in I. apply in_app_or in I as [I|[<-|[]]]; [left; auto|right; left; reflexivity].
Qed.
Lemma mem_eq : forall h x (s : hset), hset_mem eqb h x s = true -> exists y, In y (map snd s) /\ eqb y x = true.
Proof.
  intros h x s M. apply existsb_exists in M as ([h' y] & I & E). apply andb_true_iff in E as [_ E]. exists y. split; [apply in_map_iff; exists (h', y); auto|exact E].
Qed.
Lemma inter_sound : forall xs k s acc y, In y (map snd (snd (hset_inter eqb H k s acc xs))) ->
  In y (map snd acc) \/ (In y xs /\ exists z, In z (map snd s) /\ eqb z y = true).
Proof.
  induction xs as [|x xs IH]; intros k s acc y I; [left; exact I|]. cbn [hset_inter] in I. apply IH in I as [I|(I & K)]; [|right; split; [right; exact I|exact K]].
  destruct (hset_mem eqb (hash_at H k x) x s) eqn:M; [|left; exact I].
  unfold hset_add in I. destruct (hset_mem eqb _ x acc); [left; exact I|]. rewrite map_app in I. apply in_app_or in I as [I|[<-|[]]]; [left; auto|].
  right. split; [left; reflexivity|]. eapply mem_eq; eauto.
Qed.
Lemma common_sound : lists_all H -> forall k a b k' v, common eqb H k a b = (k', v) ->
  forall x, In x v -> In x b /\ exists y, In y a /\ eqb y x = true.
Proof.
  intros LA k a b k' v E x I. unfold common in E.
  pose proof (fun y => hset_of_sub a k [] y) as HS. destruct (hset_of eqb H k [] a) as [k1 s].
  pose proof (fun y => inter_sound b k1 s [] y) as HI. destruct (hset_inter eqb H k1 s [] b) as [k2 i].
  injection E as <- <-. apply (Permutation_in _ (LA _ _)) in I. apply HI in I as [[]|(I & z & Z & EZ)].
  split; [exact I|]. exists z. split; [|exact EZ]. apply HS in Z as [[]|Z]. exact Z.
Qed.

Section Exact.
Context (DE : decides_eq eqb) (CO : consistent H).
Definition stored (s : hset) : Prop := forall h x, In (h, x) s -> h = hash_at H 0 x.
Lemma mem_exact : forall k x s, stored s -> (hset_mem eqb (hash_at H k x) x s = true <-> In x (map snd s)).
Proof.
  intros k x s ST. split.
  - intros M. apply mem_eq in M as (y & I & E). apply DE in E. subst. exact I.
  - intros I. apply in_map_iff in I as ([h y] & E & I). cbn in E. subst. apply existsb_exists. exists (h, x). split; [exact I|].
    rewrite (ST _ _ I), (CO k 0%nat x), Z.eqb_refl. cbn. apply DE. reflexivity.
Qed.
Lemma add_exact : forall k x s, stored s -> NoDup (map snd s) ->
  stored (hset_add eqb (hash_at H k x) x s) /\ NoDup (map snd (hset_add eqb (hash_at H k x) x s)) /\
  forall y, In y (map snd (hset_add eqb (hash_at H k x) x s)) <-> In y (map snd s) \/ y = x.
Proof.
  intros k x s ST ND. unfold hset_add. pose proof (mem_exact k x s ST) as M. destruct (hset_mem eqb _ x s).
  - split; [exact ST|]. split; [exact ND|]. intros y. split; [auto|]. intros [I| ->]; [exact I|]. apply M. reflexivity.
  - split; [|split].
    + intros h y I. apply in_app_or in I as [I|[E|[]]]; [apply ST, I|]. injection E as <- <-. apply CO.
    + rewrite map_app. eapply Permutation_NoDup; [apply Permutation_cons_append|]. constructor; [|exact ND]. intros I. apply M in I. discriminate.
    + intros y. rewrite map_app, in_app_iff. cbn. intuition.
Qed.
Lemma hset_of_exact : forall xs k s, stored s -> NoDup (map snd s) ->
  let s' := snd (hset_of eqb H k s xs) in stored s' /\ forall y, In y (map snd s') <-> In y (map snd s) \/ In y xs.
Proof.
  induction xs as [|x xs IH]; intros k s ST ND; cbn [hset_of].
  - split; [exact ST|]. intros y. cbn. tauto.
  - destruct (add_exact k x s ST ND) as (Q1 & Q2 & Q3). destruct (IH (S k) _ Q1 Q2) as (U1 & U2). split; [exact U1|].
    intros y. rewrite U2, Q3. cbn. intuition.
Qed.
Lemma inter_exact : forall xs k s acc, stored s -> stored acc -> NoDup (map snd acc) ->
  let r := snd (hset_inter eqb H k s acc xs) in NoDup (map snd r) /\ forall y, In y (map snd r) <-> In y (map snd acc) \/ (In y xs /\ In y (map snd s)).
Proof.
  induction xs as [|x xs IH]; intros k s acc ST SA ND; cbn [hset_inter].
  - split; [exact ND|]. intros y. cbn. tauto.
  - pose proof (mem_exact k x s ST) as M. destruct (hset_mem eqb (hash_at H k x) x s).
    + destruct (add_exact k x acc SA ND) as (Q1 & Q2 & Q3). destruct (IH (S k) s _ ST Q1 Q2) as (U1 & U2). split; [exact U1|].
      intros y. rewrite U2, Q3. cbn. assert (In x (map snd s)) by (apply M; reflexivity). intuition; subst; auto.
    + destruct (IH (S k) s _ ST SA ND) as (U1 & U2). split; [exact U1|]. intros y. rewrite U2. cbn.
      assert (~ In x (map snd s)) by (intros I; apply M in I; discriminate). intuition; subst; tauto.
Qed.
Lemma common_exact : lists_all H -> forall k a b k' v, common eqb H k a b = (k', v) ->
  NoDup v /\ forall x, In x v <-> In x a /\ In x b.
Proof.
  intros LA k a b k' v E. unfold common in E.
  destruct (hset_of_exact a k []) as (Q1 & Q2); [intros h x []|constructor|]. destruct (hset_of eqb H k [] a) as [k1 s]. cbn [snd] in *.
  destruct (inter_exact b k1 s []) as (U1 & U2); [exact Q1|intros h x []|constructor|]. destruct (hset_inter eqb H k1 s [] b) as [k2 i]. cbn [snd] in *.
  injection E as <- <-. split; [eapply Permutation_NoDup; [apply Permutation_sym, LA|exact U1]|].
  intros x. transitivity (In x (map snd i)); [split; apply Permutation_in; [apply LA|apply Permutation_sym, LA]|].
  rewrite U2, Q2. cbn. tauto.
Qed.
End Exact.

Definition ordered (e z : nat) : nat * nat := if Nat.ltb e z then (e, z) else (z, e).
Lemma pair_eqb_iff : forall a b, pair_eqb a b = true <-> a = b.
Proof. intros [a b] [c d]. unfold pair_eqb. cbn. rewrite andb_true_iff, !Nat.eqb_eq. split; [intros [-> ->]; reflexivity|intros E; injection E; auto]. Qed.
Lemma has_key_iff : forall key (d : dict (P := P)), has_key key d = true <-> In key (map fst d).
Proof.
  intros key d. unfold has_key. rewrite existsb_exists, in_map_iff. split.
  - intros (i & I & E). apply pair_eqb_iff in E. eauto.
  - intros (i & E & I). exists i. rewrite pair_eqb_iff. auto.
Qed.
Lemma dict_set_keys : forall key v (d : dict (P := P)) k, In k (map fst (dict_set key v d)) <-> k = key \/ In k (map fst d).
Proof.
  intros key v d k. unfold dict_set. destruct (has_key key d) eqn:E.
  - apply has_key_iff in E.
    assert (M : map fst (map (fun i => if pair_eqb (fst i) key then (fst i, v) else i) d) = map fst d).
    { rewrite map_map. apply map_ext. intros i. destruct (pair_eqb (fst i) key); reflexivity. }
    rewrite M. split; [auto|]. intros [->|I]; auto.
  - rewrite map_app, in_app_iff. cbn. intuition.
Qed.
Lemma dict_set_nodup : forall key v (d : dict (P := P)), NoDup (map fst d) -> NoDup (map fst (dict_set key v d)).
Proof.
  intros key v d ND. unfold dict_set. destruct (has_key key d) eqn:E.
  - replace (map fst (map _ d)) with (map fst d); [exact ND|]. rewrite map_map. apply map_ext. intros i. destruct (pair_eqb (fst i) key); reflexivity.
  - rewrite map_app. eapply Permutation_NoDup; [apply Permutation_cons_append|]. constructor; [|exact ND].
    cbn [fst]. intros I. apply (proj2 (has_key_iff _ _)) in I. congruence.
Qed.
Lemma dict_set_In : forall key v (d : dict (P := P)) k w, In (k, w) (dict_set key v d) -> (k = key /\ w = v) \/ In (k, w) d.
Proof.
  intros key v d k w. unfold dict_set. destruct (has_key key d).
  - intros I. apply in_map_iff in I as (i & E & I). destruct (pair_eqb (fst i) key) eqn:K.
    + apply pair_eqb_iff in K. injection E as <- <-. auto.
    + subst. auto.
  - intros I. apply in_app_or in I as [I|[E|[]]]; [auto|]. injection E as <- <-. auto.
Qed.

(** Every item satisfies Good, keys are distinct and increasing. *)
Context (Good : nat * nat -> list P -> Prop).
Definition okd (d : dict) : Prop :=
  NoDup (map fst d) /\ (forall a b, In (a, b) (map fst d) -> a < b) /\ forall key v, In (key, v) d -> Good key v.
Context (cycles : list (nat * list P)).
Context (step : forall e pe z pz k k' v, In (e, pe) cycles -> In (z, pz) cycles -> e <> z ->
  common eqb H k pe pz = (k', v) -> v <> [] -> Good (ordered e z) v).

Lemma row_ok : forall zs k e pe d, In (e, pe) cycles -> (forall z pz, In (z, pz) zs -> In (z, pz) cycles /\ z <> e) -> okd d ->
  let d' := snd (overlap_row eqb H k e pe zs d) in
  okd d' /\ (forall key, In key (map fst d) -> In key (map fst d')) /\
  (forall z pz, In (z, pz) zs -> (forall k k' v, common eqb H k pe pz = (k', v) -> v <> []) -> In (ordered e z) (map fst d')).
Proof.
  induction zs as [|[z pz] zs IH]; intros k e pe d IE IZ OK; cbn [overlap_row].
  - split; [exact OK|]. split; [auto|]. intros z pz [].
  - destruct (common eqb H k pe pz) as [k' v] eqn:C. destruct (IZ z pz (or_introl eq_refl)) as [IC NE].
    set (d1 := if _ && _ then _ else _).
    assert (D1 : okd d1 /\ (forall key, In key (map fst d) -> In key (map fst d1)) /\ (v <> [] -> In (ordered e z) (map fst d1))).
    { destruct OK as (O1 & O2 & O3). unfold d1. destruct v as [|x v]; cbn [negb andb].
      - split; [split; auto|]. split; [auto|]. congruence.
      - destruct (has_key (z, e) d) eqn:K; cbn [negb].
        + apply has_key_iff in K. split; [split; auto|]. split; [auto|]. intros _. specialize (O2 _ _ K). unfold ordered.
          destruct (Nat.ltb_spec e z); [lia|exact K].
        + fold (ordered e z). split; [split; [|split]|split].
          * apply dict_set_nodup, O1.
          * intros a b I. apply dict_set_keys in I as [E|I]; [|auto]. unfold ordered in E. destruct (Nat.ltb_spec e z); injection E as -> ->; lia.
          * intros key w I. apply dict_set_In in I as [[-> ->]|I]; [|auto]. eapply step; eauto. congruence.
          * intros key I. apply dict_set_keys. auto.
          * intros _. apply dict_set_keys. auto. }
    destruct D1 as (D1 & D2 & D3).
    destruct (IH k' e pe d1 IE (fun z' pz' I => IZ z' pz' (or_intror I)) D1) as (U1 & U2 & T3).
    split; [exact U1|]. split; [auto|]. intros z' pz' [E|I] N.
    + injection E as <- <-. apply U2, D3. eapply N, C.
    + eapply T3; eauto.
Qed.

Lemma rows_ok : forall es k d, (forall e pe, In (e, pe) es -> In (e, pe) cycles) -> okd d ->
  let d' := overlap_rows eqb H k cycles es d in
  okd d' /\ (forall key, In key (map fst d) -> In key (map fst d')) /\
  (forall e pe z pz, In (e, pe) es -> In (z, pz) cycles -> e <> z -> (forall k k' v, common eqb H k pe pz = (k', v) -> v <> []) -> In (ordered e z) (map fst d')).
Proof.
  induction es as [|[e pe] es IH]; intros k d IE OK; cbn [overlap_rows].
  - split; [exact OK|]. split; [auto|]. intros e pe z pz [].
  - assert (IZ : forall z pz, In (z, pz) (others cycles e) <-> In (z, pz) cycles /\ z <> e).
    { intros z pz. unfold others. rewrite filter_In. cbn. rewrite negb_true_iff, Nat.eqb_neq. reflexivity. }
    destruct (row_ok (others cycles e) k e pe d (IE _ _ (or_introl eq_refl)) (fun z pz => proj1 (IZ z pz)) OK) as (R1 & R2 & R3).
    destruct (overlap_row eqb H k e pe (others cycles e) d) as [k' d1]. cbn [snd] in *.
    destruct (IH k' d1 (fun e' pe' I => IE e' pe' (or_intror I)) R1) as (U1 & U2 & T3).
    split; [exact U1|]. split; [auto|]. intros e' pe' z pz [E|I] Iz NE N.
    + injection E as <- <-. apply U2. eapply R3; [apply IZ; split; [exact Iz|congruence]|exact N].
    + eapply T3; eauto.
Qed.
End Proofs.

(*@ C49_sound *)
(** C49: whatever the hashes: the keys are different pairs (a, b) of cycles with a < b, the values are not
    empty and contain only parts that the two cycles share. *)
Lemma overlaps_sound : forall (P : Type) (eqb : P -> P -> bool) (H : hashing P) (cycles : list (nat * list P)),
  lists_all H -> let r := overlaps_in_cycles eqb H cycles in
  NoDup (map fst r) /\
  forall a b v, In ((a, b), v) r -> a < b /\ v <> [] /\
    exists pa pb, In (a, pa) cycles /\ In (b, pb) cycles /\ forall x, In x v -> shared eqb pa pb x.
Proof.
  intros P eqb H cycles LA r.
  set (Good := fun (key : nat * nat) (v : list P) => v <> [] /\ exists pa pb, In (fst key, pa) cycles /\ In (snd key, pb) cycles /\ forall x, In x v -> shared eqb pa pb x).
  destruct (rows_ok eqb H Good cycles) with (es := cycles) (k := 0) (d := @nil ((nat * nat) * list P)) as ((U1 & U2 & T3) & _).
  - intros e pe z pz k k' v Ie Iz NE C NV. split; [exact NV|]. pose proof (common_sound eqb H LA _ _ _ _ _ C) as CS.
    unfold ordered. destruct (Nat.ltb e z).
    + exists pe, pz. split; [exact Ie|]. split; [exact Iz|]. intros x I. right. apply CS, I.
    + exists pz, pe. split; [exact Iz|]. split; [exact Ie|]. intros x I. left. apply CS, I.
  - auto.
  - split; [constructor|]. split; [intros a b []|intros key v []].
  - split; [exact U1|]. intros a b v I. destruct (T3 _ _ I) as (NV & E). split; [|split; [exact NV|exact E]].
    apply U2, in_map_iff. exists ((a, b), v). auto.
Qed.

(*@ C49_exact *)
(** C49: if hash is consistent and == identifies only identical parts, a pair of cycles is a key exactly if
    the two share a part, and then the value lists exactly the shared parts, each once. *)
Lemma overlaps_exact : forall (P : Type) (eqb : P -> P -> bool) (H : hashing P) (cycles : list (nat * list P)),
  lists_all H -> consistent H -> decides_eq eqb -> NoDup (map fst cycles) ->
  let r := overlaps_in_cycles eqb H cycles in
  forall a b pa pb, In (a, pa) cycles -> In (b, pb) cycles -> a < b ->
  ((exists v, In ((a, b), v) r) <-> exists x, In x pa /\ In x pb) /\
  forall v, In ((a, b), v) r -> NoDup v /\ forall x, In x v <-> In x pa /\ In x pb.
Proof.
  intros P eqb H cycles LA CO DE ND r a b pa pb Ia Ib LT.
  set (Good := fun (key : nat * nat) (v : list P) => v <> [] /\ NoDup v /\ exists pa pb, In (fst key, pa) cycles /\ In (snd key, pb) cycles /\ forall x, In x v <-> In x pa /\ In x pb).
  assert (U : forall k p q, In (k, p) cycles -> In (k, q) cycles -> p = q).
  { clear - ND. induction cycles as [|[k' w] cs IH]; [intros k p q []|]. inversion ND as [|? ? N1 N2]; subst. intros k p q [E|I] [F|J].
    - congruence.
    - injection E as -> ->. exfalso. apply N1. apply in_map_iff. exists (k, q). auto.
    - injection F as -> ->. exfalso. apply N1. apply in_map_iff. exists (k, p). auto.
    - eapply IH; eauto. }
  destruct (rows_ok eqb H Good cycles) with (es := cycles) (k := 0) (d := @nil ((nat * nat) * list P)) as ((U1 & U2 & T3) & _ & T4).
  - intros e pe z pz k k' v Ie Iz NE C NV. split; [exact NV|]. destruct (common_exact eqb H DE CO LA _ _ _ _ _ C) as (NDv & CS).
    split; [exact NDv|]. unfold ordered. destruct (Nat.ltb e z).
    + exists pe, pz. split; [exact Ie|]. split; [exact Iz|]. exact CS.
    + exists pz, pe. split; [exact Iz|]. split; [exact Ie|]. intros x. rewrite CS. tauto.
  - auto.
  - split; [constructor|]. split; [intros ? ? []|intros key v []].
  - fold (overlaps_in_cycles eqb H cycles) in *. fold r in U1, U2, T3, T4.
    assert (V : forall v, In ((a, b), v) r -> v <> [] /\ NoDup v /\ forall x, In x v <-> In x pa /\ In x pb).
    { intros v I. destruct (T3 _ _ I) as (NV & NDv & qa & qb & Ja & Jb & K). cbn in Ja, Jb.
      rewrite (U _ _ _ Ja Ia), (U _ _ _ Jb Ib) in K. auto. }
    split.
    + split.
      * intros (v & I). destruct (V v I) as (NV & _ & K). destruct v as [|x v]; [congruence|]. exists x. apply K. left. reflexivity.
      * intros (x & X).
        assert (K : In (ordered a b) (map fst r)).
        { apply (T4 a pa b pb Ia Ib); [lia|]. intros k k' v C. destruct (common_exact eqb H DE CO LA _ _ _ _ _ C) as (_ & CS).
          intros ->. apply (proj2 (CS x)) in X. destruct X. }
        unfold ordered in K. rewrite (proj2 (Nat.ltb_lt a b) LT) in K. apply in_map_iff in K as ([key v] & E & I). cbn in E. subst. eauto.
    + intros v I. destruct (V v I) as (_ & K). exact K.
Qed.

(*@ C49_all *)
(** C49: all_overlapping_segments lists the values one after the other. *)
Lemma all_overlapping_spec : forall (P : Type) (eqb : P -> P -> bool) (H : hashing P) (cycles : list (nat * list P)) x,
  In x (all_overlapping_segments eqb H cycles) <-> exists key v, In (key, v) (overlaps_in_cycles eqb H cycles) /\ In x v.
Proof.
  intros P eqb H cycles x. unfold all_overlapping_segments. rewrite in_concat. split.
  - intros (v & I & X). apply in_map_iff in I as ([key w] & <- & I). eauto.
  - intros (key & v & I & X). exists v. split; [apply in_map_iff; exists (key, v); auto|exact X].
Qed.

(*@ C49_hash_refuted *)
(** C49, finding: hash() of a polygon line is the hash of a temporary object; if these differ from call to
    call, a part that two cycles share is not found. *)
Lemma overlap_missed : forall (P : Type) (eqb : P -> P -> bool) (p q r : P),
  exists H : hashing P, lists_all H /\ overlaps_in_cycles eqb H [(0, [p; q]); (1, [p; r])] = [].
Proof.
  intros P eqb p q r. exists (mkhashing (fun k _ => Z.of_nat k) (fun _ l => l)). split; [intros k l; reflexivity|]. reflexivity.
Qed.

(*@ex C49_example *)
(** C49: the hypotheses hold, and a shared part is found, with parts that are numbers. *)
Example overlaps_example : let H := mkhashing (fun _ x => Z.of_nat x) (fun _ l => rev l) in
  let cycles := [(0, [7; 8; 9]); (1, [9; 5; 8]); (2, [6])] in
  lists_all H /\ consistent H /\ decides_eq Nat.eqb /\ NoDup (map fst cycles) /\
  overlaps_in_cycles Nat.eqb H cycles = [((0, 1), [8; 9])].
Proof.
  split; [intros k l; apply Permutation_sym, Permutation_rev|]. split; [intros k k' x; reflexivity|].
  split; [intros x y; apply Nat.eqb_eq|]. split; [repeat constructor; cbn; lia|reflexivity].
Qed.
