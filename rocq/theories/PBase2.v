(** keep_base_polygons: what is returned. *)
From Coq Require Import Reals ZArith Lra Lia Bool List Psatz Permutation Arith.
From Verif Require Import Base Arith ArithR MPoint MLine MPoly MTri MGroup MCycles MBase Spec SpecGroup SpecCycles SpecTri SpecBase
  PPoint PLine PShape PMore POrder PGroup PCycles PWalk PInside PCorner PConvex PEar2 PArea PRel PPath PBase.
Import ListNotations.
Local Open Scope R_scope.
#[local] Existing Instance RA.

Definition plain (k : scls) (st : bstate RA) : Prop := forall s, In s (b_heap st) -> sc s = k.
Lemma in_value_heap : forall (h : list (seg RA)) ids s, In s (value h ids) -> In s h.
Proof. exact in_value. Qed.
Lemma kin_plain : forall k st st0, kin st st0 -> plain k st0 -> plain k st.
Proof.
  intros k st st0 [T _] P s I. destruct (In_nth_error _ _ I) as [n K]. destruct (Forall2_nth_l _ _ _ _ _ T n s K) as (t & E & [->| ->]); cbn; apply P; eapply nth_error_In; eauto.
Qed.
Lemma loose_class : forall k s t : seg RA, sc s = sc k -> sc t = sc k -> (existsb (fun z => seg_loose_equal z s) [t; line_reversed t] = true <-> s = t \/ s = mkseg (sc t) (sj t) (si t)).
Proof.
  intros k s t C1 C2. cbn. rewrite orb_false_r, orb_true_iff, !loose_equal_iff. destruct s as [c i j], t as [c' i' j']. cbn in *. subst. split.
  - intros [[_ [[-> ->]|[-> ->]]]|[_ [[-> ->]|[-> ->]]]]; auto.
  - intros [H|H]; injection H as -> ->; left; auto.
Qed.
Lemma alike_iff : forall k (a b : list (seg RA)), (forall s, In s a -> sc s = k) -> (forall s, In s b -> sc s = k) ->
  exists r, poly_loose_equal a b false = Ok r /\ (r = true <-> alike a b).
Proof.
  intros k a b PA PB. unfold poly_loose_equal. destruct (Nat.eqb_spec (length a) (length b)) as [E|E]; cbn [negb].
  - eexists. split; [reflexivity|]. rewrite forallb_forall. unfold alike. split.
    + intros G. split; auto. intros s I. specialize (G s I). apply existsb_exists in G as (t & It & Q). exists t. split; auto.
      apply (loose_class t s t) in Q; auto. rewrite PA, PB; auto.
    + intros [_ G] s I. destruct (G s I) as (t & It & Q). apply existsb_exists. exists t. split; auto. apply (loose_class t s t); auto. rewrite PA, PB; auto.
  - exists false. split; auto. split; [discriminate|]. intros [? _]. congruence.
Qed.
Lemma rearranged_alike : forall a b, rearranged a b -> alike a b.
Proof.
  intros a b (g & P & F). split; [rewrite (Forall2_len _ _ _ _ _ F); apply Permutation_length; auto|]. intros s I.
  destruct (In_nth_error _ _ I) as [k K]. destruct (Forall2_nth_l _ _ _ _ _ F k s K) as (t & E & T). exists t. split; auto. eapply Permutation_in; [exact P|]. eapply nth_error_In; eauto.
Qed.
Lemma alike_trans : forall a b c, alike a b -> alike b c -> alike a c.
Proof.
  intros a b c [L1 A1] [L2 A2]. split; [congruence|]. intros s I. destruct (A1 s I) as (t & It & T1). destruct (A2 t It) as (u & Iu & T2). exists u. split; auto.
  destruct T1 as [->| ->], T2 as [->| ->]; cbn; auto. left. destruct u; reflexivity.
Qed.
Lemma rearranged_refl : forall a : list (seg RA), rearranged a a.
Proof. intros a. exists a. split; auto. induction a; constructor; auto. Qed.
Lemma rearranged_sym : forall a b : list (seg RA), rearranged a b -> rearranged b a.
Proof.
  intros a b (g & P & F).
  assert (F' : Forall2 (fun x y : seg RA => turned y x) g a) by (clear -F; induction F; constructor; auto).
  destruct (Permutation_Forall2 P F') as (k & Pk & Fk). exists k. split; [apply Permutation_sym; auto|].
  clear -Fk. induction Fk; constructor; auto. apply turned_sym. auto.
Qed.
Lemma rearranged_points : forall a b : list (seg RA), rearranged a b -> forall p, In p (flat_map ij a) <-> In p (flat_map ij b).
Proof.
  assert (G : forall a b : list (seg RA), rearranged a b -> forall p, In p (flat_map ij a) -> In p (flat_map ij b)).
  { intros a b R p I. apply in_flat_map in I as (s & Is & Ip). destruct (proj2 (rearranged_alike _ _ R) s Is) as (t & It & T). apply in_flat_map. exists t. split; auto.
    destruct T as [->| ->]; auto. cbn in *. tauto. }
  intros a b R p. split; apply G; auto. apply rearranged_sym. auto.
Qed.


(** * The polygon left out *)
Lemma allM_true : forall X (f : X -> res bool) l, allM f l = Ok true <-> (forall x, In x l -> f x = Ok true).
Proof.
  intros X f l. unfold allM. split.
  - intros E. destruct (existsM _ l) as [[]|] eqn:EX; try discriminate. intros x I. apply (existsM_false _ _ _ EX) in I. destruct (f x) as [[]|]; try discriminate. auto.
  - intros G. rewrite existsM_all; [reflexivity|]. intros x I. rewrite (G x I). reflexivity.
Qed.
Lemma neg_true : forall r : res bool, (b <- r ;; Ok (negb b)) = Ok true <-> r = Ok false.
Proof. intros [[]|]; cbn; split; intros E; try discriminate; auto. Qed.

Lemma equal_refl : forall (st : bstate RA) a, equal st a a = true.
Proof. intros st a. unfold equal, poly_eqb. rewrite Nat.eqb_refl. cbn. induction (val st a); auto. cbn. rewrite seg_eqb_refl. auto. Qed.

Section LeftOut.
Context (kc : scls) (inside : list (seg RA) -> pt RA -> res bool) (st : bstate RA) (kept : list nat) (rret : list (list (seg RA))).
Hypothesis PL : plain kc st.
Hypothesis PR : forall r, In r rret -> forall s, In s r -> sc s = kc.
Lemma left_out_In : forall los, left_out st rret kept = Ok los -> sublist los kept /\
  forall x, In x los <-> In x kept /\ listed_in (val st x) rret = false /\ forall r, In r rret -> ~ alike (val st x) r.
Proof.
  intros los E. unfold left_out in E. apply filterM_In in E as (S1 & C1 & _). split; auto. intros x. rewrite C1.
  destruct (listed_in (val st x) rret) eqn:EL; [split; [intros [_ E]; discriminate|intros (_ & E & _); discriminate]|].
  assert (Q : (b <- existsM (fun y => poly_loose_equal (val st x) y false) rret ;; Ok (negb b)) = Ok true <-> forall r, In r rret -> ~ alike (val st x) r).
  { split.
    - intros E r I A. destruct (existsM _ rret) as [[]|] eqn:EX; try discriminate. apply (existsM_false _ _ _ EX) in I as I'.
      destruct (alike_iff kc (val st x) r) as (b & Eb & Ib); [intros s J; apply PL; eapply in_value; eauto|intros; eapply PR; eauto|]. apply Ib in A. congruence.
    - intros G. rewrite existsM_all; [reflexivity|]. intros r I. destruct (alike_iff kc (val st x) r) as (b & Eb & Ib); [intros s J; apply PL; eapply in_value; eauto|intros; eapply PR; eauto|].
      rewrite Eb. f_equal. destruct b; auto. exfalso. apply (G r I). apply Ib. auto. }
  rewrite Q. tauto.
Qed.
Hypothesis SP : separated (flat_map ij (b_heap st)).
Lemma equal_val : forall a b, equal st a b = true -> val st a = val st b.
Proof.
  intros a b E. unfold equal, poly_eqb in E. apply andb_prop in E as [L E]. apply Nat.eqb_eq in L.
  assert (IA : incl (val st a) (b_heap st)) by (intros s I; eapply in_value; eauto).
  assert (IB : incl (val st b) (b_heap st)) by (intros s I; eapply in_value; eauto).
  revert IA IB L E. generalize (val st a) (val st b). induction l as [|x l IH]; intros [|y m] IA IB L E; try discriminate; auto.
  cbn in E. apply andb_prop in E as [E1 E2]. f_equal; [|apply IH; auto; [intros z I; apply IA; right; auto|intros z I; apply IB; right; auto]].
  assert (Ix := IA x (or_introl eq_refl)). assert (Iy := IB y (or_introl eq_refl)).
  assert (PI : forall (z : seg RA) p, In z (b_heap st) -> In p (ij z) -> In p (flat_map ij (b_heap st))) by (intros z p I J; apply in_flat_map; eauto).
  unfold seg_eqb in E1. apply andb_prop in E1 as [E1 E3]. apply andb_prop in E1 as [E0 E1].
  apply (sep_eqb _ _ _ SP) in E1; [|eapply PI; [exact Ix|left; auto]|eapply PI; [exact Iy|left; auto]].
  apply (sep_eqb _ _ _ SP) in E3; [|eapply PI; [exact Ix|right; left; auto]|eapply PI; [exact Iy|right; left; auto]].
  pose proof (PL x Ix). pose proof (PL y Iy). destruct x, y. cbn in *. congruence.
Qed.
Lemma added : forall lo, left_out st rret kept = Ok [lo] -> NoDup kept -> forall add, foldM (add_step inside st lo rret) (permutations2 kept) [] = Ok add ->
  (add = [] /\ forall b, In b kept -> b <> lo -> ~ all_points_are true inside (val st lo) (val st b) /\ ~ all_points_are false inside (val st lo) (val st b)) \/
  (add = [lo] /\ exists b, In b kept /\ b <> lo /\ (all_points_are true inside (val st lo) (val st b) \/ all_points_are false inside (val st lo) (val st b))).
Proof.
  intros lo EL N add E. destruct (left_out_In _ EL) as [SL CL].
  assert (OL : forall a, In a kept -> equal st lo a = true -> a = lo).
  { intros a I Q. apply equal_val in Q. assert (J : In a [lo]); [|destruct J as [|[]]; auto]. apply CL. rewrite <- Q. split; auto. apply (CL lo). left. auto. }
  assert (Il : In lo kept) by (apply CL; left; auto).
  assert (NL : listed_in (val st lo) rret = false) by (apply (CL lo); left; auto).
  assert (EQ : equal st lo lo = true).
  { unfold equal, poly_eqb. rewrite Nat.eqb_refl. cbn. generalize (val st lo). induction l; auto. cbn. rewrite seg_eqb_refl. auto. }
  set (good b := all_points_are true inside (val st lo) (val st b) \/ all_points_are false inside (val st lo) (val st b)).
  assert (G : forall pairs acc add, (forall a b, In (a, b) pairs -> In a kept /\ In b kept /\ a <> b) -> (acc = [] \/ acc = [lo]) ->
    foldM (add_step inside st lo rret) pairs acc = Ok add ->
    (acc = [lo] /\ add = [lo]) \/ (acc = [] /\ ((add = [] /\ forall b, In (lo, b) pairs -> ~ good b) \/ (add = [lo] /\ exists b, In b kept /\ b <> lo /\ good b)))).
  { clear E add. induction pairs as [|[a b] pairs IH]; intros acc add IK IA E; cbn [foldM] in E.
    - injection E as <-. destruct IA as [->| ->]; [right; split; auto; left; split; auto; intros b []|left; auto].
    - assert (IK' : forall c d, In (c, d) pairs -> In c kept /\ In d kept /\ c <> d) by (intros; apply IK; right; auto).
      destruct (IK a b (or_introl eq_refl)) as (Ia & Ib & Nab). unfold add_step at 1 in E.
      destruct (equal st lo a) eqn:EA; cbn [negb] in E.
      + assert (a = lo) as -> by (apply OL; auto).
        destruct (allM (inside (val st lo)) (point_set (val st b))) as [i|] eqn:E1; [|discriminate]. cbn [bind] in E.
        rewrite NL in E. cbn [negb] in E. rewrite andb_true_r in E.
        destruct IA as [->| ->].
        * right. split; auto. cbn [existsb negb] in E. rewrite andb_true_r in E. destruct i.
          -- cbn [bind app] in E. apply IH in E; auto. destruct E as [[_ ->]|[Q _]]; [|discriminate]. right. split; auto. exists b. split; auto. split; auto.
             left. exact (proj1 (allM_true _ _ _) E1).
          -- destruct (allM (fun x => r <- inside (val st lo) x;; Ok (negb r)) (point_set (val st b))) as [e|] eqn:E2; [|discriminate]. cbn [bind] in E.
             rewrite andb_true_r in E. destruct e.
             ++ cbn [bind app] in E. apply IH in E; auto. destruct E as [[_ ->]|[Q _]]; [|discriminate]. right. split; auto. exists b. split; auto. split; auto.
                right. intros p I. apply neg_true. apply (proj1 (allM_true _ _ _) E2). auto.
             ++ cbn [bind] in E. apply IH in E; auto. destruct E as [[Q _]|[_ [[-> NG]|[-> EX]]]]; [discriminate| |right; auto]. left. split; auto.
                intros c [Q|I]; [|auto]. injection Q as <-. intros [Q|Q].
                ** apply (proj2 (allM_true _ _ _)) in Q. congruence.
                ** assert (allM (fun x => r <- inside (val st lo) x;; Ok (negb r)) (point_set (val st b)) = Ok true); [|congruence].
                   apply allM_true. intros p I. apply neg_true. auto.
        * left. split; auto. assert (SM : same st lo lo = true) by apply same_refl. cbn [existsb orb negb] in E. rewrite SM in E. cbn [orb negb] in E. rewrite andb_false_r in E.
          destruct (allM _ _) as [e|] in E; [|discriminate]. cbn [bind] in E. rewrite andb_false_r in E. cbn [bind] in E. apply IH in E; auto. destruct E as [[]|[Q _]]; [auto|discriminate].
      + cbn [bind] in E. apply IH in E; auto. destruct E as [|[-> [[-> NG]|[-> EX]]]]; auto; right; split; auto. left. split; auto. intros c [Q|I]; auto.
        injection Q as -> ->. congruence. }
  assert (PK : forall a b, In (a, b) (permutations2 kept) <-> In a kept /\ In b kept /\ a <> b).
  { intros a b. rewrite PConvex.permutations2_In. unfold distinct_positions. split.
    - intros (i & j & Nij & Ei & Ej). split; [eapply nth_error_In; eauto|]. split; [eapply nth_error_In; eauto|]. intros ->. apply Nij.
      eapply NoDup_nth_error; eauto; [|congruence]. apply nth_error_Some. congruence.
    - intros (Ia & Ib & Q). apply In_nth_error in Ia as [i Ei]. apply In_nth_error in Ib as [j Ej]. exists i, j. split; auto. intros ->. congruence. }
  destruct (G (permutations2 kept) [] add) as [[Q _]|[_ [[-> NG]|[-> (b & I & Nb & Gb)]]]]; auto; [apply PK|discriminate| |].
  - left. split; auto. intros b I Q. assert (K : ~ good b) by (apply NG, PK; auto). unfold good in K. tauto.
  - right. split; auto. exists b. auto.
Qed.
End LeftOut.

(** * The result *)
Lemma kin_points : forall st st0, kin st st0 -> separated (flat_map ij (b_heap st0)) -> separated (flat_map ij (b_heap st)).
Proof.
  intros st st0 [T _] SP. assert (R : rearranged (b_heap st) (b_heap st0)) by (exists (b_heap st0); split; auto).
  intros p q Ip Iq. apply SP; apply (rearranged_points _ _ R); auto.
Qed.
Lemma sameD : forall kl st l, plain kl st -> separated (flat_map ij (b_heap st)) ->
  (forall a b, In a l -> In b l -> a <> b -> equal st a b = false) -> forall a b, In a l -> In b l -> same st a b = true -> a = b.
Proof.
  intros kl st l PL SP D a b Ia Ib E. destruct (Nat.eq_dec a b) as [|Nab]; auto. unfold same in E. rewrite (D a b), orb_false_r in E by auto. apply Nat.eqb_eq. auto.
Qed.

Definition dropped_for (area_of : nat -> R) (tris : nat -> list (list (seg RA))) (st : bstate RA) (n x : nat) : Prop :=
  (exists y, (y < n)%nat /\ y <> x /\ alike (val st x) (val st y)) \/
  (exists c a, sublist c (seq 0 n) /\ (2 <= length c)%nat /\ total_area (flat_map tris c) a /\ Rabs (area_of x - a) < 1 / 10^8).

Lemma keep_many_spec : forall kl H HC inside tris area_of st n rs, lists_all HC -> plain kl st -> separated (flat_map ij (b_heap st)) -> length (b_ids st) = n ->
  (forall p, (p < n)%nat -> cyclic st p) -> (forall a b, (a < n)%nat -> (b < n)%nat -> a <> b -> equal st a b = false) ->
  keep_many H HC inside tris area_of st (seq 0 n) = Ok rs ->
  exists kept best rooms more, rs = rooms ++ more /\ sublist kept (seq 0 n) /\
    (forall x, (x < n)%nat -> In x kept \/ dropped_for area_of tris st n x) /\
    sublist best kept /\ best <> [] /\ clash_free inside (flat_map tris best) /\
    (forall c, sublist c kept -> c <> [] -> clash_free inside (flat_map tris c) -> not_worse area_of best c) /\
    Forall2 (fun p r => room_of r (val st p)) best rooms /\
    ((kept = best /\ more = []) \/
     (exists lo out, In lo kept /\ ~ In lo best /\ rearranged out (val st lo) /\
        (forall x, In x kept -> ~ In x best -> x = lo \/ exists y, In y best /\ alike (val st x) (val st y)) /\
        (forall y, In y best -> ~ alike (val st lo) (val st y)) /\
        ((more = [] /\ forall b, In b kept -> b <> lo -> exists vb, rearranged vb (val st b) /\ ~ all_points_are true inside out vb /\ ~ all_points_are false inside out vb) \/
         (more = [out] /\ exists b vb, In b kept /\ b <> lo /\ rearranged vb (val st b) /\ (all_points_are true inside out vb \/ all_points_are false inside out vb))))).
Proof.
  intros kl H HC inside tris area_of st n rs LA PL SP LN CY DI E. unfold keep_many in E.
  assert (DS : forall a b, In a (seq 0 n) -> In b (seq 0 n) -> same st a b = true -> a = b).
  { apply (sameD kl); auto. intros a b Ia Ib. apply in_seq in Ia. apply in_seq in Ib. apply DI; lia. }
  destruct (mark H st (seq 0 n)) as [[k s]|] eqn:EM; [|discriminate]. cbn [bind] in E.
  destruct (unmarked H st s k (seq 0 n)) as [k1 kept0] eqn:EU.
  destruct (sweeps tris area_of st (length kept0) 1 kept0) as [kept|] eqn:ES; [|discriminate]. cbn [bind] in E.
  destruct (overlapping inside tris kept) as [ov|] eqn:EO; [|discriminate]. cbn [bind] in E.
  destruct (candidates_of H HC inside tris st k1 ov kept) as [[[k' kc] ret]|] eqn:EC; [|discriminate]. cbn [bind] in E.
  destruct (choose HC area_of kc ret) as [best|] eqn:EB; [|discriminate]. cbn [bind] in E.
  destruct (unmarked_spec _ _ _ _ _ _ _ EU) as [S0 C0].
  destruct (sweeps_spec st tris area_of _ _ _ _ (le_n 1) ES) as [S1 C1].
  assert (SK : sublist kept (seq 0 n)) by (eapply sublist_trans; eauto).
  assert (KD : incl kept (seq 0 n)) by (apply sublist_incl; auto).
  assert (KN : NoDup kept) by (eapply sublist_NoDup; [eauto|apply seq_NoDup]).
  destruct (chosen_spec H HC inside st tris area_of (seq 0 n) DS kept KD KN _ _ _ _ _ _ LA EO EC EB) as (SB & NB & CF & BEST).
  assert (CK : forall p, In p kept -> cyclic st p) by (intros p I; apply CY; apply KD, in_seq in I; lia).
  destruct (copies best st []) as (st1 & rooms & E1 & K1 & F1); [intros p I; apply CK; eapply sublist_incl; eauto|].
  rewrite E1 in E. cbn [bind app] in E.
  destruct (order_all kept st1) as (st2 & E2 & K2); [intros p I; apply kin_cyclic with st; auto|]. rewrite E2 in E. cbn [bind] in E.
  assert (K : kin st2 st) by (eapply kin_trans; eauto).
  assert (DROP : forall x, (x < n)%nat -> In x kept \/ dropped_for area_of tris st n x).
  { intros x L. assert (Ix : In x (seq 0 n)) by (apply in_seq; lia). destruct (C0 x Ix) as [I0|(e & Ie & Es)].
    - destruct (C1 x I0) as [|(p & Ip & Es & c & a & SC & LC & TA & B)]; auto. right. right.
      assert (x = p) as -> by (apply DS; auto; eapply sublist_incl; [exact S0|auto]). exists c, a. repeat split; auto. eapply sublist_trans; eauto.
    - right. left. destruct (mark_inv H st (seq 0 n) _ _ EM e Ie) as [J (z & Iz & Ez & Lz)].
      assert (snd e = x) as EQ by (apply DS; auto). rewrite EQ in *. exists z. apply in_seq in Iz. split; [lia|]. split.
      + intros ->. unfold equal, poly_eqb in Ez. rewrite Nat.eqb_refl in Ez. cbn in Ez. revert Ez. generalize (val st x). induction l; cbn; [discriminate|]. rewrite seg_eqb_refl. auto.
      + unfold loosely in Lz. destruct (alike_iff kl (val st x) (val st z)) as (r & Er & Ir); [intros t I; apply PL; eapply in_value; eauto|intros t I; apply PL; eapply in_value; eauto|].
        apply Ir. congruence. }
  exists kept, best, rooms.
  assert (LR : length rooms = length best) by (symmetry; eapply Forall2_len; eauto).
  assert (PR : forall r, In r rooms -> forall t, In t r -> sc t = kl).
  { intros r Ir t It. destruct (In_nth_error _ _ Ir) as [j J].
    assert (F1' : Forall2 (fun r p => room_of r (val st p)) rooms best) by (clear -F1; induction F1; constructor; auto).
    destruct (Forall2_nth_l _ _ _ _ _ F1' j r J) as (p & _ & R & _). destruct (proj2 (rearranged_alike _ _ R) t It) as (u & Iu & [->| ->]); cbn; apply PL; eapply in_value; eauto. }
  destruct (Nat.eqb (length kept) (length rooms)) eqn:EL.
  - apply Nat.eqb_eq in EL. injection E as <-. exists []. rewrite app_nil_r. repeat (split; [assumption || reflexivity|]). left. split; auto.
    symmetry. apply sublist_full; auto. lia.
  - destruct (left_out st2 rooms kept) as [los|] eqn:EF; [|discriminate]. cbn [bind] in E.
    destruct los as [|lo [|? ?]]; try discriminate.
    destruct (foldM (add_step inside st2 lo rooms) (permutations2 kept) []) as [add|] eqn:EA; [|discriminate]. cbn [bind] in E. injection E as <-.
    assert (PL2 : plain kl st2) by (eapply kin_plain; eauto). assert (SP2 := kin_points _ _ K SP).
    destruct (left_out_In kl st2 kept rooms PL2 PR _ EF) as [_ CL].
    destruct (proj1 (CL lo) (or_introl eq_refl)) as (Ilo & NLI & NAL).
    assert (ROOM : forall y, In y best -> exists r, In r rooms /\ room_of r (val st y)).
    { intros y Iy. destruct (In_nth_error _ _ Iy) as [j J]. destruct (Forall2_nth_l _ _ _ _ _ F1 j y J) as (r & Er & R). exists r. split; auto. eapply nth_error_In; eauto. }
    assert (NALB : forall y, In y best -> ~ alike (val st lo) (val st y)).
    { intros y Iy A. destruct (ROOM y Iy) as (r & Ir & R & _). apply (NAL r Ir). eapply alike_trans; [apply rearranged_alike, kin_val; eauto|].
      eapply alike_trans; [exact A|]. apply rearranged_alike, rearranged_sym. auto. }
    exists (map (val st2) add). repeat (split; [assumption || reflexivity|]). right. exists lo, (val st2 lo). split; auto.
    split; [intros I; apply (NALB lo I); apply rearranged_alike, rearranged_refl|].
    split; [apply kin_val; auto|]. split.
    + intros x Ix Nx. destruct (in_dec Nat.eq_dec x [lo]) as [[|[]]|NI]; auto. right.
      assert (Q : listed_in (val st2 x) rooms = true \/ exists r, In r rooms /\ alike (val st2 x) r).
      { destruct (listed_in (val st2 x) rooms) eqn:Q1; auto. right.
        assert (DEC : (exists r, In r rooms /\ alike (val st2 x) r) \/ forall r, In r rooms -> ~ alike (val st2 x) r).
        { clear -PR PL2. induction rooms as [|r rs IH]; [right; intros r []|].
          destruct (alike_iff kl (val st2 x) r) as (b & _ & Ib); [intros t I; apply PL2; eapply in_value; eauto|intros; eapply PR; [left; auto|auto]|].
          destruct b; [left; exists r; split; [left; auto|apply Ib; auto]|]. destruct IH as [(q & Iq & A)|NA]; [intros q Iq; apply PR; right; auto|left; exists q; split; [right; auto|auto]|].
          right. intros q [<-|Iq]; auto. intros A. apply Ib in A. discriminate. }
        destruct DEC as [|NA]; auto. exfalso. apply NI. apply CL. auto. }
      assert (Q' : exists r, In r rooms /\ alike (val st2 x) r).
      { destruct Q as [Q|]; auto. unfold listed_in in Q. apply existsb_exists in Q as (r & Ir & Er). exists r. split; auto.
        unfold poly_eqb in Er. apply andb_prop in Er as [L Er]. apply Nat.eqb_eq in L.
        assert (RP : forall t p, In t r -> In p (ij t) -> In p (flat_map ij (b_heap st))).
        { intros t p It Ip. assert (F1' : Forall2 (fun r p => room_of r (val st p)) rooms best) by (clear -F1; induction F1; constructor; auto).
          destruct (In_nth_error _ _ Ir) as [j J]. destruct (Forall2_nth_l _ _ _ _ _ F1' j r J) as (y & _ & R & _).
          assert (In p (flat_map ij (val st y))) as I2 by (apply (rearranged_points _ _ R); apply in_flat_map; eauto).
          apply in_flat_map in I2 as (u & Iu & Ju). apply in_flat_map. exists u. split; auto. eapply in_value; eauto. }
        assert (VP : forall t p, In t (val st2 x) -> In p (ij t) -> In p (flat_map ij (b_heap st))).
        { intros t p It Ip. assert (R2 : rearranged (b_heap st2) (b_heap st)) by (exists (b_heap st); split; auto; apply K).
          apply (rearranged_points _ _ R2). apply in_flat_map. exists t. split; auto. eapply in_value; eauto. }
        assert (r = val st2 x) as ->.
        { assert (CR := PR r Ir). assert (CV : forall t, In t (val st2 x) -> sc t = kl) by (intros t I; apply PL2; eapply in_value; eauto).
          clear -L Er RP VP CR CV SP. revert L Er RP VP CR CV. generalize (val st2 x). induction r as [|a r IH]; intros [|b m] L Er RP VP CR CV; try discriminate; auto.
          cbn in Er. apply andb_prop in Er as [E1 E2]. f_equal.
          - unfold seg_eqb in E1. apply andb_prop in E1 as [E1 E3]. apply andb_prop in E1 as [_ E1].
            apply (sep_eqb _ _ _ SP) in E1; [|eapply RP; [left; eauto|left; auto]|eapply VP; [left; eauto|left; auto]].
            apply (sep_eqb _ _ _ SP) in E3; [|eapply RP; [left; eauto|right; left; auto]|eapply VP; [left; eauto|right; left; auto]].
            pose proof (CR a (or_introl eq_refl)). pose proof (CV b (or_introl eq_refl)). destruct a, b; cbn in *; congruence.
          - apply IH; auto; intros; [eapply RP|eapply VP|apply CR|apply CV]; try (right; eassumption); auto. }
        apply rearranged_alike, rearranged_refl. }
      destruct Q' as (r & Ir & A). assert (F1' : Forall2 (fun r p => room_of r (val st p)) rooms best) by (clear -F1; induction F1; constructor; auto).
      destruct (In_nth_error _ _ Ir) as [j J]. destruct (Forall2_nth_l _ _ _ _ _ F1' j r J) as (y & Ey & R & _). exists y. split; [eapply nth_error_In; eauto|].
      eapply alike_trans; [apply rearranged_alike, rearranged_sym, kin_val; eauto|]. eapply alike_trans; [exact A|]. apply rearranged_alike. auto.
    + split; auto. destruct (added kl inside st2 kept rooms PL2 PR SP2 lo EF KN add EA) as [[-> NG]|[-> (b & Ib & Nb & G)]].
      * left. split; auto. intros b Ib Nb. exists (val st2 b). split; [apply kin_val; auto|]. auto.
      * right. split; auto. exists b, (val st2 b). split; auto. split; auto. split; [apply kin_val; auto|auto].
Qed.

(** * keep_base_polygons *)
Lemma mapM_nth : forall X Y (f : X -> res Y) l r d e k, mapM f l = Ok r -> (k < length l)%nat -> f (nth k l d) = Ok (nth k r e).
Proof.
  intros X Y f l r d e k E L. apply mapM_all in E. revert k L. induction E; intros [|k] L; cbn in *; try lia; auto. apply IHE. lia.
Qed.
Lemma loops_state : forall h polygons, loops h polygons -> let st := mkb h polygons in
  (exists kl, plain kl st) /\ separated (flat_map ij h) /\ (forall p, (p < length polygons)%nat -> cyclic st p) /\
  (forall a b, (a < length polygons)%nat -> (b < length polygons)%nat -> a <> b -> equal st a b = false).
Proof.
  intros h polygons (PL & SP & CY & DI) st. split; [exact PL|]. split; auto. split.
  - intros p L. split; auto. cbn [b_ids b_heap st]. destruct (CY (nth p polygons [])) as (N & R & vs & C); [apply nth_In; auto|]. split; auto. split; auto. exists vs. auto.
  - intros a b La Lb N. unfold equal, val. cbn [b_ids b_heap st]. apply (DI a b); auto; apply nth_error_nth'; auto.
Qed.

(*@ C74_rooms *)
(** C74: for two or more loops, whatever the hashes, the triangulation library and the answers of
    is_internal_point.  If the call returns, then: a loop that is not kept repeats the segments of another
    one or has the summed area of several loops; the rooms are the kept loops of a combination without
    clashing triangles, each as a closed continuous polygon; no other such combination has more loops, or as
    many and a larger area.  All kept loops not in the combination repeat the segments of one in it, but for
    at most one; that one is also returned exactly when all corners of some other kept loop are inside it,
    or all outside. *)
Lemma keep_rooms : forall (H : hashing nat) (HC : hashing (list nat)) lib inside h polygons rs, lists_all HC -> loops h polygons -> (2 <= length polygons)%nat ->
  keep_base_polygons H HC lib inside h polygons = Ok (Some rs) ->
  exists tris area_of kept best rooms more, triangulated lib inside h polygons tris area_of /\
    sublist kept (seq 0 (length polygons)) /\
    (forall x, (x < length polygons)%nat -> In x kept \/ repeated h polygons x \/ sums_up tris area_of (length polygons) x) /\
    sublist best kept /\ best <> [] /\ clash_free inside (flat_map tris best) /\
    (forall c, sublist c kept -> c <> [] -> clash_free inside (flat_map tris c) -> not_worse area_of best c) /\
    rs = rooms ++ more /\ Forall2 (fun k r => room_of r (loop h polygons k)) best rooms /\
    ((kept = best /\ more = []) \/
     (exists x out, In x kept /\ ~ In x best /\ rearranged out (loop h polygons x) /\
        (forall y, In y kept -> ~ In y best -> y = x \/ exists z, In z best /\ alike (loop h polygons y) (loop h polygons z)) /\
        (forall y, In y best -> ~ alike (loop h polygons x) (loop h polygons y)) /\
        ((more = [out] /\ exists b other, In b kept /\ b <> x /\ rearranged other (loop h polygons b) /\
            (all_points_are true inside out other \/ all_points_are false inside out other)) \/
         (more = [] /\ forall b, In b kept -> b <> x -> exists other, rearranged other (loop h polygons b) /\
            ~ all_points_are true inside out other /\ ~ all_points_are false inside out other)))).
Proof.
  intros H HC lib inside h polygons rs LA LP L2 E. unfold keep_base_polygons in E.
  destruct (mapM (fun p => triangle_mesh lib (fun _ _ => inside) (value h p)) polygons) as [ts|] eqn:ET; [|discriminate]. cbn [bind] in E.
  destruct polygons as [|p1 [|p2 ps]]; [cbn in L2; lia|cbn in L2; lia|]. set (polygons := p1 :: p2 :: ps) in *.
  destruct (mapM (fun p => area lib (fun _ _ => inside) (fun _ _ => inside) (value h p)) polygons) as [as_|] eqn:EA; [|discriminate]. cbn [bind] in E.
  destruct (keep_many _ _ _ _ _ _ _) as [r|] eqn:EK in E; [|discriminate]. injection E as <-.
  destruct (loops_state h polygons LP) as ((kl & PL) & SP & CY & DI).
  destruct (keep_many_spec kl _ _ _ _ _ _ _ _ LA PL SP eq_refl CY DI EK) as (kept & best & rooms & more & -> & SK & DR & SB & NB & CF & BE & RO & LO).
  exists (fun k => nth k ts []), (fun k => nth k as_ 0), kept, best, rooms, more.
  split; [intros k Lk; split; [apply (mapM_nth _ _ _ _ _ [] [] k ET Lk)|exact (mapM_nth _ _ _ _ _ [] 0 k EA Lk)]|].
  split; auto. split.
  - intros x Lx. destruct (DR x Lx) as [|[|]]; auto.
  - repeat (split; [assumption || reflexivity|]). destruct LO as [|(lo & out & I1 & I2 & I3 & I4 & I5 & [[M1 M2]|[M1 M2]])]; auto; right; exists lo, out; repeat (split; [assumption|]); [right|left]; auto.
Qed.

(** * All loops are rooms *)
Lemma mark_none : forall H st polys, (forall a b, In a polys -> In b polys -> equal st a b = false -> loosely st a b = Ok false) -> mark H st polys = Ok (0%nat, []).
Proof.
  intros H st polys G. unfold mark.
  assert (R : forall pe zs, In pe polys -> incl zs polys -> (forall z, In z zs -> equal st pe z = false) -> mark_row H st pe zs (0%nat, []) = Ok (0%nat, [])).
  { intros pe. induction zs as [|z zs IH]; intros I IZ NE; [reflexivity|]. cbn [mark_row]. rewrite G; auto; [|apply IZ; left; auto|apply NE; left; auto]. cbn [bind].
    apply IH; auto; [intros y J; apply IZ; right; auto|intros y J; apply NE; right; auto]. }
  assert (F : forall ps, incl ps polys -> foldM (fun acc pe => mark_row H st pe (filter (fun x => negb (equal st pe x)) polys) acc) ps (0%nat, []) = Ok (0%nat, [])).
  { induction ps as [|p ps IH]; intros I; [reflexivity|]. cbn [foldM]. rewrite R; [cbn [bind]; apply IH; intros y J; apply I; right; auto|apply I; left; auto| |].
    - intros y J. apply filter_In in J. tauto.
    - intros y J. apply filter_In in J as [_ J]. apply negb_true_iff in J. auto. }
  apply F, incl_refl.
Qed.
Lemma unmarked_none : forall H (st : bstate RA) l k, exists k', unmarked H st [] k l = (k', l).
Proof. intros H st. induction l as [|x l IH]; intros k; cbn [unmarked]; [eauto|]. destruct (IH (S k)) as (k' & ->). eauto. Qed.
Lemma total_unique : forall ts a b, total_area ts a -> total_area ts b -> a = b.
Proof.
  intros ts a b (x & Fx & ->) (y & Fy & ->). f_equal. revert y Fy. induction Fx; intros z Fy; inversion Fy; subst; auto. f_equal; [congruence|auto].
Qed.
Lemma sweep_none : forall area_of (st : bstate RA) total n i l, (forall p, In p l -> ~ Rabs (area_of p - total) < 1 / 10^8) -> @sweep RA area_of st total n i l = l.
Proof.
  intros area_of st total n. induction n as [|n IH]; intros i l G; [reflexivity|]. cbn [sweep]. destruct (nth_error l i) as [p|] eqn:E; auto.
  match goal with |- context [if ?c then _ else _] => destruct c eqn:EC end; [|auto]. exfalso. apply (G p); [eapply nth_error_In; eauto|].
  revert EC. unfold EPS. ra. rewrite Rltb_true. intros. lra.
Qed.
Lemma sweeps_none : forall tris area_of (st : bstate RA) l, (forall p t, In p l -> In t (tris p) -> exists a, triangle_area t = Ok a) ->
  (forall x c a, In x l -> sublist c l -> (2 <= length c)%nat -> total_area (flat_map tris c) a -> ~ Rabs (area_of x - a) < 1 / 10^8) ->
  forall fuel n, (1 <= n)%nat -> @sweeps RA tris area_of st fuel n l = Ok l.
Proof.
  intros tris area_of st l TA G. induction fuel as [|f IH]; intros n N; [reflexivity|]. cbn [sweeps]. destruct (Nat.ltb n (S (length l))); auto.
  assert (F : forall combs, (forall c, In c combs -> sublist c l /\ (2 <= length c)%nat) -> foldM (@sweep_comb RA tris area_of st) combs l = Ok l).
  { induction combs as [|c combs IHc]; intros SC; [reflexivity|]. cbn [foldM]. unfold sweep_comb at 1.
    destruct (SC c (or_introl eq_refl)) as [S1 L1].
    destruct (mapM_total _ _ triangle_area (flat_map tris c)) as (as_ & EA).
    { intros t I. apply in_flat_map in I as (p & Ip & It). eapply TA; [eapply sublist_incl; [exact S1|exact Ip]|auto]. }
    rewrite EA. cbn [bind]. rewrite sweep_none; [apply IHc; intros; apply SC; right; auto|]. intros p I. apply (G p c); auto. apply total_nsum. auto. }
  rewrite F; [cbn [bind]; apply IH; lia|]. intros c I. apply combinations_sub in I as [S1 L1]. split; auto. lia.
Qed.
Lemma overlapping_none : forall inside tris l, clash_free inside (flat_map tris l) -> overlapping inside tris l = Ok [].
Proof.
  intros inside tris l F. unfold overlapping. rewrite (PRel.filterM_filter _ _ (fun _ => false)).
  - f_equal. induction (combinations2 l); auto.
  - intros [a b] I. apply combinations2_sublist in I. apply (sublist_flat_map _ _ tris) in I. cbn [flat_map] in I. rewrite app_nil_r in I.
    rewrite disjunct_true; [reflexivity|]. eapply sublist_pairs; eauto.
Qed.
Lemma candidates_ok : forall H HC inside tris (st : bstate RA) l k, clash_free inside (flat_map tris l) -> l <> [] ->
  exists k' kc ret, candidates_of H HC inside tris st k [] l = Ok (k', kc, ret) /\ ret <> [].
Proof.
  intros H HC inside tris st l k F NE. unfold candidates_of.
  assert (G : forall combs kc ret, (forall c, In c combs -> sublist c l) -> combs <> [] \/ ret <> [] ->
    exists k' kc' ret', foldM (comb_step H HC inside tris st []) combs (k, kc, ret) = Ok (k', kc', ret') /\ ret' <> []).
  { induction combs as [|c combs IH]; intros kc ret SC N; [destruct N; [congruence|]; cbn; eauto 6|]. cbn [foldM]. unfold comb_step at 1. cbn [any_subset].
    assert (CF : clash inside (flat_map tris c) = Ok false).
    { apply clash_false. eapply sublist_pairs; [|exact F]. apply sublist_flat_map. apply SC. left. auto. }
    rewrite CF. cbn [bind]. apply IH; [intros; apply SC; right; auto|]. right. unfold hset_add. destruct (hset_mem _ _ _ ret) eqn:M.
    - destruct ret; [discriminate|discriminate].
    - destruct ret; discriminate. }
  apply G; [intros c I; apply all_combs in I; tauto|]. left. intros E. assert (I : In l (flat_map (fun n => combinations n l) (seq 1 (length l)))) by (apply all_combs; split; [apply sublist_refl|auto]).
  rewrite E in I. destruct I.
Qed.
Lemma choose_ok : forall HC area_of kc ret, lists_all HC -> ret <> [] -> exists best, @choose RA HC area_of kc ret = Ok best.
Proof.
  intros HC area_of kc ret LA N. unfold choose, get. destruct (sort_by (@larger RA area_of) (listed HC kc (map snd ret))) as [|b t] eqn:ES; [|cbn; eauto].
  exfalso. assert (P : Permutation [] (map snd ret)) by (rewrite <- ES; eapply perm_trans; [apply sort_by_perm|apply LA]). apply Permutation_nil in P. destruct ret; [auto|discriminate].
Qed.

(*@ C74_all *)
(** C74: two or more loops of which none repeats the segments of another one, none has the summed area of
    several, and whose triangles do not clash, are all returned, in their order, each as a closed
    continuous polygon. *)
Lemma keep_all : forall (H : hashing nat) (HC : hashing (list nat)) lib inside h polygons tris area_of, lists_all HC -> loops h polygons -> (2 <= length polygons)%nat ->
  triangulated lib inside h polygons tris area_of ->
  (forall k t, (k < length polygons)%nat -> In t (tris k) -> exists a, triangle_area t = Ok a) ->
  (forall x, (x < length polygons)%nat -> ~ repeated h polygons x /\ ~ sums_up tris area_of (length polygons) x) ->
  clash_free inside (flat_map tris (seq 0 (length polygons))) ->
  exists rooms, keep_base_polygons H HC lib inside h polygons = Ok (Some rooms) /\
    Forall2 (fun p r => room_of r (value h p)) polygons rooms.
Proof.
  intros H HC lib inside h polygons tris area_of LA LP L2 TR TA NR CF. unfold keep_base_polygons.
  assert (ET : mapM (fun p => triangle_mesh lib (fun _ _ => inside) (value h p)) polygons = Ok (map tris (seq 0 (length polygons)))).
  { assert (G : forall ps m, (forall k, (k < length ps)%nat -> triangle_mesh lib (fun _ _ => inside) (value h (nth k ps [])) = Ok (tris (m + k)%nat)) ->
      mapM (fun p => triangle_mesh lib (fun _ _ => inside) (value h p)) ps = Ok (map tris (seq m (length ps)))).
    { induction ps as [|p ps IH]; intros m G; [reflexivity|]. cbn [mapM length seq map]. pose proof (G 0%nat ltac:(cbn; lia)) as G0. cbn [nth] in G0. rewrite Nat.add_0_r in G0. rewrite G0. cbn [bind].
      rewrite (IH (S m)); [reflexivity|]. intros k L. specialize (G (S k) ltac:(cbn; lia)). cbn [nth] in G. rewrite G. f_equal. f_equal. lia. }
    apply (G polygons 0%nat). intros k L. apply TR. auto. }
  assert (EA : mapM (fun p => area lib (fun _ _ => inside) (fun _ _ => inside) (value h p)) polygons = Ok (map area_of (seq 0 (length polygons)))).
  { assert (G : forall ps m, (forall k, (k < length ps)%nat -> area lib (fun _ _ => inside) (fun _ _ => inside) (value h (nth k ps [])) = Ok (area_of (m + k)%nat)) ->
      mapM (fun p => area lib (fun _ _ => inside) (fun _ _ => inside) (value h p)) ps = Ok (map area_of (seq m (length ps)))).
    { induction ps as [|p ps IH]; intros m G; [reflexivity|]. cbn [mapM length seq map]. pose proof (G 0%nat ltac:(cbn; lia)) as G0. cbn [nth] in G0. rewrite Nat.add_0_r in G0. rewrite G0. cbn [bind].
      rewrite (IH (S m)); [reflexivity|]. intros k L. specialize (G (S k) ltac:(cbn; lia)). cbn [nth] in G. rewrite G. f_equal. f_equal. lia. }
    apply (G polygons 0%nat). intros k L. apply TR. auto. }
  rewrite ET. cbn [bind]. destruct polygons as [|p1 [|p2 ps]]; [cbn in L2; lia|cbn in L2; lia|]. set (polygons := p1 :: p2 :: ps) in *. rewrite EA. cbn [bind].
  clear ET EA. set (tr := fun k => nth k (map tris (seq 0 (length polygons))) []). set (ar := fun k => @nth R k (map area_of (seq 0 (length polygons))) 0).
  match goal with |- context [keep_many H HC inside ?t ?f ?s0 ?l] => change (keep_many H HC inside t f s0 l) with (@keep_many RA H HC inside tr ar s0 l) end.
  assert (TRQ : forall k, (k < length polygons)%nat -> tr k = tris k) by (intros k L; unfold tr; rewrite (nth_indep _ [] (tris 0%nat)) by (rewrite map_length, seq_length; auto); rewrite map_nth, seq_nth by auto; reflexivity).
  assert (ARQ : forall k, (k < length polygons)%nat -> ar k = area_of k).
  { intros k L. unfold ar. rewrite (nth_indep _ 0 (area_of 0%nat)) by (rewrite map_length, seq_length; auto). rewrite map_nth, seq_nth by auto. reflexivity. }
  clearbody tr ar.
  assert (FMQ : forall c, (forall k, In k c -> (k < length polygons)%nat) -> flat_map tr c = flat_map tris c).
  { induction c as [|k c IH]; intros L; [reflexivity|]. cbn. rewrite TRQ by (apply L; left; auto). rewrite IH; auto. intros; apply L; right; auto. }
  destruct (loops_state h polygons LP) as ((kl & PL) & SP & CY & DI). set (st := mkb h polygons) in *. set (all := seq 0 (length polygons)) in *.
  assert (IA : forall k, In k all -> (k < length polygons)%nat) by (intros k I; apply in_seq in I; lia).
  unfold keep_many. rewrite mark_none.
  2:{ intros a b Ia Ib EQ. unfold loosely. destruct (alike_iff kl (val st a) (val st b)) as (r & Er & Ir); [intros t I; apply PL; eapply in_value; eauto|intros t I; apply PL; eapply in_value; eauto|].
      rewrite Er. destruct r; auto. exfalso. apply (proj1 (NR a (IA a Ia))). exists b. split; auto. split; [|apply Ir; auto].
      intros ->. rewrite equal_refl in EQ. discriminate. }
  cbn [bind]. destruct (unmarked_none H st all 0) as (k1 & ->). rewrite sweeps_none; auto.
  2:{ intros p t I J. apply TA with p; auto. rewrite <- TRQ; auto. }
  2:{ intros x c a I SC LC T. rewrite ARQ by auto. intros B. apply (proj2 (NR x (IA x I))). exists c, a. split; [exact SC|]. split; auto. split; auto.
      rewrite <- FMQ; auto. intros k J. apply IA. eapply sublist_incl; eauto. }
  cbn [bind]. assert (CF' : clash_free inside (flat_map tr all)) by (rewrite FMQ; auto).
  rewrite overlapping_none by auto. cbn [bind]. assert (NE : all <> []) by (unfold all, polygons; discriminate).
  destruct (candidates_ok H HC inside tr st all k1 CF' NE) as (k' & kc & ret & EC & NRet). rewrite EC. cbn [bind].
  destruct (choose_ok HC ar kc ret LA NRet) as (best & EB).
  rewrite EB. cbn [bind].
  assert (DS : forall a b, In a all -> In b all -> same st a b = true -> a = b).
  { apply (sameD kl); auto. }
  destruct (chosen_spec H HC inside st tr ar all DS all (incl_refl all) (seq_NoDup _ _) _ _ _ _ _ _ LA (overlapping_none _ _ _ CF') EC EB) as (SB & _ & _ & BE).
  assert (best = all) as ->.
  { apply sublist_full; auto. destruct (BE all (sublist_refl _ _) NE CF') as [L|[L _]]; lia. }
  destruct (copies all st []) as (st1 & rooms & E1 & K1 & F1); [intros p I; apply CY; auto|]. rewrite E1. cbn [bind app].
  destruct (order_all all st1) as (st2 & E2 & K2); [intros p I; apply kin_cyclic with st; auto|]. rewrite E2. cbn [bind].
  assert (LR : length all = length rooms) by (eapply Forall2_len; eauto). rewrite LR, Nat.eqb_refl. cbn [bind]. exists rooms. split; auto.
  clear -F1 LR. unfold all in F1. assert (G : forall qs m rs, (forall k, (k < length qs)%nat -> nth (m + k) polygons [] = nth k qs []) -> Forall2 (fun p r => room_of r (val st p)) (seq m (length qs)) rs ->
    Forall2 (fun p r => room_of r (value h p)) qs rs).
  { induction qs as [|p qs IH]; intros m rs G F; inversion F; subst; constructor.
    - specialize (G 0%nat ltac:(cbn; lia)). rewrite Nat.add_0_r in G. cbn [nth] in G. unfold val in H1. cbn [st b_heap b_ids] in H1. rewrite G in H1. auto.
    - apply (IH (S m)); auto. intros k L. specialize (G (S k) ltac:(cbn; lia)). cbn [nth] in G. rewrite <- G. f_equal. lia. }
  apply (G polygons 0%nat rooms); auto.
Qed.

(*@ C74_few *)
(** C74 (every arithmetic): a single loop is the only room, as it is; without any loop the rooms cannot be
    numbered: TypeError. *)
Lemma keep_few : forall (A : Arith) H HC (lib : mesh_lib A) inside h p,
  (forall ts, triangle_mesh lib (fun _ _ => inside) (value h p) = Ok ts ->
     keep_base_polygons H HC lib inside h [p] = Ok (Some [value h p]) /\ base_cycles (Some [value h p]) = Ok [(0%nat, value h p)]) /\
  (r <- keep_base_polygons H HC lib inside h [] ;; base_cycles r) = Err TypeError.
Proof.
  intros A H HC lib inside h p. split; [|reflexivity]. intros ts E. unfold keep_base_polygons. cbn [mapM]. rewrite E. split; reflexivity.
Qed.
