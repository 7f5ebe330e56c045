(** A vessel divided by a plate: when walking finds no loop first, it gets exactly its two rooms. *)
From Coq Require Import String Reals ZArith Lra Lia Bool List Psatz Permutation Arith Classical.
From Verif Require Import Base Arith ArithR ArithF MPoint MLine MPoly MTri MGroup MCycles MBase MContain MRaum MRooms MVessel
  Spec SpecGroup SpecCycles SpecLoops SpecBase SpecRooms SpecRing SpecContain SpecHeap SpecStack SpecPlate SpecPlateRooms
  PPoint PLine PConvex POrder PGroup PWalk PComponent PLoops POneRoom PPlainLoop PStack PPlate POnce PTwoRooms.
From Verif Require PBase PBase2 PContain PShape.
Import ListNotations.
Local Open Scope list_scope.
Local Open Scope R_scope.
#[local] Existing Instance RA.

(** * Segments of a simple graph *)
Lemma simple_same : forall g x y, simple_graph g -> In x g -> In y g -> same_ends x y -> x = y.
Proof.
  intros g x y (_ & _ & SI) Ix Iy S. apply In_nth_error in Ix as [i Ei]. apply In_nth_error in Iy as [j Ej].
  assert (i = j) by (apply (SI i j x y); auto). congruence.
Qed.
Lemma turned_ends : forall x y : seg RA, turned x y -> same_ends x y.
Proof. intros x y [-> | ->]; [left|right]; simpl; auto. Qed.
Lemma rearranged_from : forall (v W : list (seg RA)) x, rearranged v W -> In x v -> exists y, In y W /\ turned x y.
Proof.
  intros v W x (g' & P & F) I. apply In_nth_error in I as [k E]. destruct (Forall2_nth_l _ _ _ _ _ F k x E) as (y & Ey & T).
  exists y. split; auto. apply (Permutation_in _ P). eapply nth_error_In; eauto.
Qed.
Lemma same_inside : forall g W V x, simple_graph g -> incl W g -> incl V g -> rearranged W V -> In x W -> In x V.
Proof.
  intros g W V x SG IW IV RR I. destruct (rearranged_from _ _ x RR I) as (y & Iy & T).
  rewrite (simple_same g x y SG (IW x I) (IV y Iy) (turned_ends _ _ T)). exact Iy.
Qed.

Section Two.
Variables (s : seg RA) (p r g : list (seg RA)).
Hypotheses (R1 : ring (s :: p)) (R2 : ring (s :: r)) (R3 : ring (p ++ r)) (LB : (length p + length r < 249)%nat) (PG : Permutation g (s :: p ++ r)).
Lemma two_simple : simple_graph g.
Proof. apply (across_simple s p r g); auto. Qed.
Lemma two_parts : incl (s :: p) g /\ incl (s :: r) g /\ incl (p ++ r) g /\ ~ In s p /\ ~ In s r /\ (forall x, In x p -> In x r -> False) /\ p <> [] /\ r <> [].
Proof.
  assert (IN : forall x, In x (s :: p ++ r) -> In x g) by (intros x; apply Permutation_in; symmetry; exact PG).
  assert (ND : NoDup (s :: p ++ r)) by (apply (Permutation_NoDup PG), simple_nodup, two_simple).
  inversion ND as [|? ? N1 N2]; subst. rewrite in_app_iff in N1.
  assert (NE : forall l, ring (s :: l) -> l <> []).
  { intros l (vs & cy & L & _ & _ & F & P) ->. apply Permutation_length in P. pose proof (Forall2_len _ _ _ _ _ F) as Q. rewrite cycle_edges_length in Q. simpl in P. lia. }
  repeat split; auto; try (intros x X; apply IN; simpl in *; rewrite ?in_app_iff in *; tauto).
  clear - N2. induction p as [|y l IH]; intros x X Y; [destruct X|]. cbn [app] in N2. inversion N2; subst. destruct X as [<-|X]; [apply H1, in_or_app; auto|eauto].
Qed.
(** the ends of s are on every loop, and nothing else is on both sides *)
Lemma ring_nz : forall l, ring l -> (length l < 250)%nat -> forall x, In x l -> si x <> sj x.
Proof. intros l RL L. apply (ring_simple l RL L). Qed.
Lemma end_other : forall l q, ring (s :: l) -> (length l < 249)%nat -> In q (ij s) -> In q (flat_map ij l).
Proof.
  intros l q RL L Q. assert (NZ := ring_nz _ RL ltac:(simpl; lia)).
  apply (incident_in l q); [intros x X; apply NZ; right; auto|].
  destruct (ring_two (s :: l) q RL ltac:(simpl; lia)) as [E|E].
  - exfalso. revert E. apply (incident_in (s :: l) q NZ). cbn [flat_map]. apply in_or_app. auto.
  - intros Z. change (s :: l) with ([s] ++ l) in E. rewrite incident_app, Z in E. unfold incident in E. cbn [filter] in E. destruct (if pt_dec (si s) q then true else if pt_dec (sj s) q then true else false); simpl in E; lia.
Qed.
Lemma both_sides : forall q, In q (flat_map ij (s :: p)) -> In q (flat_map ij r) -> In q (ij s).
Proof.
  intros q Q1 Q2. destruct (classic (In q (ij s))) as [|N]; auto. exfalso.
  cbn [flat_map] in Q1. apply in_app_or in Q1 as [|Q1]; [contradiction|].
  assert (NZ1 := ring_nz _ R1 ltac:(simpl; lia)). assert (NZ2 := ring_nz _ R2 ltac:(simpl; lia)).
  apply (incident_in p q) in Q1; [|intros x X; apply NZ1; right; auto]. apply (incident_in r q) in Q2; [|intros x X; apply NZ2; right; auto].
  assert (E0 : incident [s] q = 0%nat).
  { destruct (Nat.eq_dec (incident [s] q) 0) as [|X]; auto. exfalso. apply N. apply (incident_in [s] q) in X; [cbn [flat_map] in X; rewrite app_nil_r in X; exact X|]. intros x [<-|[]]. apply NZ1. left; auto. }
  destruct (ring_two (s :: p) q R1 ltac:(simpl; lia)) as [E|E]; change (s :: p) with ([s] ++ p) in E; rewrite incident_app in E; [lia|].
  destruct (ring_two (s :: r) q R2 ltac:(simpl; lia)) as [F|F]; change (s :: r) with ([s] ++ r) in F; rewrite incident_app in F; [lia|].
  destruct (ring_two (p ++ r) q R3 ltac:(rewrite app_length; lia)) as [G|G]; rewrite incident_app in G; lia.
Qed.
Lemma two_share : forall l, loop_in g l -> In (si s) (flat_map ij l).
Proof.
  intros l L. assert (I : In (si s) (ij s)) by (left; auto).
  destruct (across_loops s p r g R1 R2 R3 LB PG l L) as [H|[H|H]]; apply (Permutation_in _ (Permutation_sym (rearranged_ends _ _ H)));
    [left; auto|left; auto|]. rewrite flat_map_app. apply in_or_app. left. apply end_other; auto. lia.
Qed.
Lemma two_differ : ~ rearranged (s :: p) (s :: r) /\ ~ rearranged (s :: p) (p ++ r) /\ ~ rearranged (s :: r) (p ++ r).
Proof.
  destruct two_parts as (I1 & I2 & I3 & N1 & N2 & D & NP & NR). pose proof two_simple as SG. split; [|split]; intros H.
  - destruct p as [|x p']; [congruence|]. destruct (same_inside g _ _ x SG I1 I2 H) as [E|X]; [right; left; auto| |].
    + subst. apply N1. left; auto.
    + apply (D x); auto. left; auto.
  - pose proof (same_inside g _ _ s SG I1 I3 H (or_introl eq_refl)) as X. apply in_app_or in X. tauto.
  - pose proof (same_inside g _ _ s SG I2 I3 H (or_introl eq_refl)) as X. apply in_app_or in X. tauto.
Qed.

Hypotheses (U1 : uncrossed (s :: p)) (U2 : uncrossed (s :: r)) (U3 : uncrossed (p ++ r)).
Lemma two_found : forall (schs : nat -> sched RA) wf fuel, walk_segments (schs fuel) wf g None = Ok NoLoop ->
  exists cs h cb ca co, find_loops schs wf fuel g = Ok (Some (cs, h)) /\ Forall2 turned h g /\ Permutation cs [cb; ca; co] /\
    rearranged (value h cb) (s :: p) /\ rearranged (value h ca) (s :: r) /\ rearranged (value h co) (p ++ r) /\
    (forall c, In c cs -> NoDup c /\ incl c (seq 0 (length g))) /\ ForallOrdPairs (fun c d => ~ Permutation c d) cs.
Proof.
  intros schs wf fuel EW. pose proof two_simple as SG. destruct two_parts as (I1 & I2 & I3 & _). destruct two_differ as (D1 & D2 & D3).
  assert (BIG : (length g < 250)%nat) by (rewrite (Permutation_length PG); simpl; rewrite app_length; lia).
  destruct (no_loop_missed schs wf fuel g SG BIG EW) as (cs & h & E & F1 & F2).
  destruct (found_once schs wf fuel g cs h SG BIG) as (FO & CI & T); auto.
  { intros l m L M. exists (si s). split; apply two_share; auto. }
  assert (GO : forall W, ring W -> uncrossed W -> incl W g -> exists c, In c cs /\ rearranged (value h c) W).
  { intros W RW UW IW. destruct (ring_loop g W W RW (Permutation_refl _) IW) as (w & L & RR).
    destruct (F1 w L (uncrossed_rearranged w W RR UW)) as (c & Ic & Rc). exists c. split; auto. eapply PBase.rearranged_trans; eauto. }
  destruct (GO _ R1 U1 I1) as (cb & Ib & Rb). destruct (GO _ R2 U2 I2) as (ca & Ia & Ra). destruct (GO _ R3 U3 I3) as (co & Io & Ro).
  exists cs, h, cb, ca, co. split; auto. split; auto. split; [|auto 10].
  assert (UNI : forall c d W, In c cs -> In d cs -> rearranged (value h c) W -> rearranged (value h d) W -> c = d).
  { intros c d W Ic Id Rc Rd. destruct (CI c Ic), (CI d Id).
    assert (P : Permutation c d) by (apply (same_numbers g h); auto; eapply PBase.rearranged_trans; [exact Rc|apply PBase2.rearranged_sym, Rd]).
    destruct (fop_any _ (fun c d => ~ Permutation c d) cs c d) as [->|X]; auto. - intros x y N Q. apply N. symmetry. exact Q. - contradiction. }
  assert (NE : forall c d W V, rearranged (value h c) W -> rearranged (value h d) V -> ~ rearranged W V -> c <> d).
  { intros c d W V RW RV N ->. apply N. eapply PBase.rearranged_trans; [apply PBase2.rearranged_sym, RW|exact RV]. }
  apply NoDup_Permutation.
  - clear - FO. induction FO as [|x l F _ IH]; constructor; auto. intros I. rewrite Forall_forall in F. apply (F x I). reflexivity.
  - repeat constructor; simpl; intros K; repeat (destruct K as [K|K]); try contradiction; [revert K|revert K|revert K];
      [apply not_eq_sym, (NE cb ca _ _ Rb Ra D1)|apply not_eq_sym, (NE cb co _ _ Rb Ro D2)|apply not_eq_sym, (NE ca co _ _ Ra Ro D3)].
  - intros c. split; [|intros [<-|[<-|[<-|[]]]]; auto]. intros Ic. destruct (F2 c Ic) as (l & L & _ & Rc).
    destruct (across_loops s p r g R1 R2 R3 LB PG l L) as [H|[H|H]]; pose proof (PBase.rearranged_trans _ _ _ Rc H) as Q;
      [left; apply (UNI cb c (s :: p))|right; left; apply (UNI ca c (s :: r))|right; right; left; apply (UNI co c (p ++ r))]; auto.
Qed.
End Two.

(** * The three results as loops *)
Lemma alike_numbers : forall g h c d, simple_graph g -> Forall2 turned h g -> NoDup c -> NoDup d -> incl c (seq 0 (length g)) -> incl d (seq 0 (length g)) ->
  alike (value h c) (value h d) -> Permutation c d.
Proof.
  intros g h c d SG T NC ND IC ID (LL & AL). pose proof SG as (_ & _ & SI).
  assert (LH : length h = length g) by (apply (Forall2_len _ _ _ _ _ T)).
  assert (R : forall x, incl x (seq 0 (length g)) -> inrange h x) by (intros x I k K; apply I, in_seq in K; lia).
  rewrite !value_length in LL by auto. apply NoDup_Permutation_bis; auto; [lia|].
  intros k K. destruct (nth_error h k) as [s|] eqn:Ek; [|apply nth_error_None in Ek; apply IC, in_seq in K; lia].
  assert (Is : In s (value h c)) by (apply in_value_iff; exists k; auto).
  destruct (AL s Is) as (s' & Es & T'). apply in_value_iff in Es as (j & Ij & Ej).
  destruct (Forall2_nth_l _ _ _ _ _ T k s Ek) as (u & Eu & Tu). destruct (Forall2_nth_l _ _ _ _ _ T j s' Ej) as (v & Ev & Tv).
  replace k with j; auto. apply (SI j k v u); auto. clear - T' Tu Tv. unfold same_ends.
  destruct s as [c1 i1 j1], s' as [c2 i2 j2], u as [c3 i3 j3], v as [c4 i4 j4]. cbn in *.
  destruct T' as [T'|T'], Tu as [Tu|Tu], Tv as [Tv|Tv]; injection T' as ? ? ?; injection Tu as ? ? ?; injection Tv as ? ? ?; subst; auto.
Qed.
Lemma eqb_alike : forall k (a b : list (seg RA)), (forall s, In s (a ++ b) -> sc s = k) -> separated (flat_map ij (a ++ b)) -> poly_eqb a b = true -> alike a b.
Proof.
  intros k a b CK SP E. unfold poly_eqb in E. apply andb_prop in E as [L E]. apply Nat.eqb_eq in L. split; auto.
  assert (Q : forall x y, In x a -> In y b -> seg_eqb x y = true -> x = y).
  { intros x y Ix Iy S. unfold seg_eqb in S. apply andb_prop in S as [S S3]. apply andb_prop in S as [_ S2].
    assert (IE : forall z q, In z a \/ In z b -> In q (ij z) -> In q (flat_map ij (a ++ b))) by (intros z q Z Q; apply in_flat_map; exists z; split; auto; apply in_or_app; auto).
    assert (E1 : si x = si y) by (apply (PShape.separated_eqb _ SP); [apply (IE x); simpl; auto|apply (IE y); simpl; auto|exact S2]).
    assert (E2 : sj x = sj y) by (apply (PShape.separated_eqb _ SP); [apply (IE x); simpl; auto|apply (IE y); simpl; auto|exact S3]).
    assert (E3 : sc x = sc y) by (rewrite !CK; auto; apply in_or_app; auto). destruct x, y; cbn in *; congruence. }
  clear SP CK. revert b L E Q. induction a as [|x a IH]; intros [|y b] L E Q; try discriminate L; intros s I; [destruct I|].
  cbn [forallb2] in E. apply andb_prop in E as [E1 E2]. destruct I as [<-|I].
  - exists y. split; [left; auto|left]. apply Q; auto; left; auto.
  - destruct (IH b ltac:(simpl in L; lia) E2 ltac:(intros; apply Q; auto; right; auto) s I) as (t & It & Tt). exists t. split; auto. right; auto.
Qed.

Lemma separated_turned : forall h g : list (seg RA), Forall2 turned h g -> separated (flat_map ij g) -> separated (flat_map ij h).
Proof.
  intros h g T SP. assert (Q : forall x, In x (flat_map ij h) -> In x (flat_map ij g)).
  { intros x. apply Permutation_in, rearranged_ends. exists g. split; auto. }
  intros x y X Y. apply SP; auto.
Qed.
Lemma three_loops : forall g h cs, simple_graph g -> (length g < 250)%nat -> (exists k, forall x, In x g -> sc x = k) -> Forall2 turned h g ->
  (forall c, In c cs -> NoDup c /\ incl c (seq 0 (length g)) /\ exists W, ring W /\ (length W < 250)%nat /\ rearranged (value h c) W) ->
  ForallOrdPairs (fun c d => ~ Permutation c d) cs -> loops h cs /\ forall x, (x < length cs)%nat -> ~ repeated h cs x.
Proof.
  intros g h cs SG BIG (k & CK) T CI FO. pose proof SG as (SEP & _ & _).
  assert (LH : length h = length g) by (apply (Forall2_len _ _ _ _ _ T)).
  assert (CH : forall x, In x h -> sc x = k).
  { intros x I. apply In_nth_error in I as [i E]. destruct (Forall2_nth_l _ _ _ _ _ T i x E) as (y & Ey & [-> | ->]); [|cbn [sc]]; apply CK; eapply nth_error_In; eauto. }
  assert (SH : separated (flat_map ij h)) by (apply (separated_turned h g); auto).
  assert (DIFF : forall i j c d, i <> j -> nth_error cs i = Some c -> nth_error cs j = Some d -> ~ alike (value h c) (value h d)).
  { intros i j c d N Ei Ej AL. assert (P : Permutation c d).
    { destruct (CI c (nth_error_In _ _ Ei)) as (X1 & X2 & _), (CI d (nth_error_In _ _ Ej)) as (Y1 & Y2 & _). apply (alike_numbers g h); auto. }
    clear - FO N Ei Ej P. revert i j N Ei Ej. induction FO as [|x l F _ IH]; intros [|i] [|j] N Ei Ej; cbn in Ei, Ej; try discriminate; [congruence| | |apply (IH i j); auto].
    - injection Ei as <-. rewrite Forall_forall in F. apply (F d); auto. eapply nth_error_In; eauto.
    - injection Ej as <-. rewrite Forall_forall in F. apply (F c); [eapply nth_error_In; eauto|symmetry; exact P]. }
  split.
  - split; [exists k; exact CH|]. split; auto. split.
    + intros c Ic. destruct (CI c Ic) as (ND & IN & W & (vs & cy & L3 & NV & SV & F & P) & LW & RR). split; auto.
      split; [intros x X; apply IN, in_seq in X; lia|]. exists vs. destruct RR as (W' & PW & FW).
      assert (LV : length vs = length W) by (pose proof (Forall2_len _ _ _ _ _ F) as Q; rewrite cycle_edges_length in Q; rewrite (Permutation_length P); exact Q).
      apply (PBase.cycle_turned W' (value h c)); auto. apply (PBase.cycle_perm W); auto. split; [lia|]. split; auto. split; auto. exists cy. auto.
    + intros i j c d N Ei Ej. apply not_true_is_false. intros E. apply (DIFF i j c d N Ei Ej).
      assert (SUB : forall z, In z (value h c ++ value h d) -> In z h) by (intros z Z; apply in_app_or in Z as [Z|Z]; eapply in_value; eauto).
      apply (eqb_alike k); auto. intros a b A B. apply SH; apply in_flat_map; [apply in_flat_map in A as (z & Z & A); exists z; auto|apply in_flat_map in B as (z & Z & B); exists z; auto].
  - intros x Lx (y & Ly & N & AL). unfold loop in AL.
    apply (DIFF x y (nth x cs []) (nth y cs [])); auto; apply nth_error_nth'; auto.
Qed.

(** * The choice of the rooms *)
Lemma kept_two : forall (H : hashing nat) (HC : hashing (list nat)) lib inside h cs cb ca co Wb Wa Wo zb za, lists_all HC ->
  loops h cs -> (forall x, (x < length cs)%nat -> ~ repeated h cs x) -> Permutation cs [cb; ca; co] ->
  rearranged (value h cb) Wb -> rearranged (value h ca) Wa -> rearranged (value h co) Wo ->
  cut_up lib inside Wb zb -> cut_up lib inside Wa za -> cut_up lib inside Wo (zb + za) -> 2 / 10^8 <= zb -> 2 / 10^8 <= za ->
  no_clash lib inside Wb Wa -> no_clash lib inside Wa Wb ->
  exists v w, keep_base_polygons H HC lib inside h cs = Ok (Some [v; w]) /\
    ((rearranged v Wb /\ rearranged w Wa) \/ (rearranged v Wa /\ rearranged w Wb)).
Proof.
  intros H HC lib inside h cs cb ca co Wb Wa Wo zb za LA LP NR PC Rb Ra Ro Mb Ma Mo Zb Za N1 N2.
  assert (L3 : length cs = 3%nat) by (rewrite (Permutation_length PC); reflexivity). rewrite L3 in NR.
  assert (AT : forall c, In c [cb; ca; co] -> exists i, (i < 3)%nat /\ nth i cs [] = c).
  { intros c I. apply (Permutation_in _ (Permutation_sym PC)) in I. apply (In_nth _ _ []) in I as (i & L & E). exists i. split; auto. lia. }
  assert (PN : forall i j, (i < 3)%nat -> (j < 3)%nat -> nth i cs [] = nth j cs [] -> i = j).
  { intros i j Li Lj E. destruct (Nat.eq_dec i j) as [|N]; auto. exfalso. apply (NR i Li). exists j. rewrite L3. split; auto. split; auto.
    unfold loop. rewrite E. apply PBase2.rearranged_alike, PBase2.rearranged_refl. }
  destruct (AT cb) as (ib & Lb & Eb); [simpl; auto|]. destruct (AT ca) as (ia & La & Ea); [simpl; auto|]. destruct (AT co) as (io & Lo & Eo); [simpl; auto|].
  assert (ND : NoDup [cb; ca; co]).
  { apply (Permutation_NoDup PC). apply (NoDup_nth cs []). intros i j Li Lj E. apply PN; auto; lia. }
  assert (D : ib <> ia /\ ib <> io /\ ia <> io).
  { inversion ND as [|? ? X1 ND1]; subst. inversion ND1 as [|? ? X2 _]; subst. simpl in X1, X2. repeat split; intros ->; tauto. }
  set (tris := fun k => match triangle_mesh lib (fun _ _ => inside) (loop h cs k) with Ok t => t | Err _ => [] end).
  set (area_of := fun k => match area lib (fun _ _ => inside) (fun _ _ => inside) (loop h cs k) with Ok t => t | Err _ => 0 end).
  set (size := fun k => if Nat.eqb k ib then zb else if Nat.eqb k ia then za else zb + za).
  assert (S1 : size ib = zb) by (unfold size; rewrite Nat.eqb_refl; auto).
  assert (S2 : size ia = za) by (unfold size; rewrite Nat.eqb_refl; destruct (Nat.eqb_spec ia ib); [lia|auto]).
  assert (S3 : size io = zb + za) by (unfold size; destruct (Nat.eqb_spec io ib); [lia|]; destruct (Nat.eqb_spec io ia); [lia|auto]).
  assert (ONE : forall k, (k < 3)%nat -> k = ib \/ k = ia \/ k = io) by (intros k L; lia).
  assert (MM : forall k, (k < 3)%nat -> exists ts, triangle_mesh lib (fun _ _ => inside) (loop h cs k) = Ok ts /\ total_area ts (size k)).
  { intros k L. unfold loop. destruct (ONE k L) as [-> | [-> | ->]]; [rewrite Eb, S1|rewrite Ea, S2|rewrite Eo, S3]; auto. }
  assert (TR : triangulated lib inside h cs tris area_of).
  { intros k L. rewrite L3 in L. destruct (MM k L) as (ts & ET & as_ & F & _). unfold tris, area_of. rewrite ET. split; auto.
    apply PBase.mapM_all in F. unfold area, detailled_area. rewrite ET. cbn [bind]. rewrite F. reflexivity. }
  assert (TS : forall k, (k < 3)%nat -> total_area (tris k) (size k) /\ 2 / 10^8 <= size k).
  { intros k L. split; [destruct (MM k L) as (ts & ET & TA); unfold tris; rewrite ET; exact TA|]. destruct (ONE k L) as [-> | [-> | ->]]; [rewrite S1|rewrite S2|rewrite S3]; lra. }
  assert (CF : forall i j W V, (i < 3)%nat -> (j < 3)%nat -> rearranged (loop h cs i) W -> rearranged (loop h cs j) V -> no_clash lib inside W V -> clash_free inside (tris i ++ tris j)).
  { intros i j W V Li Lj RW RV N. destruct (MM i Li) as (ts & ET & _). destruct (MM j Lj) as (us & EU & _). unfold tris. rewrite ET, EU. apply (N (loop h cs i) (loop h cs j)); auto. }
  assert (RB : rearranged (loop h cs ib) Wb) by (unfold loop; rewrite Eb; auto). assert (RA' : rearranged (loop h cs ia) Wa) by (unfold loop; rewrite Ea; auto).
  assert (P3 : forall i j, (i < 3)%nat -> (j < 3)%nat -> i <> j -> i <> io -> j <> io -> Permutation [i; j; io] [0; 1; 2]%nat).
  { intros i j Li Lj N1' N2' N3'. apply NoDup_Permutation_bis; [|simpl; lia|intros k [<-|[<-|[<-|[]]]]; simpl; lia].
    repeat constructor; simpl; lia. }
  destruct (Nat.lt_ge_cases ib ia) as [LT|GE].
  - destruct (keep_two H HC lib inside h cs tris area_of size ib ia io) as (v & w & E & (Rv & _) & (Rw & _)); auto.
    + apply P3; lia.
    + rewrite S1, S2, S3. reflexivity.
    + apply (CF ib ia Wb Wa); auto.
    + exists v, w. split; auto. left. split; eapply PBase.rearranged_trans; eauto.
  - destruct (keep_two H HC lib inside h cs tris area_of size ia ib io) as (v & w & E & (Rv & _) & (Rw & _)); auto.
    + apply P3; lia.
    + lia.
    + rewrite S1, S2, S3. apply Rplus_comm.
    + apply (CF ia ib Wa Wb); auto.
    + exists v, w. split; auto. right. split; eapply PBase.rearranged_trans; eauto.
Qed.

(** * The parts of each room *)
Lemma part_on : forall s p r g h v q, ring (s :: p) -> ring (s :: r) -> ring (p ++ r) -> (length p + length r < 249)%nat -> Permutation g (s :: p ++ r) ->
  Forall2 turned h g -> rearranged v (s :: p) -> q <> [] -> incl q (seq 0 (length g)) ->
  (incl (value g q) [s] \/ incl (value g q) p \/ incl (value g q) r) ->
  (loose_subset v (value h q) || existsb (fun y => memb seg_eqb y (value h q)) v = true <-> incl (value g q) (s :: p)).
Proof.
  intros s p r g h v q R1 R2 R3 LB PG T RV NQ IQ SIDE.
  pose proof (two_simple s p r g R1 R2 R3 LB PG) as SG. pose proof SG as (SEP & NZ & _).
  destruct (two_parts s p r g R1 R2 R3 LB PG) as (I1 & I2 & I3 & N1 & N2 & DD & NP & NR).
  assert (SH : separated (flat_map ij h)) by (apply (separated_turned h g); auto).
  assert (EV : forall x, In x (flat_map ij v) <-> In x (flat_map ij (s :: p))).
  { intros x. pose proof (rearranged_ends _ _ RV) as P. split; apply Permutation_in; auto. symmetry. exact P. }
  assert (EQ : forall x, In x (flat_map ij (value h q)) <-> In x (flat_map ij (value g q))).
  { intros x. assert (RR : rearranged (value h q) (value g q)) by (exists (value g q); split; [auto|exact (value_turned h g q T)]).
    pose proof (rearranged_ends _ _ RR) as P. split; apply Permutation_in; auto. symmetry. exact P. }
  assert (VV : forall z, In z (value h q) -> exists z', In z' (value g q) /\ turned z z').
  { intros z Iz. apply in_value_iff in Iz as (k & K & Ek). destruct (Forall2_nth_l _ _ _ _ _ T k z Ek) as (z' & Ez & TT). exists z'. split; auto. apply in_value_iff. exists k; auto. }
  split.
  - intros E. destruct SIDE as [S1|[S1|S1]]; [intros x X; left; apply S1 in X as [X|[]]; exact X|intros x X; right; auto|]. exfalso.
    assert (AR : forall x, In x (value g q) -> In x r) by auto.
    apply orb_true_iff in E as [E|E].
    + assert (NV : exists x, In x (value g q)).
      { destruct q as [|k q']; [congruence|]. assert (K : (k < length g)%nat) by (specialize (IQ k (or_introl eq_refl)); apply in_seq in IQ; lia).
        destruct (nth_error g k) as [x|] eqn:Ek; [|apply nth_error_None in Ek; lia]. exists x. apply in_value_iff. exists k. split; [left; auto|auto]. }
      destruct NV as (x & Ix). pose proof (AR x Ix) as Xr.
      assert (ON : forall y, In y (ij x) -> In y (ij s)).
      { intros y Iy. apply (both_sides s p r R1 R2 R3 LB y); [|apply in_flat_map; exists x; auto].
        unfold loose_subset in E. rewrite forallb_forall in E. apply EV.
        assert (J : In y (dedup pt_sameb (flat_map ij (value h q)))).
        { apply dedup_In; [apply pt_sameb_iff|]. apply EQ. apply in_flat_map. exists x. auto. }
        specialize (E y J). apply memb_ex in E as (u & Iu & E). apply pt_sameb_iff in E. subst u. exact Iu. }
      assert (NZX : si x <> sj x) by (apply NZ, I2; right; auto).
      assert (x = s).
      { apply (simple_same g); auto; [apply I2; right; auto|apply I1; left; auto|].
        pose proof (ON (si x) (or_introl eq_refl)) as O1. pose proof (ON (sj x) (or_intror (or_introl eq_refl))) as O2.
        unfold same_ends. cbn in O1, O2. destruct O1 as [O1|[O1|[]]], O2 as [O2|[O2|[]]]; try (exfalso; apply NZX; congruence); [left|right]; auto. }
      subst x. contradiction.
    + apply existsb_exists in E as (y & Iy & E). apply memb_ex in E as (z & Iz & E).
      destruct (rearranged_from _ _ y RV Iy) as (y' & Iy' & Ty). destruct (VV z Iz) as (z' & Iz' & Tz).
      assert (z' = y'); [|subst y'; destruct Iy' as [<-|X]; [apply N2; auto|apply (DD z'); auto]].
      apply (simple_same g); auto; [apply I2; right; auto|].
      unfold seg_eqb in E. apply andb_true_iff in E as [E EJ]. apply andb_true_iff in E as [_ EI].
      assert (PZ : forall a, In a (ij z) -> In a (flat_map ij g)).
      { intros a Ia. apply in_flat_map. exists z'. split; [apply I2; right; auto|]. apply (turned_ij _ _ a Tz). exact Ia. }
      assert (PY : forall a, In a (ij y) -> In a (flat_map ij g)).
      { intros a Ia. apply in_flat_map. exists y'. split; [apply I1; exact Iy'|]. apply (turned_ij _ _ a Ty). exact Ia. }
      apply (PShape.separated_eqb _ SEP) in EI; [|apply PZ; simpl; auto|apply PY; simpl; auto].
      apply (PShape.separated_eqb _ SEP) in EJ; [|apply PZ; simpl; auto|apply PY; simpl; auto].
      apply turned_ends in Ty, Tz. unfold same_ends in *. destruct Ty as [[Y1 Y2]|[Y1 Y2]], Tz as [[Z1 Z2]|[Z1 Z2]]; rewrite <- Y1, <- Y2, <- Z1, <- Z2; auto.
  - intros IN. apply orb_true_iff. left. unfold loose_subset. apply forallb_forall. intros x X.
    apply dedup_In in X; [|apply pt_sameb_iff]. apply EQ in X. apply memb_ex. exists x. split; [|apply pt_sameb_iff; auto].
    apply EV. apply in_flat_map in X as (y & Iy & X). apply in_flat_map. exists y. auto.
Qed.

(** * Neither room is inside of the other *)
Lemma none_contained : forall inside2 (X Y : list (list (seg RA))) q q', right_for_convex inside2 ->
  (forall x, point_of X x \/ point_of Y x -> stored x) ->
  (forall a b, point_of X a \/ point_of Y a -> point_of X b \/ point_of Y b -> Rabs (px a - px b) < 1 / 10^5 -> Rabs (py a - py b) < 1 / 10^5 -> a = b) ->
  point_of X q -> point_of Y q -> point_of X q' -> point_of Y q' -> q <> q' ->
  ((forall x, point_of X x -> py x <= py q) /\ (forall y, point_of Y y -> py q <= py y)) \/
  ((forall x, point_of X x -> py q <= py x) /\ (forall y, point_of Y y -> py y <= py q)) ->
  contained_cycles inside2 [(0%nat, X); (1%nat, Y)] = Ok [(0%nat, []); (1%nat, [])].
Proof.
  intros inside2 X Y q q' RC ST SP XQ YQ XQ' YQ' NQ SIDE.
  destruct (PContain.contained_interior inside2 [(0%nat, X); (1%nat, Y)]) as (rr & E & EM & SPEC); auto.
  - repeat constructor; simpl; lia.
  - intros e pe [K|[K|[]]]; injection K as <- <-; (split; [intros x I; apply ST; auto|]; split; [exists q, q'; auto|]; intros a b A B; apply SP; auto).
  - assert (UP : forall (S : pt RA -> Prop), (forall x, S x -> py x <= py q) -> ~ in_hull S q).
    { intros S U K. destruct (K 0 1) as (x & Sx & L); [right; lra|]. specialize (U x Sx). cbn in *. lra. }
    assert (DN : forall (S : pt RA -> Prop), (forall x, S x -> py q <= py x) -> ~ in_hull S q).
    { intros S U K. destruct (K 0 (-1)) as (x & Sx & L); [right; lra|]. specialize (U x Sx). cbn in *. lra. }
    assert (NX : ~ in_hull (point_of X) q) by (destruct SIDE as [[A B]|[A B]]; auto).
    assert (NY : ~ in_hull (point_of Y) q) by (destruct SIDE as [[A B]|[A B]]; auto).
    rewrite E. f_equal. destruct rr as [|[e0 r0] [|[e1 r1] [|? ?]]]; try discriminate EM. cbn in EM. injection EM as -> ->.
    assert (EMP : forall e pe row z pz, In (e, pe) [(0%nat, X); (1%nat, Y)] -> In (z, pz) [(0%nat, X); (1%nat, Y)] -> z = (1 - e)%nat -> In (e, row) [(0%nat, r0); (1%nat, r1)] ->
      point_of pz q -> ~ in_hull (point_of pe) q -> row = []).
    { intros e pe row z pz I1 I2 EZ I3 PZ NH. destruct (SPEC e pe row I1 I3) as [INC CH]. destruct row as [|k row]; auto. exfalso.
      pose proof (INC k (or_introl eq_refl)) as K. cbn in K.
      assert (EE : e = 0%nat \/ e = 1%nat) by (destruct I1 as [Q|[Q|[]]]; injection Q as <- <-; auto).
      destruct (Nat.eq_dec k e) as [->|NK].
      - apply (CH e pe) in I1 as [I1 _]. apply I1; [left; auto|reflexivity].
      - assert (k = z) as -> by lia. apply (CH z pz) in I2 as [I2 _]. destruct (I2 (or_introl eq_refl)) as [_ HU]. apply NH, HU, PZ. }
    rewrite (EMP 0%nat X r0 1%nat Y), (EMP 1%nat Y r1 0%nat X); simpl; auto.
Qed.

(** * The rooms *)
Lemma two_rooms : forall (schs : nat -> sched RA) wf fuel H HC lib inside inside2 Hs parts s p r (g : list (seg RA)) zb za,
  ring (s :: p) -> ring (s :: r) -> ring (p ++ r) -> (length p + length r < 249)%nat -> Permutation g (s :: p ++ r) ->
  uncrossed (s :: p) -> uncrossed (s :: r) -> uncrossed (p ++ r) -> (exists k, forall x, In x g -> sc x = k) ->
  walk_segments (schs fuel) wf g None = Ok NoLoop ->
  lists_all HC -> cut_up lib inside (s :: p) zb -> cut_up lib inside (s :: r) za -> cut_up lib inside (p ++ r) (zb + za) -> 2 / 10^8 <= zb -> 2 / 10^8 <= za ->
  no_clash lib inside (s :: p) (s :: r) -> no_clash lib inside (s :: r) (s :: p) ->
  right_for_convex inside2 -> (forall x, In x (flat_map ij g) -> stored x) ->
  (forall x, In x (flat_map ij (s :: p)) -> py x <= py (si s)) -> (forall x, In x (flat_map ij (s :: r)) -> py (si s) <= py x) ->
  Permutation (concat parts) (seq 0 (length g)) -> Forall (fun q => q <> []) parts ->
  (forall q, In q parts -> incl (value g q) [s] \/ incl (value g q) p \/ incl (value g q) r) ->
  exists h on1 on2 W1 W2, vessel_rooms schs wf fuel H HC lib inside inside2 Hs parts g =
      Ok (Some [mkraum "R1" 0 [] [map (value h) on1] []; mkraum "R2" 1 [] [map (value h) on2] []]) /\
    Forall2 turned h g /\ sublist on1 parts /\ sublist on2 parts /\
    ((W1 = s :: p /\ W2 = s :: r) \/ (W1 = s :: r /\ W2 = s :: p)) /\
    (forall q, In q parts -> (In q on1 <-> incl (value g q) W1) /\ (In q on2 <-> incl (value g q) W2)).
Proof.
  intros schs wf fuel H HC lib inside inside2 Hs parts s p r g zb za R1 R2 R3 LB PG U1 U2 U3 CK EW LA Mb Ma Mo Zb Za N1 N2 RC ST LOW HIGH PP NEP SIDE.
  pose proof (two_simple s p r g R1 R2 R3 LB PG) as SG. pose proof SG as (SEP & NZ & _).
  destruct (two_parts s p r g R1 R2 R3 LB PG) as (I1 & I2 & I3 & _).
  destruct (two_found s p r g R1 R2 R3 LB PG U1 U2 U3 schs wf fuel EW) as (cs & h & cb & ca & co & EF & T & PC & Rb & Ra & Ro & CI & FO).
  assert (BIG : (length g < 250)%nat) by (rewrite (Permutation_length PG); simpl; rewrite app_length; lia).
  destruct (three_loops g h cs SG BIG CK T) as [LP NR]; auto.
  { intros c Ic. destruct (CI c Ic) as [X1 X2]. split; auto. split; auto. apply (Permutation_in _ PC) in Ic.
    destruct Ic as [<-|[<-|[<-|[]]]]; [exists (s :: p)|exists (s :: r)|exists (p ++ r)]; (split; auto; split; auto); simpl; rewrite ?app_length; lia. }
  destruct (kept_two H HC lib inside h cs cb ca co _ _ _ zb za LA LP NR PC Rb Ra Ro Mb Ma Mo Zb Za N1 N2) as (v & w & EK & VW).
  set (cond := fun (v : list (seg RA)) (q : list nat) => loose_subset v (value h q) || existsb (fun y => memb seg_eqb y (value h q)) v).
  set (on := fun v => filter (cond v) parts).
  rewrite Forall_forall in NEP.
  assert (IQ : forall q, In q parts -> incl q (seq 0 (length g))) by (intros q Iq k K; apply (Permutation_in _ PP), in_concat; exists q; auto).
  assert (CB : forall v, rearranged v (s :: p) -> forall q, In q parts -> (cond v q = true <-> incl (value g q) (s :: p))).
  { intros v0 RV q Iq. apply (part_on s p r g h v0 q); auto. }
  assert (R3' : ring (r ++ p)) by (apply (ring_perm (p ++ r)); auto; apply Permutation_app_comm).
  assert (PG' : Permutation g (s :: r ++ p)) by (rewrite PG; constructor; apply Permutation_app_comm).
  assert (CA : forall v, rearranged v (s :: r) -> forall q, In q parts -> (cond v q = true <-> incl (value g q) (s :: r))).
  { intros v0 RV q Iq. apply (part_on s r p g h v0 q); auto; [lia|]. destruct (SIDE q Iq) as [X|[X|X]]; auto. }
  (* the points of the walls of a room *)
  assert (PT : forall v W, (forall q, In q parts -> (cond v q = true <-> incl (value g q) W)) -> forall x, point_of (map (value h) (on v)) x -> In x (flat_map ij W)).
  { intros v0 W C x (l & t & Il & It & Ix). apply in_map_iff in Il as (q & <- & Iq). apply filter_In in Iq as [Iq Cq]. apply (C q Iq) in Cq.
    apply in_value_iff in It as (k & K & Ek). destruct (Forall2_nth_l _ _ _ _ _ T k t Ek) as (t' & Et & TT).
    apply in_flat_map. exists t'. split; [apply Cq, in_value_iff; exists k; auto|]. apply (turned_ij _ _ x TT). exact Ix. }
  assert (PS : forall v W, In s W -> (forall q, In q parts -> (cond v q = true <-> incl (value g q) W)) ->
    forall x, In x (ij s) -> point_of (map (value h) (on v)) x).
  { intros v0 W IS C x Ix. assert (Is : In s g) by (apply I1; left; auto). apply In_nth_error in Is as [k Ek].
    assert (K : In k (concat parts)) by (apply (Permutation_in _ (Permutation_sym PP)), in_seq; assert (k < length g)%nat by (apply nth_error_Some; congruence); lia).
    apply in_concat in K as (q & Iq & K).
    assert (LH : length h = length g) by (apply (Forall2_len _ _ _ _ _ T)).
    destruct (nth_error h k) as [t|] eqn:Et; [|apply nth_error_None in Et; assert (k < length g)%nat by (apply nth_error_Some; congruence); lia].
    destruct (Forall2_nth_l _ _ _ _ _ T k t Et) as (s' & Es & TT). rewrite Ek in Es. injection Es as <-.
    exists (value h q), t. split; [|split; [apply in_value_iff; exists k; auto|apply (turned_ij _ _ x TT); exact Ix]].
    apply in_map. apply filter_In. split; auto. apply (C q Iq). 
    assert (IV : In s (value g q)) by (apply in_value_iff; exists k; auto).
    destruct (two_parts s p r g R1 R2 R3 LB PG) as (_ & _ & _ & X1 & X2 & _).
    destruct (SIDE q Iq) as [X|[X|X]]; [|exfalso; auto|exfalso; auto]. intros y Y. apply X in Y as [<-|[]]. exact IS. }
  assert (NS : si s <> sj s) by (apply NZ, I1; left; auto).
  assert (GO : exists W1 W2, ((W1 = s :: p /\ W2 = s :: r) \/ (W1 = s :: r /\ W2 = s :: p)) /\
    (forall q, In q parts -> (cond v q = true <-> incl (value g q) W1)) /\ (forall q, In q parts -> (cond w q = true <-> incl (value g q) W2))).
  { destruct VW as [[RV RW]|[RV RW]]; [exists (s :: p), (s :: r)|exists (s :: r), (s :: p)]; auto. }
  destruct GO as (W1 & W2 & WW & CV & CW).
  assert (CC : contained_cycles inside2 [(0%nat, map (value h) (on v)); (1%nat, map (value h) (on w))] = Ok [(0%nat, []); (1%nat, [])]).
  { assert (INW : In s W1 /\ In s W2 /\ incl W1 g /\ incl W2 g) by (destruct WW as [[-> ->]|[-> ->]]; repeat split; auto; left; auto). destruct INW as (S1 & S2 & G1 & G2).
    assert (GP : forall x, point_of (map (value h) (on v)) x \/ point_of (map (value h) (on w)) x -> In x (flat_map ij g)).
    { intros x [X|X]; [apply (PT v W1 CV) in X|apply (PT w W2 CW) in X]; apply in_flat_map in X as (y & Iy & X); apply in_flat_map; exists y; auto. }
    apply (none_contained inside2 _ _ (si s) (sj s)); auto.
    - apply (PS v W1); auto; left; auto.
    - apply (PS w W2); auto; left; auto.
    - apply (PS v W1); auto; right; left; auto.
    - apply (PS w W2); auto; right; left; auto.
    - destruct WW as [[-> ->]|[-> ->]]; [left|right]; split; intros x X; try (apply LOW); try (apply HIGH); [apply (PT v (s :: p) CV)|apply (PT w (s :: r) CW)|apply (PT v (s :: r) CV)|apply (PT w (s :: p) CW)]; auto. }
  exists h, (on v), (on w), W1, W2. split; [|split; [exact T|split; [apply sublist_filter|split; [apply sublist_filter|split; [exact WW|]]]]].
  - unfold vessel_rooms. rewrite EF. cbn [bind]. rewrite EK. cbn [bind base_cycles combine seq length].
    unfold segments_in_cycles. cbn [map]. rewrite !filter_map. fold (cond v) (cond w). fold (on v) (on w). rewrite CC. reflexivity.
  - intros q Iq. unfold on. rewrite !filter_In. rewrite (CV q Iq), (CW q Iq). tauto.
Qed.

(** * The standing vessel with a plate *)
Lemma corner_stored : forall x0 e a, decimal8 x0 -> decimal8 (fst a) -> decimal8 (snd a / 2) -> stored (corner x0 e a).
Proof.
  intros x0 e a D0 D1 D2. split; [|exact D1]. apply (dec_add x0 (sg e * (snd a / 2))); auto. unfold sg. destruct e.
  - rewrite Rmult_1_l. auto.
  - replace (-1 * (snd a / 2)) with (- (snd a / 2)) by lra. apply dec_opp. auto.
Qed.
Lemma closing_stored : forall x0 k up a x q, decimal8 x0 -> decimal8 (fst a) -> decimal8 (snd a / 2) -> In x (closed_by x0 k up a) -> In q (ij x) -> stored q.
Proof.
  intros x0 k up a x q D0 D1 D2 I Q. destruct k.
  - rewrite flat_eq in I by auto. destruct I as [<-|[]]. destruct Q as [<-|[<-|[]]]; apply corner_stored; auto.
  - assert (PN : forall u v, stored (Point_new (A := RA) u v)) by (intros u v; split; [destruct (Rround8_grid u) as [k K]|destruct (Rround8_grid v) as [k K]]; exists k; (replace (10^8) with 100000000 by lra); exact K).
    destruct I as [<-|[<-|[]]]; destruct Q as [<-|[<-|[]]]; apply PN.
Qed.
Lemma shells_in : forall x0 l a P, In P (shells x0 a l) -> measured x0 (a :: l) -> exists u v, In u (a :: l) /\ In v (a :: l) /\ P = shell x0 u v /\ P = [side_wall x0 true u v; side_wall x0 false u v].
Proof.
  intros x0 l. induction l as [|b l IH]; intros a P I [D0 M]; [destruct I|]. cbn [shells] in I. destruct I as [<-|I].
  - destruct (M a (or_introl eq_refl)) as (A1 & A2 & _). destruct (M b (or_intror (or_introl eq_refl))) as (B1 & B2 & _). exists a, b. simpl. repeat (split; auto). apply shell_eq; auto.
  - destruct (IH b P I) as (u & v & U & V & E1 & E2); [split; auto; intros u U; apply M; right; auto|]. exists u, v. simpl in *. auto.
Qed.
Lemma cut_up_perm : forall lib inside W V z, Permutation W V -> cut_up lib inside W z -> cut_up lib inside V z.
Proof. intros lib inside W V z P C c R. apply C. apply (rearranged_perm2 _ _ _ R). symmetry. exact P. Qed.
Lemma no_clash_perm : forall lib inside W V W' V', Permutation W W' -> Permutation V V' -> no_clash lib inside W V -> no_clash lib inside W' V'.
Proof. intros lib inside W V W' V' P Q C c d ts us R1 R2. apply C; [apply (rearranged_perm2 _ _ _ R1)|apply (rearranged_perm2 _ _ _ R2)]; symmetry; auto. Qed.
Lemma nodup_concat : forall X (ps : list (list X)), (forall P, In P ps -> P <> []) -> NoDup (concat ps) -> NoDup ps.
Proof.
  intros X ps. induction ps as [|P ps IH]; intros NE ND; [constructor|]. cbn [concat] in ND. constructor.
  - intros I. destruct P as [|x P]; [apply (NE []); simpl; auto|]. cbn [app] in ND. inversion ND as [|? ? N _]; subst. apply N. apply in_or_app. right. apply in_concat. exists (x :: P). simpl; auto.
  - apply IH; [intros; apply NE; right; auto|]. clear - ND. induction P as [|x P IHP]; auto. apply IHP. cbn [app] in ND. inversion ND; auto.
Qed.
Lemma sublist_map : forall X Y (f : X -> Y) a b, sublist a b -> sublist (map f a) (map f b).
Proof. intros X Y f a b S. induction S; simpl; [apply sub_nil|apply sub_skip; auto|apply sub_take; auto]. Qed.
Lemma blocks_nonempty : forall X (ps : list (list X)) n, (forall P, In P ps -> P <> []) -> Forall (fun q => q <> []) (blocks n ps).
Proof.
  intros X ps. induction ps as [|P ps IH]; intros n NE; cbn [blocks]; constructor; [|apply IH; intros; apply NE; right; auto].
  destruct P as [|x P]; [exfalso; apply (NE []); simpl; auto|]. discriminate.
Qed.

(*@ C100_two_rooms *)
(** C100: a standing vessel (as in C98) with a flat plate between two of its levels, its parts in any order,
    when walking along the walls finds no loop first: raum_erstellen makes exactly two rooms, R1 and R2,
    without inner walls.  The outer walls of one are the plate and the parts below it, those of the other the
    plate and the parts above it.  Needed: the triangles of the two rooms do not clash and have together the
    area of those of the outline, and is_internal_point answers correctly for convex hulls. *)
Lemma plate_rooms : forall (schs : nat -> sched RA) wf fuel H HC lib inside inside2 Hs x0 bot top a l1 l2 (ps : list (list (seg RA))) zb za,
  measured x0 (a :: l1 ++ l2) -> rising a (l1 ++ l2) -> l1 <> [] -> l2 <> [] -> (length (l1 ++ l2) <= 60)%nat ->
  Permutation ps (plated_parts x0 bot top a l1 l2) -> walk_segments (schs fuel) wf (concat ps) None = Ok NoLoop -> lists_all HC ->
  cut_up lib inside (below_plate x0 bot a l1) zb -> cut_up lib inside (above_plate x0 top a l1 l2) za -> cut_up lib inside (around_both x0 bot top a l1 l2) (zb + za) ->
  2 / 10^8 <= zb -> 2 / 10^8 <= za ->
  no_clash lib inside (below_plate x0 bot a l1) (above_plate x0 top a l1 l2) -> no_clash lib inside (above_plate x0 top a l1 l2) (below_plate x0 bot a l1) ->
  right_for_convex inside2 ->
  let lower := standing_parts x0 bot Flat a l1 in let upper := standing_parts x0 Flat top (last l1 a) l2 in
  exists w1 w2, vessel_rooms schs wf fuel H HC lib inside inside2 Hs (blocks 0 ps) (concat ps) = Ok (Some [mkraum "R1" 0 [] [w1] []; mkraum "R2" 1 [] [w2] []]) /\
    ((walls_of w1 lower /\ walls_of w2 upper) \/ (walls_of w1 upper /\ walls_of w2 lower)).
Proof.
  intros schs wf fuel H HC lib inside inside2 Hs x0 bot top a l1 l2 ps zb za M RI N1 N2 LL PS EW LA Mb Ma Mo Zb Za NC1 NC2 RC lower upper.
  destruct (plate_split_at x0 bot top a l1 l2 M RI N1 N2 LL) as (FL & P1 & P2 & P3 & P4 & R1 & R2 & R3 & U1 & U2 & U3 & LE).
  set (m := last l1 a) in *. set (s := Wall (corner x0 false m) (corner x0 true m)) in *.
  set (p := closed_by x0 bot false a ++ concat (shells x0 a l1)) in *. set (r := closed_by x0 top true (last l2 m) ++ concat (shells x0 m l2)) in *.
  set (g := concat ps) in *.
  destruct (rising_app _ _ _ RI) as [RI1 RI2]. fold m in RI2. pose proof M as [D0 MM].
  assert (Im : In m (a :: l1)) by apply last_in.
  assert (M1 : measured x0 (a :: l1)) by (split; auto; intros u U; apply MM; cbn [In] in *; rewrite in_app_iff; tauto).
  assert (M2 : measured x0 (m :: l2)).
  { split; auto. intros u U. apply MM. cbn [In] in *. rewrite in_app_iff. destruct U as [<-|U]; tauto. }
  destruct M1 as [_ MM1]. assert (M1 : measured x0 (a :: l1)) by (split; auto). destruct M2 as [_ MM2]. assert (M2 : measured x0 (m :: l2)) by (split; auto).
  destruct (MM1 a (or_introl eq_refl)) as (A1 & A2 & A3). destruct (MM1 m Im) as (B1 & B2 & B3).
  destruct (MM2 (last l2 m) (last_in _ l2 m)) as (Z1 & Z2 & Z3).
  assert (PG : Permutation g (s :: p ++ r)) by (unfold g; rewrite (concat_perm _ _ _ PS); exact P4).
  assert (LB : (length p + length r < 249)%nat) by lia.
  pose proof (two_simple s p r g R1 R2 R3 LB PG) as SG.
  destruct (two_parts s p r g R1 R2 R3 LB PG) as (I1 & I2 & I3 & S1 & S2 & DD & NP & NR).
  (* the parts *)
  assert (PART : forall P, In P ps <-> P = [s] \/ P = closed_by x0 bot false a \/ In P (shells x0 a l1) \/ P = closed_by x0 top true (last l2 m) \/ In P (shells x0 m l2)).
  { intros P. assert (Q : In P ps <-> In P (plated_parts x0 bot top a l1 l2)) by (split; apply Permutation_in; auto; symmetry; auto). rewrite Q.
    unfold plated_parts, standing_parts. rewrite last_app2, shells_app. fold m. rewrite FL. cbn [In]. rewrite in_app_iff. intuition congruence. }
  assert (NEP : forall P, In P ps -> P <> []).
  { intros P I. apply PART in I as [->|[->|[I|[->|I]]]]; [discriminate|destruct bot; [rewrite flat_eq by auto|]; discriminate| |destruct top; [rewrite flat_eq by auto|]; discriminate|].
    - destruct (shells_in _ _ _ _ I M1) as (u & v & _ & _ & _ & ->). discriminate.
    - destruct (shells_in _ _ _ _ I M2) as (u & v & _ & _ & _ & ->). discriminate. }
  assert (SIDE : forall P, In P ps -> P = [s] \/ incl P p \/ incl P r).
  { intros P I. apply PART in I as [->|[->|[I|[->|I]]]]; auto; [right; left|right; left|right; right|right; right]; intros x X; unfold p, r; apply in_or_app; auto; right; apply in_concat; exists P; auto. }
  assert (NDG : NoDup g) by (apply simple_nodup; auto).
  assert (NDP : NoDup ps) by (apply nodup_concat; auto).
  assert (VB : map (value g) (blocks 0 ps) = ps) by apply value_blocks.
  assert (VQ : forall q, In q (blocks 0 ps) -> In (value g q) ps) by (intros q I; rewrite <- VB; apply in_map; auto).
  (* which parts belong to which room *)
  assert (LOWER : forall P, In P lower <-> In P ps /\ incl P (s :: p)).
  { intros P. unfold lower, standing_parts. fold m. rewrite FL. split.
    - intros I. assert (J : In P ps) by (apply PART; cbn [In] in I; intuition congruence). split; auto.
      cbn [In] in I. destruct I as [<-|[<-|I]]; intros x X; [right; unfold p; apply in_or_app; auto|left; destruct X as [X|[]]; auto|right; unfold p; apply in_or_app; right; apply in_concat; exists P; auto].
    - intros [I J]. apply PART in I. cbn [In]. destruct I as [->|[->|[I|I]]]; auto. exfalso.
      assert (IR : incl P r) by (destruct I as [->|I]; intros x X; unfold r; apply in_or_app; auto; right; apply in_concat; exists P; auto).
      assert (NE : P <> []) by (apply NEP, PART; tauto). destruct P as [|x P]; [congruence|].
      destruct (J x (or_introl eq_refl)) as [<-|X]; [apply S2, IR; left; auto|apply (DD x X), IR; left; auto]. }
  assert (UPPER : forall P, In P upper <-> In P ps /\ incl P (s :: r)).
  { intros P. unfold upper, standing_parts. rewrite FL. split.
    - intros I. assert (J : In P ps) by (apply PART; cbn [In] in I; intuition congruence). split; auto.
      cbn [In] in I. destruct I as [<-|[<-|I]]; intros x X; [left; destruct X as [X|[]]; auto|right; unfold r; apply in_or_app; auto|right; unfold r; apply in_or_app; right; apply in_concat; exists P; auto].
    - intros [I J]. apply PART in I. cbn [In]. destruct I as [->|I]; auto.
      assert (K : (P = closed_by x0 bot false a \/ In P (shells x0 a l1)) \/ (closed_by x0 top true (last l2 m) = P \/ In P (shells x0 m l2))) by intuition.
      destruct K as [K|K]; auto. exfalso.
      assert (IR : incl P p) by (destruct K as [->|K]; intros x X; unfold p; apply in_or_app; auto; right; apply in_concat; exists P; auto).
      assert (NE : P <> []) by (apply NEP, PART; tauto). destruct P as [|x P]; [congruence|].
      destruct (J x (or_introl eq_refl)) as [<-|X]; [apply S1, IR; left; auto|apply (DD x (IR x (or_introl eq_refl)) X)]. }
  (* heights *)
  destruct (closing_spec x0 bot false a D0 A1 A2 A3) as (mb & wb & EB & PB & _ & CB & _).
  destruct (closing_spec x0 top true _ D0 Z1 Z2 Z3) as (mt & wt & ET & PT & _ & CT & _).
  assert (SW : forall e u v x, In x (ij (side_wall x0 e u v)) -> x = corner x0 e u \/ x = corner x0 e v) by (intros e u v x; apply side_wall_ends).
  assert (SHL : forall l b q, measured x0 (b :: l) -> In q (flat_map ij (concat (shells x0 b l))) -> exists u e, In u (b :: l) /\ q = corner x0 e u).
  { intros l b q ML Q. apply in_flat_map in Q as (x & X & Q). apply in_concat in X as (P & I & X). destruct (shells_in _ _ _ _ I ML) as (u & v & U & V & _ & ->).
    destruct X as [<-|[<-|[]]]; apply SW in Q as [-> | ->]; eauto. }
  assert (LOW : forall x, In x (flat_map ij (s :: p)) -> py x <= py (si s)).
  { intros x X. change (py (si s)) with (fst m). cbn [flat_map] in X. apply in_app_or in X as [X|X]; [destruct X as [<-|[<-|[]]]; apply Rle_refl|].
    unfold p in X. rewrite flat_map_app in X. apply in_app_or in X as [X|X].
    - apply in_flat_map in X as (w & W & X). apply (Permutation_in _ (Permutation_sym PB)) in W. pose proof (ep_side _ _ _ _ _ EB w x W X) as Q. cbn in Q.
      pose proof (rising_from _ _ _ RI1 Im). cbn in *. lra.
    - destruct (SHL _ _ _ M1 X) as (u & e & U & ->). apply (rising_last _ _ _ RI1 U). }
  assert (HIGH : forall x, In x (flat_map ij (s :: r)) -> py (si s) <= py x).
  { intros x X. change (py (si s)) with (fst m). cbn [flat_map] in X. apply in_app_or in X as [X|X]; [destruct X as [<-|[<-|[]]]; apply Rle_refl|].
    unfold r in X. rewrite flat_map_app in X. apply in_app_or in X as [X|X].
    - apply in_flat_map in X as (w & W & X). apply (Permutation_in _ (Permutation_sym PT)) in W. pose proof (ep_side _ _ _ _ _ ET w x W X) as Q. cbn in Q.
      pose proof (rising_from _ _ _ RI2 (last_in _ l2 m)). cbn in *. lra.
    - destruct (SHL _ _ _ M2 X) as (u & e & U & ->). apply (rising_from _ _ _ RI2 U). }
  assert (STO : forall x, In x (flat_map ij g) -> stored x).
  { intros x X. apply in_flat_map in X as (w & W & X). apply (Permutation_in _ PG) in W. destruct W as [<-|W].
    - destruct X as [<-|[<-|[]]]; apply corner_stored; auto.
    - apply in_app_or in W as [W|W]; [unfold p in W|unfold r in W]; apply in_app_or in W as [W|W].
      + apply (closing_stored x0 bot false a w); auto.
      + assert (Q : In x (flat_map ij (concat (shells x0 a l1)))) by (apply in_flat_map; exists w; auto). destruct (SHL _ _ _ M1 Q) as (u & e & U & ->).
        destruct (MM1 u U) as (V1 & V2 & _). apply corner_stored; auto.
      + apply (closing_stored x0 top true (last l2 m) w); auto.
      + assert (Q : In x (flat_map ij (concat (shells x0 m l2)))) by (apply in_flat_map; exists w; auto). destruct (SHL _ _ _ M2 Q) as (u & e & U & ->).
        destruct (MM2 u U) as (V1 & V2 & _). apply corner_stored; auto. }
  assert (CLS : exists k, forall x, In x g -> sc x = k).
  { exists CWall. assert (NE : l1 ++ l2 <> []) by (intros E; apply app_eq_nil in E; tauto).
    destruct (standing_ring x0 bot top a (l1 ++ l2) _ M RI NE LL (Permutation_refl _)) as (_ & _ & _ & CW & _).
    intros x X. apply (Permutation_in _ PG) in X. destruct X as [<-|X]; [reflexivity|]. apply CW. apply (Permutation_in _ (Permutation_sym P3)). exact X. }
  destruct (two_rooms schs wf fuel H HC lib inside inside2 Hs (blocks 0 ps) s p r g zb za) as (h & on1 & on2 & W1 & W2 & E & T & SL1 & SL2 & WW & ON); auto.
  - apply (cut_up_perm _ _ _ _ _ P1 Mb).
  - apply (cut_up_perm _ _ _ _ _ P2 Ma).
  - apply (cut_up_perm _ _ _ _ _ P3 Mo).
  - apply (no_clash_perm _ _ _ _ _ _ P1 P2 NC1).
  - apply (no_clash_perm _ _ _ _ _ _ P2 P1 NC2).
  - unfold g. rewrite blocks_concat. apply Permutation_refl.
  - apply blocks_nonempty. auto.
  - intros q Iq. destruct (SIDE _ (VQ q Iq)) as [X|X]; auto. left. rewrite X. intros x; auto.
  - exists (map (value h) on1), (map (value h) on2). split; auto.
    assert (GO : forall on W room, sublist on (blocks 0 ps) -> (forall q, In q (blocks 0 ps) -> (In q on <-> incl (value g q) W)) -> NoDup room ->
      (forall P, In P room <-> In P ps /\ incl P W) -> walls_of (map (value h) on) room).
    { intros on W room SL ONW NDR RM. exists (map (value g) on). split.
      - apply NoDup_Permutation; auto.
        + pose proof (sublist_map _ _ (value g) _ _ SL) as Q. rewrite VB in Q. destruct (PContain.sublist_NoDup_map _ _ (fun x => x) _ _ Q) as [X _]; [rewrite map_id; auto|rewrite map_id in X; exact X].
        + intros P. rewrite RM. split.
          * intros I. apply in_map_iff in I as (q & <- & Iq). pose proof (proj2 (PContain.sublist_NoDup_map _ _ (value g) _ _ SL ltac:(rewrite VB; exact NDP)) q Iq) as Q. split; [apply VQ; auto|apply ONW; auto].
          * intros [I J]. rewrite <- VB in I. apply in_map_iff in I as (q & <- & Iq). apply in_map. apply ONW; auto.
      - clear - T. induction on as [|q on IH]; cbn [map]; constructor; auto. exact (value_turned h g q T). }
    assert (NDC : forall x0 k1 k2 b l, (forall P, In P (standing_parts x0 k1 k2 b l) -> In P ps) -> ring (concat (standing_parts x0 k1 k2 b l)) -> (length (concat (standing_parts x0 k1 k2 b l)) < 250)%nat -> NoDup (standing_parts x0 k1 k2 b l)).
    { intros y k1 k2 b l IN RG LG. apply nodup_concat; [intros P I; apply NEP, IN, I|]. apply simple_nodup, ring_simple; auto. }
    assert (NL : NoDup lower).
    { apply NDC; [intros P I; apply LOWER, I|apply (ring_perm (s :: p)); auto; symmetry; exact P1|]. fold (below_plate x0 bot a l1). rewrite (Permutation_length P1). simpl. lia. }
    assert (NU : NoDup upper).
    { apply NDC; [intros P I; apply UPPER, I|apply (ring_perm (s :: r)); auto; symmetry; exact P2|]. change (concat (standing_parts x0 Flat top m l2)) with (above_plate x0 top a l1 l2). rewrite (Permutation_length P2). simpl. lia. }
    destruct WW as [[-> ->]|[-> ->]]; [left|right]; split.
    + apply (GO on1 (s :: p)); auto. intros q Iq. apply (ON q Iq).
    + apply (GO on2 (s :: r)); auto. intros q Iq. apply (ON q Iq).
    + apply (GO on1 (s :: r)); auto. intros q Iq. apply (ON q Iq).
    + apply (GO on2 (s :: p)); auto. intros q Iq. apply (ON q Iq).
Qed.
