(** A vessel whose walls form a single loop has one room: from the segments to the rooms. *)
From Coq Require Import String Reals ZArith Lra Lia Bool List Psatz Permutation Arith Classical.
From Verif Require Import Base Arith ArithR ArithF MPoint MLine MPoly MTri MGroup MCycles MBase MContain MRaum MRooms
  Spec SpecGroup SpecLoops SpecBase SpecRooms PPoint PLine PShape PConvex POrder PGroup PWalk PComponent PHead PCommon PCollinear PLoops.
From Verif Require PArea.
Import ListNotations.
Local Open Scope list_scope.
#[local] Existing Instance RA.

(** * No combination twice *)
Lemma combs_distinct : forall (l : list nat) k, NoDup l -> ForallOrdPairs (fun a b => ~ Permutation a b) (combinations k l).
Proof.
  assert (AP : forall (R0 : list nat -> list nat -> Prop) a b, ForallOrdPairs R0 a -> ForallOrdPairs R0 b ->
    (forall x y, In x a -> In y b -> R0 x y) -> ForallOrdPairs R0 (a ++ b)).
  { intros R0. induction a as [|x a IH]; intros b FA FB H; [exact FB|]. inversion FA as [|? ? F1 F2]; subst. cbn [app]. constructor.
    - apply Forall_app. split; auto. apply Forall_forall. intros y Y. apply H; [left; auto|auto].
    - apply IH; auto. intros u v Iu Iv. apply H; [right; auto|auto]. }
  induction l as [|x l IH]; intros k ND; destruct k as [|k]; cbn [combinations].
  - repeat constructor.
  - constructor.
  - repeat constructor.
  - inversion ND as [|? ? N ND']; subst. apply AP.
    + specialize (IH k ND'). induction IH as [|c cs F FO IH2]; cbn [map]; constructor; auto.
      apply Forall_map. eapply Forall_impl; [|exact F]. intros d D P. apply D. eapply Permutation_cons_inv; exact P.
    + apply IH; auto.
    + intros a b Ia Ib P. apply in_map_iff in Ia as (c & <- & Ic). apply N.
      apply (combinations_incl _ _ _ _ Ib). apply (Permutation_in _ P). left; auto.
Qed.

Lemma nodup_two : forall (a b : list nat), NoDup a -> NoDup b -> (forall x, In x a -> In x b -> False) -> NoDup (a ++ b).
Proof.
  induction a as [|x a IH]; intros b NA NB D; [exact NB|]. inversion NA; subst. cbn [app]. constructor.
  - intros I. apply in_app_iff in I as [I|I]; auto. apply (D x); auto. left; auto.
  - apply IH; auto. intros y Y. apply D. right; auto.
Qed.

Section One.
Variable g : list (seg RA).
Let U := seq 0 (length g).
Hypothesis SG : simple_graph g.
Hypothesis BIG : (length g < 250)%nat.

Lemma U_range : forall c, incl c U -> inrange g c.
Proof. intros c I k K. apply I, in_seq in K. lia. Qed.
Lemma value_nz : forall c s, In s (value g c) -> si s <> sj s.
Proof. intros c s I. destruct SG as (_ & NZ & _). apply NZ. eapply in_value; eauto. Qed.
Lemma value_sep : forall c, separated (flat_map ij (value g c)).
Proof.
  intros c p q Ip Iq. destruct SG as (SEP & _). assert (Q : forall r, In r (flat_map ij (value g c)) -> In r (flat_map ij g)).
  { intros r Ir. apply in_flat_map in Ir as (s & Is & Ir). apply in_flat_map. exists s. split; auto. eapply in_value; eauto. }
  apply SEP; auto.
Qed.

(** a combination in which every point occurs twice contains a loop *)
Lemma twice_loop : forall ids, NoDup ids -> incl ids U -> ids <> [] -> twice (value g ids) = true ->
  exists us ids', incl ids' ids /\ cyc g us ids'.
Proof.
  intros ids ND I NE TW. pose proof SG as (SEP & NZ & SI).
  assert (NDU : NoDup U) by apply seq_NoDup.
  assert (RI := U_range ids I).
  destruct (component_order (value g ids)) as (us & r & EO & L3 & NU & IU & ER & _); auto.
  { apply value_sep. }
  { apply (apart_value g U) with (h := g); auto.
    - intros k K. apply in_seq in K. lia.
    - intros k s _ E. apply NZ. eapply nth_error_In; eauto.
    - intros i j s t _ _. apply SI.
    - unfold U. rewrite seq_length. exact BIG.
    - apply turned_refl. }
  { intros E. apply (f_equal (@List.length (seg RA))) in E. rewrite value_length in E by auto. destruct ids; [congruence|discriminate]. }
  { rewrite value_length by auto. pose proof (NoDup_incl_length ND I) as Q. unfold U in Q. rewrite seq_length in Q. lia. }
  destruct (horder_true RA g ids r ND RI EO) as (ids' & h' & EH & EV & II & ND' & TH).
  exists us, ids'. split; auto. apply (cyc_turned h' g); auto.
  split; [|split; [|split; [|split]]]; auto.
  - intros k K. rewrite (Forall2_len _ _ _ _ _ TH). apply RI; auto.
  - apply directed_joins. rewrite EV. exact ER.
Qed.

(** the only loop *)
Variable cL : list nat.
Variable usL : list (pt RA).
Hypothesis IL : incl cL U.
Hypothesis CL : cyc g usL cL.
Hypothesis ONLY : forall l, loop_in g l -> rearranged l (value g cL).

Lemma only_ids : forall us c, incl c U -> cyc g us c -> Permutation c cL.
Proof.
  intros us c I C. pose proof (ONLY _ (cyc_loop g us c C)) as (g' & P & F). pose proof SG as (_ & _ & SI).
  assert (LE : length c = length cL).
  { pose proof (Forall2_len _ _ _ _ _ F) as Q. rewrite (Permutation_length P) in Q. rewrite !value_length in Q; auto; apply U_range; auto. }
  destruct C as (_ & _ & ND & _). apply NoDup_Permutation_bis; auto; [lia|].
  intros k K. destruct (nth_error g k) as [s|] eqn:Ek; [|apply nth_error_None in Ek; apply I, in_seq in K; lia].
  assert (Is : In s (value g c)) by (apply in_value_iff; exists k; auto).
  apply In_nth_error in Is as [m Em]. destruct (Forall2_nth_l _ _ _ _ _ F m s Em) as (s' & Es & T).
  apply nth_error_In in Es. apply (Permutation_in _ P) in Es. apply in_value_iff in Es as (j & Ij & Ej).
  replace k with j; auto. apply (SI j k s' s); auto. destruct T as [-> | ->]; simpl; auto.
Qed.

Lemma only_twice : forall ids, NoDup ids -> incl ids U -> ids <> [] -> twice (value g ids) = true -> Permutation ids cL.
Proof.
  intros ids ND I NE TW. destruct (twice_loop ids ND I NE TW) as (us & ids' & II & C').
  assert (I' : incl ids' U) by (intros k K; apply I; auto).
  pose proof (only_ids us ids' I' C') as P1.
  assert (SUB : incl cL ids) by (intros k K; apply II, (Permutation_in _ (Permutation_sym P1)); auto).
  set (more := filter (fun k => negb (existsb (Nat.eqb k) cL)) ids).
  assert (IM : forall k, In k more <-> In k ids /\ ~ In k cL).
  { intros k. unfold more. rewrite filter_In, negb_true_iff. split; intros [A B]; split; auto.
    - intros K. assert (existsb (Nat.eqb k) cL = true); [|congruence]. apply existsb_exists. exists k. split; auto. apply Nat.eqb_refl.
    - apply not_true_iff_false. intros E. apply existsb_exists in E as (x & X & E). apply Nat.eqb_eq in E. subst. auto. }
  assert (NDL : NoDup cL) by (destruct CL as (_ & _ & X & _); exact X).
  assert (NDM : NoDup more) by (apply NoDup_filter; auto).
  assert (PM : Permutation ids (cL ++ more)).
  { apply NoDup_Permutation; auto.
    - apply nodup_two; auto. intros x X Y. apply IM in Y as [_ Y]. auto.
    - intros k. rewrite in_app_iff, IM. split; [|intros [K|[K _]]; auto]. intros K.
      destruct (in_dec Nat.eq_dec k cL); auto. }
  destruct more as [|k0 mr] eqn:EM; [rewrite app_nil_r in PM; exact PM|]. exfalso. rewrite <- EM in *.
  assert (IMU : incl more U) by (intros k K; apply IM in K as [K _]; auto).
  pose proof (proj1 (twice_iff _) TW) as TW'.
  assert (CT : forall p, count p (value g ids) = (count p (value g cL) + count p (value g more))%nat).
  { intros p. unfold count. assert (PF : Permutation (flat_map ij (value g ids)) (flat_map ij (value g cL) ++ flat_map ij (value g more))).
    { rewrite <- flat_map_app. apply Permutation_flat_map. unfold value. rewrite <- flat_map_app. apply Permutation_flat_map. exact PM. }
    rewrite (Permutation_length (perm_filter _ (pt_sameb p) _ _ PF)), filter_app, app_length. reflexivity. }
  assert (TWL : forall p, In p (flat_map ij (value g cL)) -> count p (value g cL) = 2%nat).
  { apply twice_iff. eapply cyc_twice; [exact CL|]. apply value_nz. }
  assert (POS : forall p l, In p (flat_map ij l) -> (1 <= count p l)%nat).
  { intros p l Ip. unfold count. assert (J : In p (filter (pt_sameb p) (flat_map ij l))) by (apply filter_In; split; auto; apply pt_sameb_iff; auto).
    destruct (filter (pt_sameb p) (flat_map ij l)); [destruct J|simpl; lia]. }
  assert (TWM : twice (value g more) = true).
  { apply twice_iff. intros p Ip.
    assert (IPI : In p (flat_map ij (value g ids))).
    { apply in_flat_map in Ip as (s & Is & Ip). apply in_value_iff in Is as (k & K & Ek). apply in_flat_map. exists s. split; auto.
      apply in_value_iff. exists k. split; auto. apply IM in K. tauto. }
    pose proof (TW' p IPI) as Q. rewrite CT in Q. pose proof (POS p (value g more) Ip).
    destruct (classic (In p (flat_map ij (value g cL)))) as [X|X]; [rewrite (TWL p X) in Q; lia|].
    assert (count p (value g cL) = 0%nat); [|lia]. unfold count.
    destruct (filter (pt_sameb p) (flat_map ij (value g cL))) as [|q qs] eqn:EF; auto. exfalso. apply X.
    assert (J : In q (q :: qs)) by (left; auto). rewrite <- EF in J. apply filter_In in J as [J E]. apply pt_sameb_iff in E. subst q. exact J. }
  destruct (twice_loop more NDM IMU) as (us2 & ids2 & I2 & C2); auto; [rewrite EM; discriminate|].
  assert (I2U : incl ids2 U) by (intros k K; apply IMU; auto).
  pose proof (only_ids us2 ids2 I2U C2) as P2.
  destruct cL as [|k cr] eqn:EC.
  { destruct CL as (L3 & _). pose proof (cyc_length _ _ _ CL) as Q. simpl in Q. lia. }
  assert (In k more) by (apply I2, (Permutation_in _ (Permutation_sym P2)); left; auto). apply IM in H as [_ H]. apply H. left; auto.
Qed.

Hypothesis UN : uncrossed (value g cL).

Lemma twice_turned : forall h ids, Forall2 turned h g -> twice (value h ids) = true -> twice (value g ids) = true.
Proof.
  intros h ids T TW. pose proof (proj1 (twice_iff _) TW) as Q. apply twice_iff. intros p Ip.
  assert (P : Permutation (flat_map ij (value h ids)) (flat_map ij (value g ids))).
  { apply rearranged_ends. exists (value g ids). split; auto. pose proof (value_turned h g ids T) as V. exact V. }
  unfold count in *. rewrite <- (Permutation_length (perm_filter _ (pt_sameb p) _ _ P)). apply Q.
  apply (Permutation_in _ (Permutation_sym P)). exact Ip.
Qed.
Lemma skip_comb : forall st ids, Forall2 turned (l_heap st) g -> NoDup ids -> incl ids U -> ids <> [] -> ~ Permutation ids cL ->
  try_comb st ids = Ok st.
Proof.
  intros st ids T ND I NE NP. unfold try_comb. cbv zeta. destruct (twice (value (l_heap st) ids)) eqn:TW; [|reflexivity].
  exfalso. apply NP. apply only_twice; auto. eapply twice_turned; eauto.
Qed.
Lemma skip_combs : forall cs st, Forall2 turned (l_heap st) g ->
  (forall c, In c cs -> NoDup c /\ incl c U /\ c <> [] /\ ~ Permutation c cL) -> foldM try_comb cs st = Ok st.
Proof.
  induction cs as [|c cs IH]; intros st T Q; [reflexivity|]. cbn [foldM].
  destruct (Q c (or_introl eq_refl)) as (Q1 & Q2 & Q3 & Q4). rewrite skip_comb by auto. cbn [bind]. apply IH; auto.
  intros d D. apply Q. right; auto.
Qed.
Lemma comb_facts : forall st n c, NoDup (l_graph st) -> incl (l_graph st) U -> In c (combinations (S n) (l_graph st)) ->
  NoDup c /\ incl c U /\ c <> [] /\ length c = S n.
Proof.
  intros st n c ND I Ic. destruct (combinations_props _ _ _ Ic) as [Lc Nc]. pose proof (combinations_incl _ _ _ _ Ic) as J.
  split; auto. split; [intros x X; apply I, J, X|]. split; [|exact Lc]. destruct c; [discriminate|congruence].
Qed.
Lemma rounds_after : forall fuel comblen st, Forall2 turned (l_heap st) g -> NoDup (l_graph st) -> incl (l_graph st) U ->
  (length cL <= comblen)%nat -> comb_rounds fuel comblen st = Ok st.
Proof.
  induction fuel as [|fuel IH]; intros comblen st T ND I LE; cbn [comb_rounds]; [reflexivity|].
  destruct (Nat.leb comblen (length (l_graph st))); [|reflexivity]. rewrite skip_combs; auto.
  { cbn [bind]. apply IH; auto. }
  intros c Ic. destruct (comb_facts st comblen c ND I Ic) as (Q1 & Q2 & Q3 & Q4). repeat (split; auto).
  intros P. apply Permutation_length in P. lia.
Qed.

(** what is left of the first state: one polygon *)
Definition single (st : lstate RA) : Prop :=
  Forall2 turned (l_heap st) g /\ NoDup (l_graph st) /\ incl (l_graph st) U /\
  exists c, l_cycles st = [c] /\ Permutation c cL /\ rearranged (value (l_heap st) c) (value g cL) /\
    poly_isvalid (value (l_heap st) c) = Ok true /\ isclosed (value (l_heap st) c) = Ok true.
Lemma try_shape : forall st ids st', try_comb st ids = Ok st' -> l_cycles st' = l_cycles st \/
  exists c, l_cycles st' = l_cycles st ++ [c] /\ poly_isvalid (value (l_heap st') c) = Ok true /\ isclosed (value (l_heap st') c) = Ok true.
Proof.
  intros st ids st' E. unfold try_comb in E. cbv zeta in E. destruct (twice (value (l_heap st) ids)); [|injection E as <-; left; auto].
  cbn [negb] in E. destruct (horder (l_heap st) ids) as [[[ok ids'] h']|]; [|discriminate]. cbn [bind] in E.
  destruct ok; cbn [negb] in E; [|injection E as <-; left; reflexivity].
  destruct (poly_isvalid (value h' ids')) as [v|] eqn:EV; [|discriminate]. cbn [bind] in E.
  destruct v; [|cbn [bind andb] in E; injection E as <-; left; reflexivity].
  destruct (isclosed (value h' ids')) as [c|] eqn:EC; [|discriminate]. cbn [bind] in E.
  destruct c; [|cbn [andb] in E; injection E as <-; left; reflexivity]. cbn [andb] in E.
  destruct (in_cycles h' (l_cycles st) (value h' ids')); cbn [negb] in E; injection E as <-; [left; reflexivity|right].
  exists ids'. cbn [l_cycles l_heap]. auto.
Qed.
Lemma take_comb : forall ids, Permutation ids cL -> exists st', try_comb (mkl g U []) ids = Ok st' /\ single st'.
Proof.
  intros ids P. pose proof SG as (SEP & NZ & SI).
  assert (NDL : NoDup cL) by (destruct CL as (_ & _ & X & _); exact X).
  assert (L3 : (3 <= length cL)%nat) by (rewrite (cyc_length _ _ _ CL); destruct CL as (X & _); exact X).
  assert (RU : inrange g U) by (intros k K; apply in_seq in K; lia).
  assert (W : wanted g U cL) by (split; auto; split; auto; exists usL; exact CL).
  assert (II : incl ids U) by (intros k K; apply IL, (Permutation_in _ P); auto).
  destruct (step g U []) with (n := length ids) (ids := ids) (rest := @nil (list nat)) (st := @mkl RA g U []) as (st' & E & (T & NG & IG & _ & OR & _) & TD); auto.
  - intros k s _ K. apply NZ. eapply nth_error_In; eauto.
  - intros i j s t _ _. apply SI.
  - unfold U. rewrite seq_length. exact BIG.
  - split; [apply turned_refl|]. split; [apply seq_NoDup|]. split; [intros x; auto|]. split; [intros; contradiction|].
    split; [intros c []|intros x []].
  - intros c (Ic & (us & C) & _). right. cbn [l_graph]. split; auto. pose proof (only_ids us c Ic C) as PC.
    rewrite (Permutation_length PC), (Permutation_length P). split; [lia|]. intros _. exists ids. split; [left; auto|].
    rewrite P. symmetry. exact PC.
  - eapply Permutation_NoDup; [apply Permutation_sym; exact P|auto].
  - rewrite (Permutation_length P). lia.
  - exists st'. split; auto. split; auto. split; auto. split; auto.
    destruct (TD cL W) as [(c & Ic & Rc)|(_ & _ & Q)].
    2:{ destruct Q as (p & [] & _). symmetry. apply Permutation_length; auto. }
    destruct (try_shape _ _ _ E) as [EC|(c' & EC & V & CC)]; cbn [l_cycles app] in EC; rewrite EC in Ic; [destruct Ic|].
    destruct Ic as [->|[]]. exists c. split; auto. split; [|split; auto].
    destruct (OR c) as [[]|(I' & (us & C') & _)]; [rewrite EC; left; auto|]. apply (only_ids us); auto.
Qed.
Lemma fold_split : forall (a b : list (list nat)) x (st : lstate RA),
  foldM try_comb (a ++ x :: b) st = (s1 <- foldM try_comb a st ;; s2 <- try_comb s1 x ;; foldM try_comb b s2).
Proof.
  induction a as [|y a IH]; intros b x st; [reflexivity|]. cbn [app foldM]. destruct (try_comb st y) as [s|]; [|reflexivity].
  cbn [bind]. apply IH.
Qed.
Lemma rounds_before : forall fuel comblen, (1 <= comblen < length cL)%nat -> (length U < fuel + comblen)%nat ->
  exists st', comb_rounds fuel comblen (mkl g U []) = Ok st' /\ single st'.
Proof.
  assert (NDL : NoDup cL) by (destruct CL as (_ & _ & X & _); exact X).
  assert (LU : (length cL <= length U)%nat) by (apply NoDup_incl_length; auto).
  assert (NDU : NoDup U) by apply seq_NoDup.
  induction fuel as [|fuel IH]; intros comblen B F; [lia|]. cbn [comb_rounds l_graph].
  destruct (Nat.leb_spec comblen (length U)) as [_|X]; [|lia].
  set (st0 := @mkl RA g U []) in *.
  assert (FA : forall c, In c (combinations (S comblen) U) -> NoDup c /\ incl c U /\ c <> [] /\ length c = S comblen).
  { intros c. apply (comb_facts st0); auto. intros x; auto. }
  destruct (Nat.eq_dec (S comblen) (length cL)) as [EQ|NE].
  - destruct (combinations_complete (S comblen) U cL) as (c0 & I0 & P0); auto.
    apply in_split in I0 as (a & b & EAB). pose proof (combs_distinct U (S comblen) NDU) as D. rewrite EAB in D |- *.
    rewrite fold_split.
    assert (DD : (forall c, In c a -> ~ Permutation c c0) /\ (forall c, In c b -> ~ Permutation c0 c)).
    { clear - D. induction a as [|y a IH]; cbn [app] in D; inversion D as [|? ? F1 F2]; subst.
      - split; [intros c []|]. rewrite Forall_forall in F1. exact F1.
      - destruct (IH F2) as [A B]. split; auto. intros c [<-|I]; auto. rewrite Forall_forall in F1. apply F1. apply in_or_app. right; left; auto. }
    destruct DD as [DA DB]. rewrite skip_combs.
    2:{ apply turned_refl. }
    2:{ intros c Ic. destruct (FA c) as (Q1 & Q2 & Q3 & _); [rewrite EAB; apply in_or_app; auto|]. repeat (split; auto).
        intros P. apply (DA c Ic). rewrite P, P0. reflexivity. }
    cbn [bind]. destruct (take_comb c0 P0) as (s1 & E1 & S1). unfold st0. rewrite E1. cbn [bind].
    pose proof S1 as (T1 & N1 & G1 & _). rewrite skip_combs; auto.
    2:{ intros c Ic. destruct (FA c) as (Q1 & Q2 & Q3 & _); [rewrite EAB; apply in_or_app; right; right; auto|]. repeat (split; auto).
        intros P. apply (DB c Ic). rewrite P, P0. reflexivity. }
    cbn [bind]. exists s1. split; auto. apply rounds_after; auto. lia.
  - rewrite skip_combs.
    + cbn [bind]. apply IH; lia.
    + apply turned_refl.
    + intros c Ic. destruct (FA c Ic) as (Q1 & Q2 & Q3 & Q4). repeat (split; auto). intros P. apply Permutation_length in P. lia.
Qed.
End One.

(** C95: a graph with a single loop: find_loops returns just that loop, closed and valid, and turns nothing
    but the directions of segments of the graph. *)
Lemma one_loop : forall (schs : nat -> sched RA) wf fuel (g L : list (seg RA)), simple_graph g -> (length g < 250)%nat ->
  walk_segments (schs fuel) wf g None = Ok NoLoop -> loop_in g L -> uncrossed L -> (forall l, loop_in g l -> rearranged l L) ->
  exists c h, find_loops schs wf fuel g = Ok (Some ([c], h)) /\ Forall2 turned h g /\ rearranged (value h c) L /\
    poly_isvalid (value h c) = Ok true /\ isclosed (value h c) = Ok true.
Proof.
  intros schs wf fuel g L SG BIG EW LL UN ONLY.
  destruct (loop_ids g L LL) as (cL & us & IC & CY & <-).
  assert (V : value g (seq 0 (length g)) = g) by (apply (value_seq g [])).
  assert (L3 : (3 <= length cL)%nat) by (rewrite (cyc_length _ _ _ CY); destruct CY as (X & _); exact X).
  destruct (rounds_before g SG BIG cL us IC CY ONLY UN (length (seq 0 (length g))) 1) as (st & E & S1); [lia|lia|].
  destruct S1 as (T & _ & _ & c & EC & _ & RC & VC & CC). exists c, (l_heap st).
  split; [|auto]. unfold find_loops.
  destruct fuel as [|fuel]; cbn [walk_rounds l_heap l_graph l_cycles]; rewrite V, EW; cbn [bind l_graph]; rewrite E; cbn [bind]; rewrite EC; reflexivity.
Qed.

(** * A segment between two corners of the only loop is one of its edges *)
Lemma pairs_right : forall X (c m : list X) e, In e (pairs m) -> In e (pairs (m ++ c)).
Proof.
  intros X c. induction m as [|x [|y m] IH]; intros e I; [destruct I|destruct I|].
  cbn [app pairs] in *. destruct I as [<-|I]; [left; auto|right]. apply (IH e I).
Qed.
Lemma pairs_left : forall X (a m : list X) e, In e (pairs m) -> In e (pairs (a ++ m)).
Proof.
  intros X. induction a as [|x a IH]; intros m e I; [exact I|]. cbn [app]. specialize (IH m e I).
  destruct (a ++ m) as [|y r]; [destruct IH|]. cbn [pairs]. right. exact IH.
Qed.
Lemma joined_all : forall (g : list (seg RA)) es, (forall e, In e es -> exists s, In s g /\ joins e s) ->
  exists l, Forall2 joins es l /\ incl l g.
Proof.
  intros g. induction es as [|e es IH]; intros H; [exists []; split; [constructor|intros x []]|].
  destruct (H e (or_introl eq_refl)) as (s & Is & J). destruct IH as (l & F & I); [intros; apply H; right; auto|].
  exists (s :: l). split; [constructor; auto|]. intros x [<-|X]; auto.
Qed.
Lemma joins_in : forall (L : list (seg RA)) vs e, Forall2 joins (cycle_edges vs) L -> In e (cycle_edges vs) -> exists s, In s L /\ joins e s.
Proof.
  intros L vs e F I. apply In_nth_error in I as [k K]. destruct (Forall2_nth_l _ _ _ _ _ F k e K) as (s & E & J).
  exists s. split; auto. eapply nth_error_In; eauto.
Qed.
Lemma chord_between : forall (g L : list (seg RA)) a u b v c s, NoDup (a ++ u :: b ++ v :: c) ->
  Forall2 joins (cycle_edges (a ++ u :: b ++ v :: c)) L -> incl L g -> In s g -> joins (v, u) s ->
  (exists t, In t L /\ same_ends s t) \/ (exists l, loop_in g l /\ In s l).
Proof.
  intros g L a u b v c s ND F I Is J.
  set (vs := a ++ u :: b ++ v :: c) in *.
  assert (SUB : forall e, In e (pairs (u :: b ++ [v])) -> In e (cycle_edges vs)).
  { intros e Ie. assert (Q : exists x r, vs = x :: r) by (unfold vs; destruct a; simpl; eauto). destruct Q as (x & r & Q).
    rewrite Q, cycle_edges_pairs. change (x :: r ++ [x]) with ((x :: r) ++ [x]). rewrite <- Q. apply pairs_right. unfold vs.
    apply pairs_left. replace (u :: b ++ v :: c) with ((u :: b ++ [v]) ++ c) by (simpl; rewrite <- app_assoc; reflexivity).
    apply pairs_right. exact Ie. }
  destruct b as [|w b].
  - left. destruct (joins_in L vs (u, v) F) as (t & It & Jt); [apply SUB; left; auto|]. exists t. split; auto.
    unfold joins, same_ends in *. simpl in *. destruct J as [[J1 J2]|[J1 J2]], Jt as [[J3 J4]|[J3 J4]]; rewrite J1, J2, J3, J4; auto.
  - right. set (vs' := u :: (w :: b) ++ [v]).
    destruct (joined_all g (pairs vs')) as (l & Fl & Il).
    { intros e Ie. destruct (joins_in L vs e F (SUB e Ie)) as (t & It & Jt). exists t. split; auto. }
    exists (l ++ [s]). split; [|apply in_or_app; right; left; auto]. exists vs'. split; [|split; [|split]].
    + unfold vs'. simpl. rewrite app_length. simpl. lia.
    + unfold vs in ND. clear - ND.
      replace (a ++ u :: (w :: b) ++ v :: c) with (a ++ (u :: (w :: b) ++ [v]) ++ c) in ND by (simpl; rewrite <- app_assoc; reflexivity).
      assert (Q : forall (x y : list (pt RA)), NoDup (x ++ y) -> NoDup x /\ NoDup y).
      { induction x as [|p x IH]; intros y N; [split; [constructor|auto]|]. inversion N as [|? ? N1 N2]; subst. destruct (IH y N2) as [A B].
        split; auto. constructor; auto. intros K. apply N1, in_or_app. auto. }
      apply Q in ND as [_ ND]. apply Q in ND as [ND _]. exact ND.
    + unfold vs'. rewrite cycle_edges_pairs. change (u :: ((w :: b) ++ [v]) ++ [u]) with ((u :: (w :: b) ++ [v]) ++ [u]).
      rewrite pairs_app1. apply Forall2_app; [exact Fl|]. constructor; [|constructor].
      rewrite last_last. exact J.
    + intros x X. apply in_app_iff in X as [X|[<-|[]]]; auto.
Qed.
Lemma chord : forall (g L : list (seg RA)) s, loop_in g L -> In s g -> si s <> sj s ->
  In (si s) (flat_map ij L) -> In (sj s) (flat_map ij L) ->
  (exists t, In t L /\ same_ends s t) \/ (exists l, loop_in g l /\ In s l).
Proof.
  intros g L s (vs & L3 & ND & F & I) Is NE I1 I2.
  assert (IV : forall p, In p (flat_map ij L) -> In p vs).
  { intros p Ip. apply in_flat_map in Ip as (t & It & Ip). apply In_nth_error in It as [k K].
    assert (exists e, nth_error (cycle_edges vs) k = Some e) as [[x y] E].
    { destruct (nth_error (cycle_edges vs) k) eqn:E; eauto. apply nth_error_None in E. rewrite (Forall2_len _ _ _ _ _ F) in E.
      assert (k < length L)%nat by (apply nth_error_Some; congruence). lia. }
    destruct (Forall2_nth_l _ _ _ _ _ F k _ E) as (t' & K' & J). rewrite K in K'. injection K' as <-.
    apply nth_error_In in E. apply cycle_edges_In in E as [X Y].
    unfold joins in J. simpl in J. destruct Ip as [<-|[<-|[]]]; destruct J as [[J1 J2]|[J1 J2]]; rewrite ?J1, ?J2; auto. }
  apply IV in I1, I2. apply in_split in I1 as (a & r & E). rewrite E in I2. apply in_app_iff in I2 as [I2|[I2|I2]].
  - apply in_split in I2 as (a1 & a2 & ->). rewrite <- app_assoc in E. cbn [app] in E. subst vs.
    apply (chord_between g L a1 (sj s) a2 (si s) r s); auto. left; auto.
  - exfalso. auto.
  - apply in_split in I2 as (b & c & ->). subst vs. apply (chord_between g L a (si s) b (sj s) c s); auto. right; auto.
Qed.

(** * From the parts to the room *)
Lemma sublist_filter : forall X (f : X -> bool) l, sublist (filter f l) l.
Proof. intros X f. induction l as [|x l IH]; simpl; [constructor|]. destruct (f x); [apply sub_take|apply sub_skip]; auto. Qed.
Lemma filter_map : forall X Y (f : X -> Y) (p : Y -> bool) l, filter p (map f l) = map f (filter (fun x => p (f x)) l).
Proof. intros X Y f p. induction l as [|x l IH]; simpl; auto. destruct (p (f x)); simpl; rewrite IH; reflexivity. Qed.

Lemma memb_ex : forall X (e : X -> X -> bool) x l, memb e x l = true <-> exists y, In y l /\ e y x = true.
Proof.
  intros X e x. induction l as [|y l IH]; simpl; [split; [discriminate|intros (y & [] & _)]|].
  rewrite orb_true_iff, IH. split.
  - intros [E|(z & I & E)]; [exists y|exists z]; auto.
  - intros (z & [<-|I] & E); [left; auto|right; exists z; auto].
Qed.
Lemma part_on_loop : forall g L h c p, simple_graph g -> loop_in g L -> (forall l, loop_in g l -> rearranged l L) ->
  Forall2 turned h g -> rearranged (value h c) L -> incl p (seq 0 (length g)) -> p <> [] ->
  (forall s, In s (value h c) -> In s h) ->
  loose_subset (value h c) (value h p) || existsb (fun y => memb seg_eqb y (value h p)) (value h c) = true <-> on_loop L (value g p).
Proof.
  intros g L h c p SG LL ONLY T RC Ip NE VH. pose proof SG as (SEP & NZ & SI).
  assert (LIN : incl L g) by (destruct LL as (vs & _ & _ & _ & X); exact X).
  assert (SEPh : separated (flat_map ij h)).
  { intros a b Ia Ib. assert (Q : forall r, In r (flat_map ij h) -> In r (flat_map ij g)).
    { intros r Ir. apply in_flat_map in Ir as (s & Is & Ir). apply In_nth_error in Is as [k K].
      destruct (Forall2_nth_l _ _ _ _ _ T k s K) as (t & Et & TT). apply in_flat_map. exists t.
      split; [eapply nth_error_In; eauto|]. apply (turned_ij _ _ r TT); auto. }
    apply SEP; auto. }
  pose proof (separated_eqb _ SEPh) as SE.
  assert (ENDS : forall x, In x (flat_map ij (value h c)) <-> In x (flat_map ij L)).
  { intros x. pose proof (rearranged_ends _ _ RC) as P. split; apply Permutation_in; auto. apply Permutation_sym; auto. }
  (* segments of the loop found and of L *)
  assert (VL : forall y, In y (value h c) -> exists t, In t L /\ turned y t).
  { intros y Iy. destruct RC as (g' & P & F). apply In_nth_error in Iy as [k K]. destruct (Forall2_nth_l _ _ _ _ _ F k y K) as (t & E & TT).
    exists t. split; auto. apply (Permutation_in _ P). eapply nth_error_In; eauto. }
  assert (LV : forall t, In t L -> exists y, In y (value h c) /\ turned y t).
  { intros t It. destruct RC as (g' & P & F). apply (Permutation_in _ (Permutation_sym P)) in It. apply In_nth_error in It as [k K].
    assert (exists y, nth_error (value h c) k = Some y) as [y E].
    { destruct (nth_error (value h c) k) eqn:E; eauto. apply nth_error_None in E. rewrite (Forall2_len _ _ _ _ _ F) in E.
      assert (k < length g')%nat by (apply nth_error_Some; congruence). lia. }
    destruct (Forall2_nth_l _ _ _ _ _ F k y E) as (t' & E' & TT). rewrite K in E'. injection E' as <-.
    exists y. split; auto. eapply nth_error_In; eauto. }
  assert (TE : forall a b : seg RA, turned a b -> same_ends a b) by (intros a b [-> | ->]; [left|right]; simpl; auto).
  assert (ST : forall a b d : seg RA, same_ends a b -> same_ends b d -> same_ends a d).
  { unfold same_ends. intros a b d [[-> ->]|[-> ->]] [[-> ->]|[-> ->]]; auto. }
  assert (SS : forall a b : seg RA, same_ends a b -> same_ends b a).
  { unfold same_ends. intros a b [[-> ->]|[-> ->]]; auto. }
  (* objects *)
  assert (OB : forall z, In z (value h p) -> exists z', In z' (value g p) /\ turned z z').
  { intros z Iz. apply in_value_iff in Iz as (k & K & Ek). destruct (Forall2_nth_l _ _ _ _ _ T k z Ek) as (z' & Ez & TT).
    exists z'. split; auto. apply in_value_iff. exists k; auto. }
  split.
  - intros E. apply orb_true_iff in E as [E|E].
    + destruct p as [|k p]; [congruence|].
      assert (K : (k < length g)%nat) by (specialize (Ip k (or_introl eq_refl)); apply in_seq in Ip; lia).
      destruct (nth_error g k) as [s|] eqn:Ek; [|apply nth_error_None in Ek; lia].
      assert (exists s', nth_error h k = Some s') as [s' Eh].
      { destruct (nth_error h k) eqn:E'; eauto. apply nth_error_None in E'. rewrite (Forall2_len _ _ _ _ _ T) in E'. lia. }
      destruct (Forall2_nth_l _ _ _ _ _ T k s' Eh) as (s2 & E2 & TT). rewrite Ek in E2. injection E2 as <-.
      assert (IN : forall q, In q (ij s') -> In q (flat_map ij L)).
      { intros q Iq. apply ENDS. unfold loose_subset in E. rewrite forallb_forall in E.
        assert (IQ : In q (dedup pt_sameb (flat_map ij (value h (k :: p))))).
        { apply dedup_In; [apply pt_sameb_iff|]. apply in_flat_map. exists s'. split; auto. apply in_value_iff. exists k. split; [left; auto|auto]. }
        specialize (E q IQ). apply memb_ex in E as (x & Ix & E). apply pt_sameb_iff in E. subst x. exact Ix. }
      destruct (chord g L s) as [(t & It & Q)|(l & Ll & Isl)]; auto.
      * eapply nth_error_In; eauto.
      * apply NZ. eapply nth_error_In; eauto.
      * apply IN. destruct TT as [-> | ->]; simpl; auto.
      * apply IN. destruct TT as [-> | ->]; simpl; auto.
      * exists s, t. split; [apply in_value_iff; exists k; split; [left; auto|auto]|]. split; auto.
      * destruct (ONLY l Ll) as (g' & P & F). apply In_nth_error in Isl as [m M]. destruct (Forall2_nth_l _ _ _ _ _ F m s M) as (t & Et & TT').
        exists s, t. split; [apply in_value_iff; exists k; split; [left; auto|auto]|].
        split; [apply (Permutation_in _ P); eapply nth_error_In; eauto|]. apply TE. exact TT'.
    + apply existsb_exists in E as (y & Iy & E). apply memb_ex in E as (z & Iz & E).
      destruct (VL y Iy) as (t & It & Ty). destruct (OB z Iz) as (z' & Iz' & Tz). exists z', t. split; auto. split; auto.
      apply (ST z' z t); [apply SS, TE, Tz|]. apply (ST z y t); [|apply TE, Ty].
      assert (FI : forall x q, In x h -> In q (ij x) -> In q (flat_map ij h)) by (intros x q X Q; apply in_flat_map; exists x; auto).
      assert (Hz : In z h) by (eapply in_value; eauto). assert (Hy : In y h) by auto.
      unfold seg_eqb in E. apply andb_true_iff in E as [E EJ]. apply andb_true_iff in E as [_ EI].
      apply SE in EI; [|apply (FI z); [exact Hz|unfold ij; simpl; auto]|apply (FI y); [exact Hy|unfold ij; simpl; auto]].
      apply SE in EJ; [|apply (FI z); [exact Hz|unfold ij; simpl; auto]|apply (FI y); [exact Hy|unfold ij; simpl; auto]].
      left. auto.
  - intros (s & t & Is & It & Q). apply orb_true_iff. right. apply existsb_exists.
    destruct (LV t It) as (y & Iy & Ty). exists y. split; auto. apply memb_ex.
    apply in_value_iff in Is as (k & K & Ek).
    pose proof (VH y Iy) as Hy. apply In_nth_error in Hy as [m Em]. destruct (Forall2_nth_l _ _ _ _ _ T m y Em) as (y' & Ey & TY).
    assert (k = m); [|subst m; exists y; split].
    + apply (SI k m s y'); auto. apply (ST s t y' Q). apply (ST t y y'); [apply SS, TE, Ty|apply TE, TY].
    + apply in_value_iff. exists k. auto.
    + unfold seg_eqb. rewrite !pt_eqb_refl. destruct (sc y); reflexivity.
Qed.

(*@ C95_one_loop *)
(** C95: a graph with a single loop (which does not cross itself), in which walking along the segments finds
    no loop first: find_loops returns exactly this loop, once, as a valid closed polygon, and changes
    nothing but the directions of segments. *)
Lemma one_loop_found : forall (schs : nat -> sched RA) wf fuel (g L : list (seg RA)), simple_graph g -> (length g < 250)%nat ->
  walk_segments (schs fuel) wf g None = Ok NoLoop -> loop_in g L -> uncrossed L -> (forall l, loop_in g l -> rearranged l L) ->
  exists c h, find_loops schs wf fuel g = Ok (Some ([c], h)) /\ Forall2 turned h g /\ rearranged (value h c) L /\
    poly_isvalid (value h c) = Ok true /\ isclosed (value h c) = Ok true.
Proof. exact one_loop. Qed.

(*@ C95_one_room *)
(** C95: the same for a vessel: when the walls of its parts form a single loop, raum_erstellen makes one
    room, R1, without inner walls; its outer wall consists of exactly the parts that have a segment on the
    loop, in their order (some of their segments may have been turned round). *)
Lemma one_room : forall (schs : nat -> sched RA) wf fuel H HC lib inside inside2 Hs parts (g L : list (seg RA)),
  simple_graph g -> (length g < 250)%nat ->
  walk_segments (schs fuel) wf g None = Ok NoLoop -> loop_in g L -> uncrossed L -> (forall l, loop_in g l -> rearranged l L) ->
  Permutation (concat parts) (seq 0 (length g)) -> Forall (fun p => p <> []) parts ->
  (forall l, rearranged l L -> isclosed l = Ok true -> exists ts, triangle_mesh lib (fun _ _ => inside) l = Ok ts) ->
  exists h on, vessel_rooms schs wf fuel H HC lib inside inside2 Hs parts g =
      Ok (Some [mkraum "R1" 0 [] [map (value h) on] []]) /\
    Forall2 turned h g /\ sublist on parts /\
    (forall p, In p parts -> (In p on <-> on_loop L (value g p))).
Proof.
  intros schs wf fuel H HC lib inside inside2 Hs parts g L SG BIG EW LL UN ONLY PP NEP TM.
  destruct (one_loop schs wf fuel g L SG BIG EW LL UN ONLY) as (c & h & EF & T & RC & VC & CC).
  destruct (TM (value h c) RC CC) as (ts & ET).
  set (on := filter (fun p => loose_subset (value h c) (value h p) || existsb (fun y => memb seg_eqb y (value h p)) (value h c)) parts).
  exists h, on. split; [|split; [exact T|split; [apply sublist_filter|]]].
  - unfold vessel_rooms. rewrite EF. cbn [bind]. unfold keep_base_polygons. cbn [mapM]. rewrite ET. cbn [bind base_cycles combine seq length].
    unfold segments_in_cycles. cbn [map]. rewrite filter_map. fold on. reflexivity.
  - intros p Ip. rewrite Forall_forall in NEP.
    rewrite <- (part_on_loop g L h c p SG LL ONLY T RC); auto.
    + unfold on. rewrite filter_In. tauto.
    + intros k K. apply (Permutation_in _ PP). apply in_concat. exists p. auto.
    + intros s. apply in_value.
Qed.

(** * Example *)
(*@ex C95_example *)
(** C95: a triangular room of two parts and a dead end, which is a third part: the hypotheses hold; the
    outer wall consists of the two parts. *)
Lemma one_room_example : forall (schs : nat -> sched RA) H HC inside inside2 Hs, (forall k, fair (schs k)) ->
  let g := [zseg (-9) 0 0 0; zseg 0 0 4 0; zseg 4 0 2 3; zseg 2 3 0 0] in
  let parts := [[1%nat]; [0%nat]; [2%nat; 3%nat]] in
  exists h, Forall2 turned h g /\
    vessel_rooms schs 4 0 H HC (fun _ _ => None) inside inside2 Hs parts g =
      Ok (Some [mkraum "R1" 0 [] [[value h [1%nat]; value h [2%nat; 3%nat]]] []]).
Proof.
  intros schs H HC inside inside2 Hs FS g parts.
  set (L := [zseg 0 0 4 0; zseg 4 0 2 3; zseg 2 3 0 0]).
  assert (SG : simple_graph g) by (apply (zseg_simple [(-9,0,0,0); (0,0,4,0); (4,0,2,3); (2,3,0,0)]%Z); reflexivity).
  assert (PN : forall a b c d : Z, (a <> c \/ b <> d)%Z -> @mkpt RA (IZR a) (IZR b) <> @mkpt RA (IZR c) (IZR d)).
  { intros a b c d [N|N] E; injection E as E1 E2; apply N, eq_IZR; auto. }
  assert (LL : loop_in g L).
  { exists [@mkpt RA 0 0; @mkpt RA 4 0; @mkpt RA 2 3]. split; [simpl; lia|]. split; [|split].
    + assert (ND : forall l : list (Z * Z), NoDup l -> NoDup (map (fun '(a, b) => @mkpt RA (IZR a) (IZR b)) l)).
      { intros l N. apply FinFun.Injective_map_NoDup; auto. intros [a b] [c d] E. injection E as E1 E2. apply eq_IZR in E1, E2. congruence. }
      apply (ND [(0,0);(4,0);(2,3)]%Z). repeat constructor; simpl; intuition congruence.
    + repeat (apply Forall2_cons; [unfold joins; simpl; auto|]). apply Forall2_nil.
    + intros s Is. simpl in *. intuition. }
  assert (PL : plan g).
  { split.
    + assert (LZ : forall a b : Z, (Z.abs a <= 2000)%Z -> (Z.abs b <= 2000)%Z -> lattice 2000 (@mkpt RA (IZR a) (IZR b))).
      { intros a b Ha Hb. exists a, b. auto. }
      intros p I. unfold g, zseg in I. cbn [flat_map ij si sj app In] in I.
      repeat (destruct I as [<-|I]; [apply LZ; lia|]). destruct I.
    + intros s t q Is It CP (U & V).
      destruct Is as [<-|[<-|[<-|[<-|[]]]]]; destruct It as [<-|[<-|[<-|[<-|[]]]]];
      first [ solve [eexists; split; [left; reflexivity|left; reflexivity]]
            | solve [eexists; split; [left; reflexivity|right; left; reflexivity]]
            | solve [eexists; split; [right; left; reflexivity|left; reflexivity]]
            | solve [eexists; split; [right; left; reflexivity|right; left; reflexivity]]
            | solve [exfalso; apply CP; unfold crossproduct; simpl; lra]
            | solve [exfalso; destruct U as (u & Lu & ->), V as (v & Lv & E); injection E as E1 E2; simpl in E1, E2; lra] ]. }
  assert (HV : forall k, hits g k (@mkpt RA (-9) 0) -> k = 0%nat).
  { intros k (s & Es & Is). destruct k as [|[|[|[|k]]]]; simpl in Es; try (injection Es as <-); auto.
    - destruct Is as [E|[E|[]]]; injection E; intros; lra.
    - destruct Is as [E|[E|[]]]; injection E; intros; lra.
    - destruct Is as [E|[E|[]]]; injection E; intros; lra.
    - destruct k; discriminate. }
  assert (ONLY : forall l, loop_in g l -> rearranged l L).
  { intros l Ll. destruct (loop_ids g l Ll) as (c & us & Ic & C & <-).
    assert (N0 : ~ In 0%nat c).
    { intros I0. assert (HP : hits g 0 (@mkpt RA (-9) 0)) by (exists (zseg (-9) 0 0 0); split; [reflexivity|left; reflexivity]).
      pose proof (cyc_vertex g us c 0%nat _ C I0 HP) as Iv. destruct (cyc_two g us c _ C Iv) as (a & b & NE & _ & _ & Ha & Hb).
      apply HV in Ha, Hb. congruence. }
    assert (P : Permutation c [1%nat; 2%nat; 3%nat]).
    { apply NoDup_Permutation_bis.
      - destruct C as (_ & _ & X & _); exact X.
      - pose proof (cyc_length _ _ _ C) as Q. destruct C as (X & _). simpl. lia.
      - intros k K. pose proof (Ic k K) as B. apply in_seq in B. simpl in B. destruct k as [|[|[|[|k]]]]; simpl; auto; try contradiction; try lia. }
    exists (value g c). split; [|apply turned_refl]. change L with (value g [1%nat; 2%nat; 3%nat]). apply Permutation_flat_map. exact P. }
  assert (EW : walk_segments (schs 0%nat) 4 g None = Ok NoLoop).
  { apply (dead_end (schs 0%nat) 4 g (zseg (-9) 0 0 0) (tl g)); [apply FS|lia|reflexivity|apply SG|].
    intros t It. repeat (destruct It as [<-|It]; [split; simpl; intros E; injection E; intros; lra|]). destruct It. }
  destruct (one_room schs 4 0 H HC (fun _ _ => None) inside inside2 Hs parts g L SG) as (h & on & E & T & SB & ON); auto.
  - simpl. lia.
  - apply (plan_uncrossed g); auto.
  - simpl. apply perm_swap.
  - unfold parts. repeat constructor; discriminate.
  - intros l _ _. exists []. unfold triangle_mesh. cbv zeta. destruct (PArea.asked_any l) as (ns & -> & _). reflexivity.
  - exists h. split; auto. rewrite E. do 4 f_equal. f_equal.
    assert (O1 : In [1%nat] on).
    { apply ON; [left; auto|]. exists (zseg 0 0 4 0), (zseg 0 0 4 0). simpl. auto. }
    assert (O0 : ~ In [0%nat] on).
    { intros I. apply ON in I; [|right; left; auto]. destruct I as (s & t & [<-|[]] & It & Q). unfold zseg in *.
      destruct It as [<-|[<-|[<-|[]]]]; simpl in Q; destruct Q as [[Q _]|[Q _]]; injection Q; intros; lra. }
    assert (O2 : In [2%nat; 3%nat] on).
    { apply ON; [right; right; left; auto|]. exists (zseg 4 0 2 3), (zseg 4 0 2 3). simpl. auto. }
    assert (on = [[1%nat]; [2%nat; 3%nat]]) as ->; [|reflexivity].
    unfold parts in SB. clear - SB O0 O1 O2.
    repeat match goal with H : sublist _ _ |- _ => inversion H; clear H; subst end; simpl in *; try reflexivity; exfalso;
      repeat match goal with H : _ \/ _ |- _ => destruct H | H : False |- _ => destruct H end; try discriminate; auto 6.
Qed.
