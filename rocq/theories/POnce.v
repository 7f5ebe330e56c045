(** When any two loops of a graph have a common point, find_loops reports no loop twice. *)
From Coq Require Import String Reals ZArith Lra Lia Bool List Psatz Permutation Arith Classical.
From Verif Require Import Base Arith ArithR ArithF MPoint MLine MPoly MTri MGroup
  Spec SpecGroup SpecLoops PPoint PLine PConvex POrder PGroup PWalk PComponent PLoops POneRoom.
Import ListNotations.
Local Open Scope list_scope.
#[local] Existing Instance RA.

Lemma pairs_snoc : forall X (R0 : X -> X -> Prop) l x, ForallOrdPairs R0 l -> (forall y, In y l -> R0 y x) -> ForallOrdPairs R0 (l ++ [x]).
Proof.
  intros X R0 l x F H. induction F as [|y l F FO IH]; cbn [app]; [repeat constructor|]. constructor.
  - apply Forall_app. split; auto. constructor; auto. apply H. left; auto.
  - apply IH. intros z Z. apply H. right; auto.
Qed.

Section Once.
Variable g : list (seg RA).
Let U := seq 0 (length g).
Hypothesis SG : simple_graph g.
Hypothesis BIG : (length g < 250)%nat.
Hypothesis SHARE : forall l m, loop_in g l -> loop_in g m -> exists p, In p (flat_map ij l) /\ In p (flat_map ij m).

(** a combination in which every point occurs twice is one loop *)
Lemma whole_comb : forall ids us ids', NoDup ids -> incl ids U -> twice (value g ids) = true -> incl ids' ids -> cyc g us ids' -> Permutation ids' ids.
Proof.
  intros ids us ids' ND I TW II CY. pose proof SG as (SEP & NZ & SI).
  assert (ND' : NoDup ids') by (destruct CY as (_ & _ & X & _); exact X).
  set (more := filter (fun k => negb (existsb (Nat.eqb k) ids')) ids).
  assert (IM : forall k, In k more <-> In k ids /\ ~ In k ids').
  { intros k. unfold more. rewrite filter_In, negb_true_iff. split; intros [A B]; split; auto.
    - intros K. assert (existsb (Nat.eqb k) ids' = true); [|congruence]. apply existsb_exists. exists k. split; auto. apply Nat.eqb_refl.
    - apply not_true_iff_false. intros E. apply existsb_exists in E as (x & X & E). apply Nat.eqb_eq in E. subst. auto. }
  assert (NDM : NoDup more) by (apply NoDup_filter; auto).
  assert (PM : Permutation ids (ids' ++ more)).
  { apply NoDup_Permutation; auto.
    - apply nodup_two; auto. intros x X Y. apply IM in Y as [_ Y]. auto.
    - intros k. rewrite in_app_iff, IM. split; [|intros [K|[K _]]; auto]. intros K. destruct (in_dec Nat.eq_dec k ids'); auto. }
  destruct more as [|k0 mr] eqn:EM; [rewrite app_nil_r in PM; symmetry; exact PM|]. exfalso. rewrite <- EM in *.
  assert (IMU : incl more U) by (intros k K; apply IM in K as [K _]; auto).
  pose proof (proj1 (twice_iff _) TW) as TW'.
  assert (CT : forall p, count p (value g ids) = (count p (value g ids') + count p (value g more))%nat).
  { intros p. unfold count. assert (PF : Permutation (flat_map ij (value g ids)) (flat_map ij (value g ids') ++ flat_map ij (value g more))).
    { rewrite <- flat_map_app. apply Permutation_flat_map. unfold value. rewrite <- flat_map_app. apply Permutation_flat_map. exact PM. }
    rewrite (Permutation_length (perm_filter _ (pt_sameb p) _ _ PF)), filter_app, app_length. reflexivity. }
  assert (TWL : forall p, In p (flat_map ij (value g ids')) -> count p (value g ids') = 2%nat).
  { apply twice_iff. eapply cyc_twice; [exact CY|]. apply (value_nz g SG). }
  assert (POS : forall p l, In p (flat_map ij l) -> (1 <= count p l)%nat).
  { intros p l Ip. unfold count. assert (J : In p (filter (pt_sameb p) (flat_map ij l))) by (apply filter_In; split; auto; apply pt_sameb_iff; auto).
    destruct (filter (pt_sameb p) (flat_map ij l)); [destruct J|simpl; lia]. }
  assert (SUBP : forall p, In p (flat_map ij (value g more)) -> In p (flat_map ij (value g ids))).
  { intros p Ip. apply in_flat_map in Ip as (s & Is & Ip). apply in_value_iff in Is as (k & K & Ek). apply in_flat_map. exists s. split; auto.
    apply in_value_iff. exists k. split; auto. apply IM in K. tauto. }
  assert (TWM : twice (value g more) = true).
  { apply twice_iff. intros p Ip. pose proof (TW' p (SUBP p Ip)) as Q. rewrite CT in Q. pose proof (POS p (value g more) Ip).
    destruct (classic (In p (flat_map ij (value g ids')))) as [X|X]; [rewrite (TWL p X) in Q; lia|].
    assert (count p (value g ids') = 0%nat); [|lia]. unfold count.
    destruct (filter (pt_sameb p) (flat_map ij (value g ids'))) as [|q qs] eqn:EF; auto. exfalso. apply X.
    assert (J : In q (q :: qs)) by (left; auto). rewrite <- EF in J. apply filter_In in J as [J E]. apply pt_sameb_iff in E. subst q. exact J. }
  destruct (twice_loop g SG BIG more NDM IMU) as (us2 & ids2 & I2 & C2); auto; [rewrite EM; discriminate|].
  destruct (SHARE _ _ (cyc_loop g us ids' CY) (cyc_loop g us2 ids2 C2)) as (p & P1 & P2).
  assert (P3 : In p (flat_map ij (value g more))).
  { apply in_flat_map in P2 as (s & Is & Ip). apply in_value_iff in Is as (k & K & Ek). apply in_flat_map. exists s. split; auto. apply in_value_iff. exists k. auto. }
  pose proof (TW' p (SUBP p P3)) as Q. rewrite CT, (TWL p P1) in Q. pose proof (POS p _ P3). lia.
Qed.

Lemma comb_order : forall h ids, Forall2 turned h g -> NoDup ids -> incl ids U -> ids <> [] -> twice (value h ids) = true ->
  exists ids' h', horder h ids = Ok (true, ids', h') /\ Forall2 turned h' g /\ Permutation ids' ids.
Proof.
  intros h ids T ND I NE TW. pose proof SG as (SEP & NZ & SI).
  assert (LH : length h = length g) by (apply (Forall2_len _ _ _ _ _ T)).
  assert (RI : inrange h ids) by (intros k K; apply I, in_seq in K; lia).
  assert (TG : twice (value g ids) = true) by (eapply twice_turned; eauto).
  destruct (component_order (value h ids)) as (us & r & EO & L3 & NU & IU & ER & _); auto.
  { intros p q Ip Iq. assert (Q : forall x, In x (flat_map ij (value h ids)) -> In x (flat_map ij g)).
    { intros x Ix. apply (Permutation_in _ (rearranged_ends (value h ids) (value g ids) ltac:(exists (value g ids); split; [auto|exact (value_turned h g ids T)]))) in Ix.
      apply in_flat_map in Ix as (s & Is & Ix). apply in_flat_map. exists s. split; auto. eapply in_value; eauto. }
    apply SEP; auto. }
  { apply (apart_value g U) with (h := h); auto.
    - intros k K. apply in_seq in K. lia.
    - intros k s _ E. apply NZ. eapply nth_error_In; eauto.
    - intros i j s t _ _. apply SI.
    - unfold U. rewrite seq_length. exact BIG. }
  { intros E. apply (f_equal (@List.length (seg RA))) in E. rewrite value_length in E by auto. destruct ids; [congruence|discriminate]. }
  { rewrite value_length by auto. pose proof (NoDup_incl_length ND I) as Q. unfold U in Q. rewrite seq_length in Q. lia. }
  destruct (horder_true RA h ids r ND RI EO) as (ids' & h' & EH & EV & II & ND' & TH).
  exists ids', h'. split; auto.
  assert (TG' : Forall2 turned h' g) by (eapply turned2_trans; eauto). split; auto.
  apply (whole_comb ids us ids'); auto. apply (cyc_turned h' g); auto.
  split; [|split; [|split; [|split]]]; auto.
  - intros k K. rewrite (Forall2_len _ _ _ _ _ TH). apply RI; auto.
  - apply directed_joins. rewrite EV. exact ER.
Qed.

Definition once (n : nat) (done : list (list nat)) (st : lstate RA) : Prop :=
  Forall2 turned (l_heap st) g /\ NoDup (l_graph st) /\ incl (l_graph st) U /\
  ForallOrdPairs (fun a b => ~ Permutation a b) (l_cycles st) /\ (forall c, In c (l_cycles st) -> NoDup c /\ incl c U) /\
  forall c, In c (l_cycles st) -> (length c < n)%nat \/ exists d, In d done /\ Permutation c d.
Lemma once_step : forall n done st ids st', once n done st -> NoDup ids -> incl ids U -> ids <> [] -> length ids = n ->
  (forall d, In d done -> ~ Permutation d ids) -> try_comb st ids = Ok st' -> once n (done ++ [ids]) st'.
Proof.
  intros n done st ids st' (T & NG & IG & FO & CI & CD) ND I NE LN DD E.
  assert (KEEP : forall h', Forall2 turned h' g -> once n (done ++ [ids]) (mkl h' (l_graph st) (l_cycles st))).
  { intros h' T'. split; [exact T'|]. do 4 (split; [assumption|]). intros c Ic. destruct (CD c Ic) as [|(d & Id & P)]; [left; auto|right; exists d; split; auto; apply in_or_app; auto]. }
  unfold try_comb in E. cbv zeta in E. destruct (twice (value (l_heap st) ids)) eqn:TW; cbn [negb] in E.
  2:{ injection E as <-. destruct st as [h0 g0 c0]. exact (KEEP h0 T). }
  destruct (comb_order _ ids T ND I NE TW) as (ids' & h' & EH & T' & P'). rewrite EH in E. cbn [bind negb] in E.
  destruct (poly_isvalid (value h' ids')) as [v|]; [|discriminate]. cbn [bind] in E.
  destruct (if v then isclosed (value h' ids') else Ok false) as [c|]; [|discriminate]. cbn [bind] in E.
  destruct (v && c && negb (in_cycles h' (l_cycles st) (value h' ids')))%bool; injection E as <-; [|exact (KEEP h' T')].
  split; [exact T'|]. cbn [l_graph l_cycles]. split; [destruct (branch_free _ _); [apply NoDup_filter; auto|auto]|].
  split; [destruct (branch_free _ _); [intros k K; apply filter_In in K as [K _]; auto|auto]|].
  split.
  { apply pairs_snoc; auto. intros c' Ic P. destruct (CD c' Ic) as [L|(d & Id & Q)].
    - apply Permutation_length in P. rewrite (Permutation_length P') in P. lia.
    - apply (DD d Id). rewrite <- Q, P. exact P'. }
  split.
  { intros c' Ic. apply in_app_iff in Ic as [Ic|[<-|[]]]; auto. split; [apply (Permutation_NoDup (Permutation_sym P') ND)|intros k K; apply I, (Permutation_in _ P' K)]. }
  intros c' Ic. apply in_app_iff in Ic as [Ic|[<-|[]]].
  - destruct (CD c' Ic) as [|(d & Id & P)]; [left; auto|right; exists d; split; auto; apply in_or_app; auto].
  - right. exists ids. split; [apply in_or_app; right; left; auto|exact P'].
Qed.
Lemma once_fold : forall n todo done st st', ForallOrdPairs (fun a b => ~ Permutation a b) (done ++ todo) ->
  (forall c, In c todo -> NoDup c /\ incl c U /\ c <> [] /\ length c = n) -> once n done st -> foldM try_comb todo st = Ok st' -> once n (done ++ todo) st'.
Proof.
  intros n. induction todo as [|ids todo IH]; intros done st st' D Q O E; cbn [foldM] in E; [injection E as <-; rewrite app_nil_r; exact O|].
  destruct (try_comb st ids) as [s1|] eqn:E1; [|discriminate]. cbn [bind] in E.
  destruct (Q ids (or_introl eq_refl)) as (Q1 & Q2 & Q3 & Q4).
  assert (DD : forall d, In d done -> ~ Permutation d ids).
  { clear - D. induction done as [|x done IHd]; intros d []; cbn [app] in D; inversion D as [|? ? F1 F2]; subst; [|apply IHd; auto].
    rewrite Forall_forall in F1. apply F1, in_or_app. right; left; auto. }
  pose proof (once_step n done st ids s1 O Q1 Q2 Q3 Q4 DD E1) as O1.
  replace (done ++ ids :: todo) with ((done ++ [ids]) ++ todo) by (rewrite <- app_assoc; reflexivity).
  apply (IH (done ++ [ids]) s1); auto; [rewrite <- app_assoc; exact D|]. intros c Ic. apply Q. right; auto.
Qed.
Lemma once_rounds : forall fuel comblen st st', once (S comblen) [] st -> comb_rounds fuel comblen st = Ok st' ->
  ForallOrdPairs (fun a b => ~ Permutation a b) (l_cycles st') /\ (forall c, In c (l_cycles st') -> NoDup c /\ incl c U) /\ Forall2 turned (l_heap st') g.
Proof.
  induction fuel as [|fuel IH]; intros comblen st st' O E; cbn [comb_rounds] in E; pose proof O as (T & NG & IG & FO & CI & CD); [injection E as <-; auto|].
  destruct (Nat.leb comblen (length (l_graph st))); [|injection E as <-; auto].
  destruct (foldM try_comb (combinations (S comblen) (l_graph st)) st) as [s1|] eqn:E1; [|discriminate]. cbn [bind] in E.
  assert (FA : forall c, In c (combinations (S comblen) (l_graph st)) -> NoDup c /\ incl c U /\ c <> [] /\ length c = S comblen).
  { intros c Ic. apply (comb_facts g st comblen c); auto. }
  pose proof (once_fold (S comblen) _ [] st s1 (combs_distinct _ _ NG) FA O E1) as (T1 & NG1 & IG1 & FO1 & CI1 & CD1).
  apply (IH (S comblen) s1 st'); auto. split; [auto|]. do 4 (split; [assumption|]). intros c Ic. left.
  destruct (CD1 c Ic) as [|(d & Id & P)]; [lia|]. cbn [app] in Id. destruct (FA d Id) as (_ & _ & _ & L). rewrite (Permutation_length P). lia.
Qed.
End Once.

Lemma fop_perm : forall X (Q : X -> X -> Prop) l m, (forall x y, Q x y -> Q y x) -> Permutation l m -> ForallOrdPairs Q l -> ForallOrdPairs Q m.
Proof.
  intros X Q l m S P. induction P; intros F; auto.
  - inversion F as [|? ? F1 F2]; subst. constructor; auto. rewrite Forall_forall in *. intros y Y. apply F1. apply (Permutation_in _ (Permutation_sym P) Y).
  - inversion F as [|? ? F1 F2]; subst. inversion F2 as [|? ? F3 F4]; subst. inversion F1; subst. repeat constructor; auto.
Qed.

(** same segments, same numbers *)
Lemma same_numbers : forall g h c d, simple_graph g -> Forall2 turned h g -> NoDup c -> NoDup d -> incl c (seq 0 (length g)) -> incl d (seq 0 (length g)) ->
  rearranged (value h c) (value h d) -> Permutation c d.
Proof.
  intros g h c d SG T NC ND IC ID (g' & P & F). pose proof SG as (_ & _ & SI).
  assert (LH : length h = length g) by (apply (Forall2_len _ _ _ _ _ T)).
  assert (R : forall x, incl x (seq 0 (length g)) -> inrange h x) by (intros x I k K; apply I, in_seq in K; lia).
  assert (LE : length c = length d).
  { pose proof (Forall2_len _ _ _ _ _ F) as Q. rewrite (Permutation_length P) in Q. rewrite !value_length in Q; auto. }
  apply NoDup_Permutation_bis; auto; [lia|].
  intros k K. destruct (nth_error h k) as [s|] eqn:Ek; [|apply nth_error_None in Ek; apply IC, in_seq in K; lia].
  assert (Is : In s (value h c)) by (apply in_value_iff; exists k; auto).
  apply In_nth_error in Is as [m Em]. destruct (Forall2_nth_l _ _ _ _ _ F m s Em) as (s' & Es & T').
  apply nth_error_In in Es. apply (Permutation_in _ P) in Es. apply in_value_iff in Es as (j & Ij & Ej).
  destruct (Forall2_nth_l _ _ _ _ _ T k s Ek) as (u & Eu & Tu). destruct (Forall2_nth_l _ _ _ _ _ T j s' Ej) as (v & Ev & Tv).
  replace k with j; auto. apply (SI j k v u); auto. clear - T' Tu Tv. unfold same_ends.
  destruct s as [c1 i1 j1], s' as [c2 i2 j2], u as [c3 i3 j3], v as [c4 i4 j4]. cbn in *.
  destruct T' as [T'|T'], Tu as [Tu|Tu], Tv as [Tv|Tv]; injection T' as ? ? ?; injection Tu as ? ? ?; injection Tv as ? ? ?; subst; auto.
Qed.

Lemma found_once : forall (schs : nat -> sched RA) wf fuel (g : list (seg RA)) cs h, simple_graph g -> (length g < 250)%nat ->
  (forall l m, loop_in g l -> loop_in g m -> exists p, In p (flat_map ij l) /\ In p (flat_map ij m)) ->
  walk_segments (schs fuel) wf g None = Ok NoLoop -> find_loops schs wf fuel g = Ok (Some (cs, h)) ->
  ForallOrdPairs (fun c d => ~ Permutation c d) cs /\ (forall c, In c cs -> NoDup c /\ incl c (seq 0 (length g))) /\ Forall2 turned h g.
Proof.
  intros schs wf fuel g cs h SG BIG SHARE EW E.
  assert (V : value g (seq 0 (length g)) = g) by (apply (value_seq g [])).
  assert (E1 : exists st, comb_rounds (length (seq 0 (length g))) 1 (mkl g (seq 0 (length g)) []) = Ok st /\
    cs = sort_by (fun a b => Nat.ltb (length a) (length b)) (l_cycles st) /\ h = l_heap st).
  { unfold find_loops in E. destruct fuel as [|fuel]; cbn [walk_rounds l_heap l_graph l_cycles] in E; rewrite V, EW in E; cbn [bind l_graph] in E;
      (destruct (comb_rounds _ _ _) as [st|]; [|discriminate]); cbn [bind] in E; injection E as <- <-; exists st; auto. }
  destruct E1 as (st & E1 & -> & ->).
  destruct (once_rounds g SG BIG SHARE (length (seq 0 (length g))) 1 (mkl g (seq 0 (length g)) []) st) as (F & C & T); [|exact E1|].
  { split; [apply turned_refl|]. split; [apply seq_NoDup|]. split; [intros x; auto|]. split; [constructor|]. split; intros c []. }
  split; [|split; auto].
  - eapply fop_perm; [|apply Permutation_sym, sort_by_perm|exact F]. intros x y N P. apply N. symmetry. exact P.
  - intros c Ic. apply C. apply (Permutation_in _ (sort_by_perm _ _ _) Ic).
Qed.

(*@ C91_once *)
(** C91: in a graph in which any two loops have a common corner (as between rooms with a common wall), when
    walking finds no loop first, no loop is reported twice. *)
Lemma results_once : forall (schs : nat -> sched RA) wf fuel (g : list (seg RA)) cs h, simple_graph g -> (length g < 250)%nat ->
  (forall l m, loop_in g l -> loop_in g m -> exists p, In p (flat_map ij l) /\ In p (flat_map ij m)) ->
  walk_segments (schs fuel) wf g None = Ok NoLoop -> find_loops schs wf fuel g = Ok (Some (cs, h)) ->
  forall i j c d, nth_error cs i = Some c -> nth_error cs j = Some d -> rearranged (value h c) (value h d) -> i = j.
Proof.
  intros schs wf fuel g cs h SG BIG SHARE EW E.
  destruct (found_once schs wf fuel g cs h SG BIG SHARE EW E) as (F & C & T).
  assert (K : forall c d, In c cs -> In d cs -> rearranged (value h c) (value h d) -> Permutation c d).
  { intros c d Ic Id. destruct (C c Ic), (C d Id). apply (same_numbers g); auto. }
  clear - F K. induction F as [|x cs F1 F IH]; intros i j c d Ei Ej R; [destruct i; discriminate|]. rewrite Forall_forall in F1.
  destruct i as [|i], j as [|j]; cbn in Ei, Ej.
  - reflexivity.
  - injection Ei as ->. exfalso. apply nth_error_In in Ej. apply (F1 d Ej). apply K; auto; [left|right]; auto.
  - injection Ej as ->. exfalso. apply nth_error_In in Ei. apply (F1 c Ei). symmetry. apply K; auto; [right|left]; auto.
  - f_equal. apply (IH) with (c := c) (d := d); auto. intros; apply K; auto; right; auto.
Qed.
