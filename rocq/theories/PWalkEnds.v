(** When walking along the segments of a graph ends. *)
From Coq Require Import Reals ZArith Lra Lia Bool List Psatz Permutation Arith Classical.
From Verif Require Import Base Arith ArithR ArithF MPoint MLine MPoly MTri MGroup
  Spec SpecGroup SpecLoops SpecRing PPoint PLine PShape PConvex POrder PInside PGroup PWalk PCommon PLoops PPlainLoop.
From Verif Require Import SpecDouble SpecWhole.
From Verif Require PWholeLoops.
Import ListNotations.
#[local] Existing Instance RA.

(** * Paths *)
Fixpoint chain (ps : list (pt RA)) (es : list (seg RA)) : Prop :=
  match ps, es with
  | [_], [] => True
  | p :: r, e :: es' => match r with p' :: _ => joins (p, p') e | [] => False end /\ chain r es'
  | _, _ => False
  end.
Lemma chain_front : forall l1 q l2 es, chain (l1 ++ q :: l2) es -> exists e1 e2, es = e1 ++ e2 /\ Forall2 joins (combine l1 (tl (l1 ++ [q]))) e1.
Proof.
  induction l1 as [|p l1 IH]; intros q l2 es C.
  - exists [], es. split; auto. constructor.
  - destruct es as [|e es]; [destruct l1; simpl in C; destruct C|]. assert (J : match l1 ++ q :: l2 with p' :: _ => joins (p, p') e | [] => False end /\ chain (l1 ++ q :: l2) es) by (destruct l1; exact C). clear C. destruct J as [J C]. apply IH in C as (e1 & e2 & -> & F).
    exists (e :: e1), e2. split; auto. destruct l1 as [|p' l1]; cbn [app tl combine]; constructor; auto.
Qed.
Lemma cycle_edges_app : forall X (p : X) l q, cycle_edges (p :: l ++ [q]) = combine (p :: l) (l ++ [q]) ++ [(q, p)].
Proof.
  intros X p l q. unfold cycle_edges.
  assert (H : forall (a b : list X) x y, length a = length b -> combine (a ++ [x]) (b ++ [y]) = combine a b ++ [(x, y)]).
  { induction a as [|u a IH]; intros [|v b] x y L; simpl in *; try discriminate; auto. f_equal. apply IH. lia. }
  rewrite (app_comm_cons l [q] p), H; auto. rewrite app_length. simpl. lia.
Qed.

Section Forest.
Variables (g : list (seg RA)) (a0 : seg RA).
Hypothesis SG : simple_graph g.
Hypothesis nB : (length g < 125)%nat.
Hypothesis IA0 : In a0 g.
Hypothesis ALL : forall l, loop_in g l -> In a0 l.
Let n := length g.

Lemma same_edge : forall e f, In e g -> In f g -> (si e = si f /\ sj e = sj f) \/ (si e = sj f /\ sj e = si f) -> e = f.
Proof.
  intros e f Ie If H. destruct SG as (_ & _ & SI). apply In_nth_error in Ie as [i Ei], If as [j Ej]. assert (i = j) by eauto. congruence.
Qed.
Lemma edge_sep : forall p q, In p (flat_map ij g) -> In q (flat_map ij g) -> pt_eqb p q = true -> p = q.
Proof. intros p q P Q H. apply (separated_eqb _ (proj1 SG)); auto. Qed.
Lemma edge_ends : forall e x, In e g -> turned x e -> In (si x) (flat_map ij g) /\ In (sj x) (flat_map ij g) /\ si x <> sj x.
Proof.
  intros e x Ie T. destruct (in_ends g e Ie) as [A B]. destruct SG as (_ & NZ & _). pose proof (NZ e Ie) as N.
  destruct T as [-> | ->]; simpl; auto.
Qed.
Lemma edge_eqb : forall e f x y, In e g -> In f g -> turned x e -> turned y f -> seg_eqb x y = true -> e = f /\ x = y.
Proof.
  intros e f x y Ie If Tx Ty H. unfold seg_eqb in H. apply andb_true_iff in H as [H HJ]. apply andb_true_iff in H as [_ HI].
  destruct (edge_ends e x Ie Tx) as (A1 & A2 & A3). destruct (edge_ends f y If Ty) as (B1 & B2 & B3).
  apply edge_sep in HI, HJ; auto.
  assert (e = f).
  { apply same_edge; auto. destruct Tx as [-> | ->], Ty as [-> | ->]; simpl in *; auto. }
  subst f. split; auto. destruct Tx as [-> | ->], Ty as [-> | ->]; simpl in *; auto; congruence.
Qed.

(** the path so far cannot be closed by a segment *)
Lemma path_grows : forall p ps es c q, chain (p :: ps) es -> NoDup (p :: ps) -> (forall e, In e es -> In e g /\ e <> a0) ->
  In c g -> c <> a0 -> joins (q, p) c -> hd_error es <> Some c -> ~ In q (p :: ps).
Proof.
  intros p ps es c q C ND EG Ic NC J HE Iq.
  assert (NPQ : q <> p).
  { intros ->. destruct SG as (_ & NZ & _). apply (NZ c Ic). destruct J as [[A B]|[A B]]; simpl in *; congruence. }
  destruct Iq as [Q|Iq]; [auto|]. apply in_split in Iq as (l1 & l2 & ->).
  change (p :: l1 ++ q :: l2) with ((p :: l1) ++ q :: l2) in C. pose proof (chain_front _ _ _ _ C) as (e1 & e2 & -> & F). cbn [app tl] in F.
  destruct l1 as [|p1 l1].
  - cbn [combine app] in F. inversion F as [|? e ? e1' J1 F1]; subst. cbn [app hd_error] in HE. apply HE. f_equal. apply same_edge; auto.
    + apply (EG e). left. auto.
    + destruct J1 as [[A B]|[A B]], J as [[A' B']|[A' B']]; simpl in *; [right|left|left|right]; split; congruence.
  - set (l := p1 :: l1) in *.
    assert (LP : loop_in g (e1 ++ [c])).
    { exists (p :: l ++ [q]). split; [unfold l; simpl; rewrite app_length; simpl; lia|]. split; [|split].
      - change (p :: l ++ q :: l2) with ((p :: l) ++ q :: l2) in ND. replace ((p :: l) ++ q :: l2) with ((p :: l ++ [q]) ++ l2) in ND by (simpl; rewrite <- app_assoc; reflexivity).
        clear - ND. revert ND. generalize (p :: l ++ [q]). induction l0 as [|x l0 IH]; intros N; [constructor|]. inversion N; subst. constructor; auto. intros X. apply H1, in_app_iff. auto.
      - rewrite cycle_edges_app. apply Forall2_app; auto.
      - intros e E. apply in_app_iff in E as [E|[<-|[]]]; auto. apply (EG e), in_app_iff; auto. }
    apply ALL, in_app_iff in LP as [LP|[LP|[]]]; [|congruence]. apply (EG a0); auto. apply in_app_iff; auto.
Qed.

Definition vok2 (vis : list (seg RA)) : Prop := NoDup vis /\ forall v, In v vis -> exists e, In e g /\ turned v e.
Definition wok2 (akt e : seg RA) (vis : list (seg RA)) (nv : list (welt RA)) : Prop :=
  (forall x, In x nv -> In (w_key x) g /\ turned (w_cur x) (w_key x) /\ (w_key x = a0 -> akt = a0 /\ w_cur x = a0)) /\
  NoDup (map w_id nv) /\ (forall x y, In x nv -> In y nv -> w_key x = w_key y -> x = y) /\
  In e g /\ turned akt e /\ (In akt vis -> forall x, In x nv -> w_key x = e -> w_cur x = akt) /\ vok2 vis.
(** the point reached and the path on which it was reached since a segment was visited for the first time *)
Definition since (akt e : seg RA) (p : pt RA) (ps : list (pt RA)) : Prop :=
  In p (flat_map ij g) /\ exists es, chain (p :: ps) es /\ NoDup (p :: ps) /\ incl (p :: ps) (flat_map ij g) /\ (forall f, In f es -> In f g /\ f <> a0) /\
    (hd_error es = Some e \/ (es = [] /\ e = a0)).

Lemma vok2_length : forall vis, vok2 vis -> (length vis <= 2 * n)%nat.
Proof.
  intros vis [N H]. replace (2 * n)%nat with (length (g ++ map seg_reverse g)) by (rewrite app_length, map_length; unfold n; lia).
  apply NoDup_incl_length; auto. intros v V. destruct (H v V) as (e & Ie & T). apply in_app_iff.
  destruct T as [-> | ->]; [left; auto|right]. apply (in_map seg_reverse). auto.
Qed.
Lemma vok2_add : forall vis akt e, vok2 vis -> In e g -> turned akt e ->
  vok2 (set_add vis akt) /\ In akt (set_add vis akt) /\ (In akt vis -> set_add vis akt = vis) /\ (~ In akt vis -> length (set_add vis akt) = S (length vis)).
Proof.
  intros vis akt e [N H] Ie Ta. unfold set_add. destruct (memb seg_sameb akt vis) eqn:M.
  - apply memb_seg in M. repeat split; auto. intros Q; contradiction.
  - assert (M' : ~ In akt vis) by (intros Q; apply memb_seg in Q; congruence). split; [|split; [|split]].
    + split.
      * apply (Permutation_NoDup (l := akt :: vis)); [apply Permutation_cons_append|constructor; auto].
      * intros v V. apply in_app_iff in V as [V|[<-|[]]]; eauto.
    + apply in_app_iff. right. left. auto.
    + intros Q; contradiction.
    + intros _. rewrite app_length. simpl. lia.
Qed.
Lemma flat_ij_length : length (flat_map ij g) = (2 * n)%nat.
Proof. unfold n. clear. induction g as [|s l IH]; simpl; auto. rewrite IH. lia. Qed.

Lemma forest_ends : forall sch, fair sch -> forall fuel k nv vis akt p e ps br, wok2 akt e vis nv -> since akt e p ps ->
  ((2 * n - length vis) * (2 * n + 1) + (2 * n - length ps) < fuel)%nat -> exists w, walk_loop sch fuel k nv vis akt p br = Ok w /\ w <> Running.
Proof.
  intros sch [F1 F2]. induction fuel as [|fuel IH]; intros k nv vis akt p e ps br W D M; [destruct (Nat.nlt_0_r _ M)|].
  destruct nv as [|w0 nv'] eqn:ENV; cbn [walk_loop]; [exists NoLoop; split; [auto|discriminate]|]. rewrite <- ENV in *. clear ENV w0 nv'.
  destruct (candidates akt p (it_nv sch k nv)) as [|nxt more] eqn:EC; [exists NoLoop; split; [auto|discriminate]|].
  assert (IC : In nxt (candidates akt p (it_nv sch k nv))) by (rewrite EC; left; auto). apply candidates_spec in IC as (IX & HP & NE).
  apply (Permutation_in _ (F1 k nv)) in IX. cbv zeta. set (br' := br || negb (Nat.eqb (length more) 0)). clearbody br'. clear EC more br.
  destruct W as (OK & ND & UQ & Ie & Ta & PV & VO). destruct (vok2_add vis akt e VO Ie Ta) as (VO' & AV & SA & SL).
  set (vis' := set_add vis akt) in *. destruct (OK nxt IX) as (Ic & TX & CZ). set (c := w_key nxt) in *.
  assert (C1 : c <> a0).
  { intros Q. destruct (CZ Q) as [-> Z]. rewrite Z, seg_eqb_refl in NE. discriminate. }
  destruct D as (Ip & es & CH & NP & IP & EG & HE).
  destruct (edge_ends c _ Ic TX) as (X1 & X2 & X3).
  assert (FI : exists q, filter (fun x => negb (pt_eqb x p)) (ij (w_cur nxt)) = [q] /\ In q (flat_map ij g) /\ joins (q, p) c).
  { assert (PQ : forall x, In x (flat_map ij g) -> x <> p -> pt_eqb x p = false) by (intros x X Y; apply not_true_iff_false; intros Z; apply Y, edge_sep; auto).
    assert (J : joins (si (w_cur nxt), sj (w_cur nxt)) c) by (destruct TX as [-> | ->]; [left|right]; simpl; auto).
    unfold ij. cbn [filter]. destruct HP as [HP|HP]; apply edge_sep in HP; auto; subst p.
    - rewrite pt_eqb_refl, PQ by auto. exists (sj (w_cur nxt)). cbn [negb]. split; auto. split; auto. destruct J as [[A B]|[A B]]; [right|left]; simpl in *; auto.
    - rewrite pt_eqb_refl, PQ by auto. exists (si (w_cur nxt)). cbn [negb]. split; auto. }
  destruct FI as (q & -> & Iq & Jq).
  set (ls := it_segs sch k (walk_segs vis' (w_cur nxt))).
  assert (PL : Permutation ls (walk_segs vis' (w_cur nxt))) by apply F2.
  assert (LN : map fst ls <> [] /\ (length (map fst ls) < 250)%nat).
  { assert (VN : vok2 (if memb seg_sameb (w_cur nxt) vis' then vis' else vis' ++ [w_cur nxt])).
    { destruct (vok2_add vis' (w_cur nxt) c VO' Ic TX) as (Q & _). exact Q. }
    apply vok2_length in VN. unfold n in VN. rewrite map_length, (Permutation_length PL). unfold walk_segs. rewrite app_length, map_length.
    split.
    - intros Z. apply map_eq_nil in Z. rewrite Z in PL. apply Permutation_nil in PL. unfold walk_segs in PL. destruct vis'; [destruct AV|discriminate].
    - destruct (memb seg_sameb (w_cur nxt) vis'); rewrite ?app_length in VN; simpl in *; lia. }
  destruct (order_ok (map fst ls) (proj1 LN) (proj2 LN)) as (ok & poly & -> & NPo). cbn [bind].
  destruct (isclosed_ok poly NPo) as (cl & EQ). replace (if ok then isclosed poly else Ok false) with (Ok (if ok then cl else false)) by (rewrite EQ; destruct ok; reflexivity). cbn [bind].
  destruct (ok && (if ok then cl else false) && negb br'); [eexists; split; [reflexivity|discriminate]|].
  set (cur' := marked ls (order_objs (map fst ls)) (w_cur nxt)).
  assert (TC : turned cur' c /\ (In (w_cur nxt) vis' -> cur' = w_cur nxt)).
  { unfold walk_segs in PL. destruct (memb seg_sameb (w_cur nxt) vis') eqn:MB.
    - assert (Q : cur' = w_cur nxt).
      { apply marked_none. intros x X. apply (Permutation_in _ PL) in X. rewrite app_nil_r in X. apply in_map_iff in X as (y & Y & _). discriminate. }
      rewrite Q. auto.
    - split; [|intros Q; apply memb_seg in Q; congruence].
      pose proof (order_objs_turned (map fst ls)) as OT.
      destruct (marked_at ls (order_objs (map fst ls)) vis' (w_cur nxt) (w_cur nxt)) as (m & Q1 & Q2); [rewrite (Forall2_len _ _ _ _ _ OT), map_length; reflexivity|exact PL|].
      fold cur' in Q2. destruct (Forall2_nth_l _ _ _ _ _ OT m _ Q2) as (t & Et & TT). rewrite (map_nth_error fst m ls Q1) in Et. injection Et as <-. cbn [fst] in TT.
      destruct TT as [-> | ->]; auto. apply turned_rev. auto. }
  destruct TC as [TC TS]. clearbody cur'.
  assert (NQP : q <> p) by (intros ->; destruct SG as (_ & NZ & _); apply (NZ c Ic); destruct Jq as [[A B]|[A B]]; simpl in *; congruence).
  assert (WN : wok2 (w_cur nxt) c vis' (map (fun x => if Nat.eqb (w_id x) (w_id nxt) then mkw (w_id x) (w_key x) cur' else x) (discard akt nv))).
  { set (up := fun x : welt RA => if Nat.eqb (w_id x) (w_id nxt) then mkw (w_id x) (w_key x) cur' else x).
    assert (UI : forall x, w_id (up x) = w_id x) by (intros x; unfold up; destruct (Nat.eqb _ _); reflexivity).
    assert (UK : forall x, w_key (up x) = w_key x) by (intros x; unfold up; destruct (Nat.eqb _ _); reflexivity).
    assert (DI : forall x, In x (discard akt nv) -> In x nv /\ same_hash (w_key x) akt && seg_eqb (w_cur x) akt = false).
    { intros x X. apply filter_In in X as [X Y]. apply negb_true_iff in Y. auto. }
    split; [|split; [|split; [|split; [|split; [|split]]]]]; auto.
    + intros y Y. apply in_map_iff in Y as (x & <- & X). rewrite UK. apply DI in X as [X XD]. destruct (OK x X) as (Ks & Ts & Zs). split; auto. split.
      * unfold up. destruct (Nat.eqb_spec (w_id x) (w_id nxt)) as [EI|_]; auto. cbn [w_cur].
        assert (x = nxt) by (eapply ids_inj; eauto). subst x. exact TC.
      * intros Q. exfalso. destruct (Zs Q) as [-> Z]. rewrite Z, Q, seg_eqb_refl in XD. unfold same_hash in XD. rewrite !(proj2 (pt_sameb_iff _ _) eq_refl) in XD. discriminate.
    + rewrite map_map, (map_ext _ _ UI). apply ids_filter. exact ND.
    + intros y1 y2 Y1 Y2. apply in_map_iff in Y1 as (x1 & <- & Y1), Y2 as (x2 & <- & Y2). rewrite !UK. intros H. apply DI in Y1 as [Y1 _], Y2 as [Y2 _]. f_equal. auto.
    + intros V y Y. apply in_map_iff in Y as (x & <- & X). rewrite UK. apply DI in X as [X _]. intros Kx.
      assert (x = nxt) by (apply UQ; auto). subst x. unfold up. rewrite Nat.eqb_refl. cbn [w_cur]. auto. }
  destruct (classic (In akt vis)) as [IA|IA].
  - assert (CA : c <> e).
    { intros Q. rewrite (PV IA nxt IX Q), seg_eqb_refl in NE. discriminate. }
    assert (GR : ~ In q (p :: ps)).
    { apply (path_grows p ps es c q); auto. destruct HE as [HE|[-> _]]; [rewrite HE; congruence|discriminate]. }
    apply (IH (S k) _ vis' (w_cur nxt) q c (p :: ps) br'); auto.
    + split; auto. exists (c :: es). cbn [chain hd_error]. repeat split; auto.
      * constructor; auto.
      * intros x [<-|X]; auto.
      * destruct H as [<-|H]; auto. apply EG; auto.
      * destruct H as [<-|H]; auto. apply EG; auto.
    + rewrite (SA IA). assert (L : (length (p :: ps) <= 2 * n)%nat) by (rewrite <- flat_ij_length; apply NoDup_incl_length; auto).
      cbn [length] in *. revert M L. generalize ((2 * n - length vis) * (2 * n + 1))%nat. lia.
  - apply (IH (S k) _ vis' (w_cur nxt) q c [p] br'); auto.
    + split; auto. exists [c]. cbn [chain hd_error]. repeat split; auto.
      * constructor; [intros [Q|[]]; congruence|constructor; [intros []|constructor]].
      * intros x [<-|[<-|[]]]; auto.
      * destruct H as [<-|[]]; auto.
      * destruct H as [<-|[]]; auto.
    + pose proof (vok2_length vis' VO') as VL. rewrite (SL IA) in *. cbn [length].
      assert (P1 : (length ps <= 2 * n)%nat) by (rewrite <- flat_ij_length; apply NoDup_incl_length; [inversion NP; auto|intros x X; apply IP; right; auto]).
      clear - M VL P1. revert M. replace (2 * n - length vis)%nat with (S (2 * n - S (length vis)))%nat by lia. generalize (2 * n - S (length vis))%nat. intros m M. nia.
Qed.
End Forest.

(*@ C97_ends *)
(** C97: walking along the segments of a graph (up to 124, no two between the same points) ends, and raises
    nothing, whatever the order of the sets, if every loop of the graph passes through every segment that
    begins where the first one begins; in particular if there is no loop at all. *)
Lemma graph_walk_ends : forall (sch : sched RA) wf (s0 : seg RA) rest, let g := s0 :: rest in fair sch -> simple_graph g -> (length g < 125)%nat ->
  (forall a l, In a g -> si a = si s0 -> loop_in g l -> In a l) ->
  ((2 * length g + 1) * (2 * length g + 1) <= wf)%nat -> exists w, walk_segments sch wf g None = Ok w /\ w <> Running.
Proof.
  intros sch wf s0 rest g F SG LB ALL LW. pose proof SG as (SEP & NZ & SI).
  unfold walk_segments, g at 1. cbn [get nth_error bind]. set (it := it_nv sch 0 (nv_init g)) in *.
  assert (PI : Permutation it (nv_init g)) by apply F.
  destruct (nv_facts g) as (NI1 & NI2 & NI3).
  assert (I0 : In s0 g) by (left; auto).
  destruct (filter (fun x => pt_eqb (si s0) (si (w_cur x))) it) as [|akt more] eqn:EF.
  { exfalso. assert (J : In s0 (map w_cur (nv_init g))) by (rewrite NI1; apply (proj2 (dedup_In _ _ seg_sameb_iff _ _)); auto).
    apply in_map_iff in J as (x & Ex & Ix). apply (Permutation_in _ (Permutation_sym PI)) in Ix.
    assert (K : In x (filter (fun x => pt_eqb (si s0) (si (w_cur x))) it)) by (apply filter_In; split; auto; rewrite Ex; apply pt_eqb_refl). rewrite EF in K. destruct K. }
  assert (K : In akt (akt :: more)) by (left; auto). rewrite <- EF in K. apply filter_In in K as [K1 K2].
  assert (IN : In akt (nv_init g)) by (apply (Permutation_in _ PI); auto).
  assert (IA : In (w_cur akt) g) by (apply nv_init_in; auto). set (a0 := w_cur akt) in *.
  apply (separated_eqb _ SEP) in K2; try apply in_ends; auto.
  assert (NG : NoDup g).
  { apply NoDup_nth_error. intros i j Li Eij. destruct (nth_error g i) as [s|] eqn:Ei; [|apply nth_error_None in Ei; lia]. apply (SI i j s s); auto. }
  assert (PD : Permutation (map w_cur (nv_init g)) g) by (rewrite NI1; apply dedup_perm; auto).
  assert (UQ : forall x y, In x (nv_init g) -> In y (nv_init g) -> w_key x = w_key y -> x = y).
  { intros x y Ix Iy H. rewrite (NI2 x Ix), (NI2 y Iy) in H.
    assert (NW : NoDup (map w_cur (nv_init g))) by (apply (Permutation_NoDup (Permutation_sym PD)); auto).
    destruct (In_nth_error _ _ Ix) as [a Ka]. destruct (In_nth_error _ _ Iy) as [b Kb].
    assert (a = b); [|congruence]. apply (proj1 (NoDup_nth_error _) NW).
    - rewrite map_length. apply nth_error_Some. congruence.
    - rewrite !nth_error_map, Ka, Kb. simpl. congruence. }
  apply (forest_ends g a0 SG LB (fun l => ALL a0 l IA (eq_sym K2)) sch F wf 1 (nv_init g) [a0] a0 (si s0) a0 []).
  - split; [|split; [exact NI3|split; [exact UQ|split; [auto|split; [left; auto|split]]]]].
    + intros x Ix. pose proof (nv_init_in RA g x Ix) as J. rewrite (NI2 x Ix). split; auto. split; [left; auto|]. auto.
    + intros _ x Ix Kx. rewrite <- (NI2 x Ix). exact Kx.
    + split; [constructor; [intros []|constructor]|]. intros v [<-|[]]. exists a0. split; auto. left; auto.
  - split; [apply (in_ends g s0 I0)|]. exists []. split; [exact I|]. split; [constructor; [intros []|constructor]|].
    split; [intros x [<-|[]]; apply (in_ends g s0 I0)|]. split; [intros f []|]. right. auto.
  - cbn [length Nat.sub]. fold (length g). clear - LW. simpl length in *. nia.
Qed.

(*@ C97_no_loop *)
(** C97: without loops it always ends. *)
Lemma forest_walk_ends : forall (sch : sched RA) wf (g : list (seg RA)), fair sch -> simple_graph g -> (length g < 125)%nat -> g <> [] ->
  (forall l, ~ loop_in g l) -> ((2 * length g + 1) * (2 * length g + 1) <= wf)%nat -> exists w, walk_segments sch wf g None = Ok w /\ w <> Running.
Proof.
  intros sch wf [|s0 rest] F SG LB NE NL LW; [congruence|]. apply graph_walk_ends; auto. intros a l _ _ L. destruct (NL l L).
Qed.
(*@ C97_whole *)
(** C97: the same for the running program when the coordinates are whole numbers up to 2000. *)
Lemma graph_walk_ends_whole : forall L (sch : sched (FA L)) wf (g : list (seg (FA L))) (s0 : seg RA) rest, let g' := s0 :: rest in
  fair sch -> exact_segs g g' -> Forall whole_seg g' -> simple_graph g' -> (length g' < 125)%nat ->
  (forall a l, In a g' -> si a = si s0 -> loop_in g' l -> In a l) ->
  ((2 * length g' + 1) * (2 * length g' + 1) <= wf)%nat -> exists w, walk_segments sch wf g None = Ok w /\ w <> Running.
Proof.
  intros L sch wf g s0 rest g' F E W SG LB ALL LW. destruct (PWholeLoops.walk_whole L sch wf g g' F E W) as (sch' & F' & Q).
  destruct (graph_walk_ends sch' wf s0 rest F' SG LB ALL LW) as (w' & EW & NR). fold g' in EW. rewrite EW in Q.
  destruct (walk_segments sch wf g None) as [w|e]; [|contradiction]. exists w. split; auto. intros ->. destruct w'; simpl in Q; try contradiction; try congruence.
Qed.
(*@ex C97_example *)
(** C97: a triangle with a tail, in which the first segment belongs to the triangle, meets the hypotheses:
    walking along it ends (compare C97_endless_refuted, where the first segment belongs to the tail). *)
Lemma ends_example : forall (sch : sched RA), fair sch ->
  exists w, walk_segments sch 81 [zseg 0 0 4 0; zseg 4 0 2 3; zseg 2 3 0 0; zseg 2 3 2 9] None = Ok w /\ w <> Running.
Proof.
  intros sch F. set (g := [zseg 0 0 4 0; zseg 4 0 2 3; zseg 2 3 0 0; zseg 2 3 2 9]).
  assert (SG : simple_graph g) by (apply (zseg_simple [(0,0,4,0); (4,0,2,3); (2,3,0,0); (2,3,2,9)]%Z); reflexivity).
  apply (graph_walk_ends sch 81 (zseg 0 0 4 0) (tl g)); auto; try (simpl; lia).
  intros a l Ia Sa Ll. change (zseg 0 0 4 0 :: tl g) with g in *.
  assert (a = zseg 0 0 4 0).
  { destruct Ia as [<-|[<-|[<-|[<-|[]]]]]; auto; unfold zseg in Sa; simpl in Sa; injection Sa; intros; lra. }
  subst a. destruct (loop_ids g l Ll) as (c & us & Ic & C & <-).
  assert (HV : forall k, hits g k (@mkpt RA (IZR 2) (IZR 9)) -> k = 3%nat).
  { intros k (s & Es & Is). destruct k as [|[|[|[|k]]]]; simpl in Es; try (injection Es as <-); auto;
    try (destruct Is as [E|[E|[]]]; injection E; intros; lra). destruct k; discriminate. }
  assert (N3 : ~ In 3%nat c).
  { intros I3. assert (HP : hits g 3 (@mkpt RA (IZR 2) (IZR 9))) by (exists (zseg 2 3 2 9); split; [reflexivity|right; left; reflexivity]).
    pose proof (cyc_vertex g us c 3%nat _ C I3 HP) as Iv. destruct (cyc_two g us c _ C Iv) as (a & b & NE & _ & _ & Ha & Hb). apply HV in Ha, Hb. congruence. }
  assert (P : Permutation c [0%nat; 1%nat; 2%nat]).
  { apply NoDup_Permutation_bis.
    - destruct C as (_ & _ & X & _); exact X.
    - pose proof (cyc_length _ _ _ C) as Q. destruct C as (X & _). simpl. lia.
    - intros k K. pose proof (Ic k K) as B. apply in_seq in B. simpl in B. destruct k as [|[|[|[|k]]]]; simpl; auto; try contradiction; try lia. }
  apply in_value_iff. exists 0%nat. split; [apply (Permutation_in _ (Permutation_sym P)); left; auto|reflexivity].
Qed.
