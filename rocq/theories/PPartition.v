(** What raum_intex reports for a head that divides a vessel. *)
From Coq Require Import String Reals ZArith Lra Lia Bool List Psatz Permutation Arith.
From Verif Require Import Base Arith ArithR ArithF MPoint MLine MPoly MHeap MVessel MContain MIntex MRaum
  Spec SpecGroup SpecLoops SpecRing SpecHeap SpecIntex SpecStack SpecSides SpecPartition PPoint PLine PConvex PStack.
From Verif Require PIntex PHeap PVessel PRaum PSides PPlate PStories SpecStories SpecInside.
Import SpecInside(right_of_row, even_odd, polygon_of).
Import ListNotations.
Local Open Scope list_scope.
Local Open Scope R_scope.
#[local] Existing Instance RA.

(** ** The probe points of a head *)
Definition near_head (u : level) (x0 s : R) (p : pt RA) : Prop := Rabs (px p - x0) < snd u / 2 /\ s * (py p - fst u) < Rmax (1 / 10) (snd u / 1000).
Lemma under_near : forall u x0 (up : bool) p, 0 < snd u -> under_roof (fst u) x0 (snd u) (sg up) (Rmax (1 / 10) (snd u / 1000)) p -> near_head u x0 (sg up) p.
Proof.
  intros u x0 up p D [H1 H2]. unfold near_head. set (hg := Rmax (1 / 10) (snd u / 1000)) in *. assert (G : 1 / 10 <= hg) by apply Rmax_l. clearbody hg.
  set (t := Rabs (px p - x0) / (snd u / 2)) in *. assert (E : Rabs (px p - x0) = t * (snd u / 2)) by (unfold t; field; lra).
  assert (T0 : 0 <= t) by (unfold t; apply Rmult_le_pos; [apply Rabs_pos|left; apply Rinv_0_lt_compat; lra]). rewrite E. clearbody t. clear E.
  assert (T1 : t < 1) by (destruct (Rlt_le_dec t 1); auto; assert (0 <= hg * (t - 1)) by (apply Rmult_le_pos; lra); lra). split.
  - assert (0 < (1 - t) * (snd u / 2)) by (apply Rmult_lt_0_compat; lra). lra.
  - assert (0 <= hg * t) by (apply Rmult_le_pos; lra). lra.
Qed.
Lemma head_rows_near : forall (u : level) x0 (up : bool) g d, 1 / 10^4 <= snd u -> head_intex (A := RA) (fst u) x0 (snd u) (sg up) g = Ok d ->
  forall s r p, In (s, r) d -> In p (pr_external r) -> near_head u x0 (sg up) p.
Proof.
  intros u x0 up g. unfold head_intex. induction g as [|w g IH]; intros d D E s r p I P; cbn [mapM] in E; [injection E as <-; destruct I|].
  destruct (head_row (A := RA) (fst u) x0 (snd u) (sg up) w) as [row|] eqn:ER; [|discriminate E]. cbn [bind] in E.
  destruct (mapM (head_row (A := RA) (fst u) x0 (snd u) (sg up)) g) as [ds|] eqn:ED; [|discriminate E]. cbn [bind] in E. injection E as <-.
  destruct I as [->|I]; [|eapply IH; eauto]. unfold head_row in ER.
  match type of ER with bind ?e _ = _ => set (vo := e) in * end.
  assert (VO : exists v, vo = Ok v /\ (v = 1 \/ v = -1) \/ exists x, vo = Err x).
  { unfold vo. destruct (_ <? x0)%num; [exists (-1); left; split; auto; f_equal; ra; ring|]. destruct (x0 <? _)%num; [exists 1; left; split; auto|exists 0; right; eexists; reflexivity]. }
  destruct VO as (v & [[EV V]|(x & EV)]); rewrite EV in ER; cbn [bind] in ER; [|discriminate ER]. injection ER as <- <-. cbn [pr_external] in P. destruct P as [<-|[]].
  assert (HG : h_graph (A := RA) (snd u) = Rmax (1 / 10) (snd u / 1000)) by (unfold h_graph; rewrite nmax_R; reflexivity). rewrite HG.
  unfold near_head, Point_new. cbn [px py]. change (@nround8 RA) with Rround8. change (@nadd RA) with Rplus. change (@nmul RA) with Rmult.
  change (@ndec RA 25 100) with (25 / 100)%R. change (@ndec RA 55 100) with (55 / 100)%R.
  set (hg := Rmax (1 / 10) (snd u / 1000)). assert (G : 1 / 10 <= hg) by apply Rmax_l. clearbody hg.
  pose proof (Rround8_err (x0 + v * (25 / 100) * snd u)) as E1. pose proof (Rround8_err (fst u + sg up * (55 / 100) * hg)) as E2. apply PIntex.Rabs_le' in E1. apply PIntex.Rabs_le' in E2. split.
  - apply Rabs_def1; destruct V as [-> | ->]; lra.
  - destruct up; unfold sg in *; lra.
Qed.
Lemma head_points : forall x0 inside (up : bool) (u : level), decimal8 x0 -> decimal8 (fst u) -> decimal8 (snd u / 2) -> 1 / 10^4 <= snd u ->
  let hg := Rmax (1 / 10) (snd u / 1000) in
  exists r, graph_of x0 inside (End Dome up u) = Ok r /\ ip_segs r <> [] /\ ip_ind r = [] /\ ip_int r <> [] /\ ip_ext r <> [] /\
    (forall p s, In (p, s) (ip_int r) -> under_roof (fst u) x0 (snd u) (sg up) hg p /\ near_head u x0 (sg up) p) /\
    (forall p s, In (p, s) (ip_ext r) -> over_roof (fst u) x0 (snd u) (sg up) hg p /\ near_head u x0 (sg up) p) /\
    (forall s, In s (ip_segs r) -> (exists p, In (p, s) (ip_int r)) /\ exists p, In (p, s) (ip_ext r)).
Proof.
  intros x0 inside up u D0 D1 D2 D hg.
  destruct (PIntex.head_probes (fst u) x0 (snd u) (sg up) D0 D) as (lf & rt & E & H); [destruct up; auto|].
  assert (GR : head_graph (A := RA) (fst u) x0 (snd u) (sg up) = closed_by x0 Dome up u) by (destruct up; reflexivity).
  rewrite GR in E. destruct (PSides.dome_apex x0 up u D0 D1 D2) as (hh & EQ & AB). set (T := @mkpt RA x0 (fst u + sg up * hh)) in *.
  set (s := Wall (corner x0 false u) T) in *. set (t := Wall T (corner x0 true u)) in *.
  assert (ST : seg_sameb t s = false).
  { unfold seg_sameb, pt_sameb. ra. unfold s, t, T. cbn [Wall si sj sc px corner]. replace (Reqb x0 (x0 + sg false * (snd u / 2))) with false; [rewrite andb_false_r; reflexivity|].
    symmetry. apply Reqb_false. unfold sg. lra. }
  destruct (H lf (-1)) as (L1 & L2 & L3 & _ & L5 & L6 & L7); auto. destruct (H rt 1) as (R1 & R2 & R3 & _ & R5 & R6 & R7); auto.
  apply Forall_app in L7 as [L7 L8]. apply Forall_app in R7 as [R7 R8].
  assert (NEAR : forall r p, r = lf \/ r = rt -> In p (pr_external r) -> near_head u x0 (sg up) p).
  { intros r p Q P. destruct (closed_by x0 Dome up u) as [|w1 [|w2 [|? ?]]] eqn:EC; try discriminate EQ.
    destruct Q as [-> | ->]; [apply (head_rows_near u x0 up _ _ D E w1 lf p)|apply (head_rows_near u x0 up _ _ D E w2 rt p)]; auto; [left|right; left]; reflexivity. }
  eexists. split.
  - unfold graph_of. apply (PSides.renew_const _ (combine [s; t] [lf; rt]) _ [lf; rt]).
    + intros k. change (head_intex (A := RA) (fst u) x0 (snd u) (sg up) (closed_by x0 Dome up u) = Ok (combine [s; t] [lf; rt])). rewrite E, EQ. reflexivity.
    + cbn [walls_of]. rewrite EQ. fold s t. constructor; [|constructor; [|constructor]]; cbn [combine row_of]; rewrite ?PSides.same_refl, ?ST; auto.
  - assert (RD : forall (ps : list (pt RA)) (w : seg RA) p s', Forall stored ps -> In (p, s') (map (fun p : pt RA => (Point_new (A := RA) (px p) (py p), w)) ps) -> In p ps /\ s' = w).
    { intros ps w p s' FS I. apply in_map_iff in I as (q & I & IQ). injection I as <- <-. rewrite Forall_forall in FS. rewrite PSides.stored_new; auto. }
    cbn [walls_of]. rewrite EQ. fold s t. cbn [combine flat_map]. rewrite !app_nil_r. rewrite L3, R3. cbn [map app ip_segs ip_int ip_ext ip_ind].
    rewrite Forall_forall in L5, L6, R5, R6.
    split; [discriminate|]. split; [reflexivity|]. split; [destruct (pr_internal lf); [discriminate L1|discriminate]|]. split; [destruct (pr_external lf); [discriminate L2|discriminate]|].
    split; [|split].
    + intros p w I. assert (U : under_roof (fst u) x0 (snd u) (sg up) hg p) by (apply in_app_iff in I as [I|I]; apply RD in I as [I _]; auto). split; auto. apply under_near; auto. lra.
    + intros p w I. apply in_app_iff in I as [I|I]; apply RD in I as [I _]; auto; split; eauto.
    + intros w [<-|[<-|[]]].
      * destruct (pr_internal lf) as [|p ps]; [discriminate L1|]. destruct (pr_external lf) as [|q qs]; [discriminate L2|]. split; eexists; left; reflexivity.
      * destruct (pr_internal rt) as [|p ps]; [discriminate R1|]. destruct (pr_external rt) as [|q qs]; [discriminate R2|]. split; eexists; apply in_app_iff; right; left; reflexivity.
Qed.

(** ** The room into which the head bulges *)
Lemma in_trap : forall X Y w0 w1 h p, Rabs (px p - X) < w0 -> Rabs (px p - X) < w1 -> 0 < py p - Y < h -> strictly_in (PIntex.trap X Y w0 w1 h) p.
Proof.
  intros X Y w0 w1 h [x y] H0 H1 HY. cbn [px py] in *. apply Rabs_def2 in H0. apply Rabs_def2 in H1.
  unfold strictly_in, PIntex.trap. intros s I. unfold orient. cbn [In] in I.
  assert (K1 : 0 < (w1 - (x - X)) * (y - Y) + (w0 - (x - X)) * (h - (y - Y))) by (apply Rplus_lt_0_compat; apply Rmult_lt_0_compat; lra).
  assert (K3 : 0 < (w1 + (x - X)) * (y - Y) + (w0 + (x - X)) * (h - (y - Y))) by (apply Rplus_lt_0_compat; apply Rmult_lt_0_compat; lra).
  assert (K2 : 0 < 2 * (w1 * (h - (y - Y)))) by (apply Rmult_lt_0_compat; [lra|]; apply Rmult_lt_0_compat; lra).
  assert (K4 : 0 < 2 * (w0 * (y - Y))) by (apply Rmult_lt_0_compat; [lra|]; apply Rmult_lt_0_compat; lra).
  destruct I as [<-|[<-|[<-|[<-|[]]]]]; unfold Wall, NonWall; cbn [si sj px py]; ra_simpl; lra.
Qed.
Lemma bulge_rest : forall x0 (up e : bool) u (rest gf : list (seg RA)) p, decimal8 x0 -> decimal8 (fst u) -> decimal8 (snd u / 2) -> 0 < snd u ->
  Permutation gf (closed_by x0 Flat e u ++ rest) -> PSides.says gf p true -> py p <> fst u ->
  let hg := Rmax (1 / 10) (snd u / 1000) in let q := PSides.says (closed_by x0 Dome up u ++ rest) in
  (under_roof (fst u) x0 (snd u) (sg up) hg p -> q p false) /\ (over_roof (fst u) x0 (snd u) (sg up) hg p -> q p true).
Proof.
  intros x0 up e u rest gf p D0 D1 D2 D PF [O N] NE hg q.
  assert (OR : off_walls rest p) by (intros s I; apply O; apply (Permutation_in _ (Permutation_sym PF)); apply in_app_iff; auto).
  assert (NR : Nat.odd (PSides.hits p rest) = true).
  { rewrite (PSides.hits_perm p _ _ PF), PSides.hits_app, PSides.flat_far in N by auto. exact N. }
  split; intros H; (split; [apply PSides.off_app; split; auto; apply PSides.off_dome; auto|]); rewrite PSides.hits_app, Nat.odd_add, NR.
  - rewrite PSides.dome_in by auto. reflexivity.
  - rewrite PSides.dome_out by auto. reflexivity.
Qed.
Lemma bulge_points : forall x0 bot top (up : bool) a l1 l2 p, let m := last l1 a in
  measured x0 (a :: l1 ++ l2) -> rising a (l1 ++ l2) -> l1 <> [] -> l2 <> [] -> bulge_space up a l1 l2 ->
  near_head m x0 (sg up) p -> 0 < sg up * (py p - fst m) ->
  let hg := Rmax (1 / 10) (snd m / 1000) in let q := PSides.says (bulge_side x0 bot top up a l1 l2) in
  (under_roof (fst m) x0 (snd m) (sg up) hg p -> q p false) /\ (over_roof (fst m) x0 (snd m) (sg up) hg p -> q p true).
Proof.
  intros x0 bot top up a l1 l2 p m M RI N1 N2 BS [NH1 NH2] PY hg q.
  destruct (PPlate.rising_app _ _ _ RI) as [RI1 RI2]. fold m in RI2. assert (Im : In m (a :: l1)) by apply last_in.
  destruct M as [D0 MM]. assert (M1 : measured x0 (a :: l1)) by (split; auto; intros u U; apply MM; cbn [In] in *; rewrite in_app_iff; tauto).
  assert (M2 : measured x0 (m :: l2)).
  { split; auto. intros u U. apply MM. cbn [In] in *. rewrite in_app_iff. destruct U as [<-|U]; tauto. }
  destruct (proj2 M1 m Im) as (B1 & B2 & B3).
  unfold q, bulge_side. fold m. unfold bulge_space in BS. fold m in BS. destruct up; unfold sg in *.
  - destruct BS as (v & l' & E & S1 & S2). assert (V : In v (m :: l2)) by (rewrite E; right; left; auto). destruct (proj2 M2 v V) as (_ & _ & V3).
    assert (L : fst m < fst v) by (rewrite E in RI2; destruct RI2 as [X _]; lra). rewrite Rabs_pos_eq in S1 by lra.
    apply (bulge_rest x0 true false m _ (concat (standing_parts x0 Flat top m l2))); auto; [lra| |intros E2; rewrite E2 in PY; lra].
    apply (PSides.says_in x0 Flat top m l2 _ M2 RI2 (Permutation_refl _) m v); auto; try lra; [rewrite E; left; auto|].
    apply in_trap; lra.
  - destruct BS as (v & l' & E & S1 & S2). assert (V : In v (a :: l1)) by (rewrite E; apply in_app_iff; right; left; auto). destruct (proj2 M1 v V) as (_ & _ & V3).
    assert (PR : In (v, m) (pairs (a :: l1))).
    { rewrite E. clear. induction l' as [|x l' IH]; [left; auto|]. destruct l' as [|y l']; [right; exact IH|]. right. exact IH. }
    assert (L : fst v < fst m).
    { clear - RI1 PR. clearbody m. revert a RI1 PR. induction l1 as [|b l IH]; intros a RI1 PR; [destruct PR|]. destruct RI1 as [X Y]. change (In (v, m) ((a, b) :: pairs (b :: l))) in PR. destruct PR as [Q|PR]; [injection Q as <- <-; lra|]. eapply IH; eauto. }
    rewrite Rabs_left in S1 by lra.
    apply (bulge_rest x0 false true m _ (concat (standing_parts x0 bot Flat a l1))); auto; [lra| | |intros E2; rewrite E2 in PY; lra].
    + unfold standing_parts. cbn [concat]. fold m. rewrite !app_assoc. apply Permutation_app_tail. apply Permutation_app_comm.
    + apply (PSides.says_in x0 bot Flat a l1 _ M1 RI1 (Permutation_refl _) v m); auto; try lra. apply in_trap; lra.
Qed.
Lemma hollow_points : forall x0 bot top (up : bool) a l1 l2 p, let m := last l1 a in
  measured x0 (a :: l1 ++ l2) -> rising a (l1 ++ l2) -> l1 <> [] -> l2 <> [] ->
  let hg := Rmax (1 / 10) (snd m / 1000) in let q := PSides.says (hollow_side x0 bot top up a l1 l2) in
  (under_roof (fst m) x0 (snd m) (sg up) hg p -> q p true) /\ (over_roof (fst m) x0 (snd m) (sg up) hg p -> q p false).
Proof.
  intros x0 bot top up a l1 l2 p m M RI N1 N2 hg q.
  destruct (PPlate.rising_app _ _ _ RI) as [RI1 RI2]. fold m in RI2. assert (Im : In m (a :: l1)) by apply last_in.
  destruct M as [D0 MM]. assert (M1 : measured x0 (a :: l1)) by (split; auto; intros u U; apply MM; cbn [In] in *; rewrite in_app_iff; tauto).
  assert (M2 : measured x0 (m :: l2)).
  { split; auto. intros u U. apply MM. cbn [In] in *. rewrite in_app_iff. destruct U as [<-|U]; tauto. }
  unfold q, hollow_side. fold m. destruct up.
  - exact (PSides.says_end x0 bot Dome a l1 _ M1 RI1 N1 (Permutation_refl _) true p).
  - exact (PSides.says_end x0 Dome top m l2 _ M2 RI2 N2 (Permutation_refl _) false p).
Qed.

(** ** raum_intex *)
Section Head.
Context (q : pt RA -> bool -> Prop) (inside : nat -> iroom RA -> pt RA -> res bool) (ro : iroom RA) (turn : seg RA -> seg RA).
Context (ANS : forall n p, exists b, inside n ro p = Ok b /\ forall c, q p c -> b = c).
Lemma category_all : forall b ips segs n, (forall p s, In (p, s) ips -> q p b) -> (forall s, In s segs -> exists p, In (p, s) ips) -> segs <> [] -> ips <> [] ->
  exists m, category inside true n ro (map (fun '(p, s) => MRaum.mkip p (turn s)) ips) (map turn segs) = Ok (m, b).
Proof.
  intros b ips segs n H1 H2 NS NI. unfold category.
  assert (NI' : map (fun '(p, s) => MRaum.mkip p (turn s)) ips <> []) by (destruct ips; [congruence|discriminate]).
  assert (EQ : forall (ps : list (intex_point RA)) y, ps <> [] -> match ps with [] => Ok (n, false) | _ :: _ => y end = y) by (intros [|? ?] y Q; [congruence|reflexivity]).
  rewrite EQ by auto.
  destruct (PSides.some_spec q (fun n _ p => inside n ro p) ltac:(intros; apply ANS) true (map (fun '(p, s) => MRaum.mkip p (turn s)) ips) (map turn segs) n ro) as (m & c & E & K1 & K2 & _).
  rewrite PStories.some_here in E. exists m. rewrite E. f_equal. f_equal. destruct b.
  - apply K1; auto.
    + destruct segs as [|s ?]; [congruence|]. exists (turn s). left. auto.
    + intros x X. apply in_map_iff in X as ([p s] & <- & X). cbn. eauto.
  - apply K2; auto. intros s' S'. apply in_map_iff in S' as (s & <- & I). destruct (H2 s I) as (p & P). exists (MRaum.mkip p (turn s)). split; [split|].
    + apply (in_map (fun '(p, s) => MRaum.mkip p (turn s))) in P. exact P.
    + apply PSides.eqb_refl.
    + cbn. eauto.
Qed.
End Head.

Lemma lookup_update : forall (k j : string) (f : intex -> intex) t x, lookup String.eqb k t = Ok x ->
  lookup String.eqb k (map (fun '(i, y) => if String.eqb i j then (i, f y) else (i, y)) t) = Ok (if String.eqb k j then f x else x).
Proof.
  intros k j f t x. induction t as [|[i y] t IH]; [discriminate|]. cbn [lookup map]. destruct (String.eqb_spec i k) as [->|N].
  - intros [= <-]. destruct (String.eqb k j); cbn [lookup]; rewrite String.eqb_refl; reflexivity.
  - intros E. destruct (String.eqb i j); cbn [lookup]; (destruct (String.eqb_spec i k); [congruence|auto]).
Qed.
Lemma probe_other : forall inside ro n t (ht : part RA) st k x, probe inside ro (n, t) ht = Ok st -> p_name ht <> k -> lookup String.eqb k t = Ok x -> lookup String.eqb k (snd st) = Ok x.
Proof.
  intros inside ro n t ht st k x E N L. unfold probe in E. destruct (category _ _ _ _ _ _) as [[n1 i]|]; [|discriminate E]. cbn [bind] in E.
  destruct (category _ _ _ _ _ _) as [[n2 e]|]; [|discriminate E]. cbn [bind] in E. destruct (category _ _ _ _ _ _) as [[n3 d]|]; [|discriminate E]. cbn [bind] in E.
  match type of E with bind ?z _ = _ => destruct z; [|discriminate E] end. cbn [bind] in E. injection E as <-. cbn [snd].
  rewrite (lookup_update k (p_name ht) (fun x => mkintex (sadd i (ir_name ro) (innenraum x)) (sadd e (ir_name ro) (aussenraum x)) (sadd d (ir_name ro) (indifferent x))) t x L).
  destruct (String.eqb_spec k (p_name ht)); [congruence|auto].
Qed.
Lemma fold_other : forall inside ro k ps n t st x, foldM (probe inside ro) ps (n, t) = Ok st -> (forall y, In y ps -> p_name y <> k) ->
  lookup String.eqb k t = Ok x -> lookup String.eqb k (snd st) = Ok x.
Proof.
  intros inside ro k ps. induction ps as [|h ps IH]; intros n t st x E N L; cbn [foldM] in E; [injection E as <-; auto|].
  destruct (probe inside ro (n, t) h) as [[n' t']|] eqn:EP; [|discriminate E]. cbn [bind] in E.
  apply (IH n' t' st x E); [intros; apply N; right; auto|]. apply (probe_other _ _ _ _ _ _ _ _ EP); auto. apply N. left. auto.
Qed.
Lemma fold_app : forall X S (f : S -> X -> res S) (p r : list X) s, foldM f (p ++ r) s = bind (foldM f p s) (foldM f r).
Proof. intros X S f p r. induction p as [|x p IH]; intros s; cbn [app foldM]; [reflexivity|]. destruct (f s x); cbn [bind]; auto. Qed.
(** A room with the head: [b]: it is on the hollow side. *)
Lemma fold_head : forall (q : pt RA -> bool -> Prop) inside ro turn (b : bool) r k,
  (forall n p, exists c, inside n ro p = Ok c /\ forall d, q p d -> c = d) ->
  ip_segs r <> [] -> ip_ind r = [] -> ip_int r <> [] -> ip_ext r <> [] ->
  (forall p s, In (p, s) (ip_int r) -> q p b) -> (forall p s, In (p, s) (ip_ext r) -> q p (negb b)) ->
  (forall s, In s (ip_segs r) -> (exists p, In (p, s) (ip_int r)) /\ exists p, In (p, s) (ip_ext r)) ->
  once_in (seen_as turn k r) ro -> forall n t st x, foldM (probe inside ro) (walls_in ro) (n, t) = Ok st -> lookup String.eqb k t = Ok x ->
  lookup String.eqb k (snd st) = Ok (mkintex (sadd b (ir_name ro) (innenraum x)) (sadd (negb b) (ir_name ro) (aussenraum x)) (indifferent x)).
Proof.
  intros q inside ro turn b r k ANS NS IND NI NX H1 H2 H3 (pre & post & EW & NM) n t st x E L. rewrite EW, fold_app in E.
  destruct (foldM (probe inside ro) pre (n, t)) as [[n1 t1]|] eqn:E1; [|discriminate E]. cbn [bind foldM] in E.
  apply (fold_other _ _ k _ _ _ _ x) in E1; [|intros y Y; apply (NM y), in_app_iff; auto|auto]. cbn [snd] in E1.
  destruct (probe inside ro (n1, t1) (seen_as turn k r)) as [[n2 t2]|] eqn:EP; [|discriminate E]. cbn [bind] in E.
  apply (fold_other _ _ k _ _ _ _ _ E); [intros y Y; apply (NM y), in_app_iff; auto|].
  unfold probe in EP. cbn [seen_as p_internal p_external p_indifferent p_segments p_name] in EP.
  destruct (category_all q inside ro turn ANS b (ip_int r) (ip_segs r) n1) as (m1 & C1); auto; [intros s I; apply H3; auto|]. rewrite C1 in EP. cbn [bind] in EP.
  destruct (category_all q inside ro turn ANS (negb b) (ip_ext r) (ip_segs r) m1) as (m2 & C2); auto; [intros s I; apply H3; auto|]. rewrite C2 in EP. cbn [bind] in EP.
  rewrite IND in EP. cbn [map category bind] in EP. match type of EP with bind ?z _ = _ => destruct z; [|discriminate EP] end. cbn [bind] in EP. injection EP as _ <-.
  rewrite (lookup_update k k (fun x => mkintex (sadd b (ir_name ro) (innenraum x)) (sadd (negb b) (ir_name ro) (aussenraum x)) (sadd false (ir_name ro) (indifferent x))) t1 x E1).
  rewrite String.eqb_refl. unfold sadd at 3. cbn [andb]. reflexivity.
Qed.

(** Nothing is raised when all tests answer and all names are known. *)
Lemma category_total : forall (inside : nat -> iroom RA -> pt RA -> res bool) want n ro ps ss, (forall n r p, exists b, inside n r p = Ok b) -> exists m b, category inside want n ro ps ss = Ok (m, b).
Proof.
  intros inside want n ro ps ss T. unfold category. destruct ps as [|x ps]; [eauto|].
  destruct (PSides.some_spec (fun _ _ => False) inside ltac:(intros n' r p; destruct (T n' r p) as (b & E); exists b; split; [exact E|intros c []]) want (x :: ps) ss n ro) as (m & b & E & _). eauto.
Qed.
Lemma fold_total : forall inside ro ps n (t : table), (forall n r p, exists b, inside n r p = Ok b) -> (forall y, In y ps -> In (p_name y) (map fst t)) ->
  exists st, foldM (probe inside ro) ps (n, t) = Ok st /\ map fst (snd st) = map fst t.
Proof.
  intros inside ro ps. induction ps as [|h ps IH]; intros n t T H; [exists (n, t); split; reflexivity|]. cbn [foldM]. unfold probe at 1.
  destruct (category_total inside true n ro (p_internal h) (p_segments h) T) as (n1 & i & ->). cbn [bind].
  destruct (category_total inside true n1 ro (p_external h) (p_segments h) T) as (n2 & e & ->). cbn [bind].
  destruct (category_total inside false n2 ro (p_indifferent h) (p_segments h) T) as (n3 & d & ->). cbn [bind].
  destruct (PSides.lookup_in (p_name h) t (H h (or_introl eq_refl))) as (x & ->). cbn [bind].
  match goal with |- context [if ?b then Ok tt else Ok tt] => replace (if b then Ok tt else Ok tt) with (@Ok unit tt) by (destruct b; reflexivity) end. cbn [bind].
  match goal with |- context [foldM _ ps (n3, ?t')] => set (t2 := t') end.
  assert (KT : map fst t2 = map fst t) by (unfold t2; rewrite map_map; apply map_ext; intros [a y]; destruct (String.eqb a (p_name h)); reflexivity).
  destruct (IH n3 t2 T) as (st & E & K); [intros y Y; rewrite KT; apply H; right; auto|]. exists st. split; [exact E|congruence].
Qed.
Section Rooms.
Context (prepare : iroom RA -> res unit) (inside : nat -> iroom RA -> pt RA -> res bool) (keys : list string).
Context (PR : forall r, prepare r = Ok tt) (T : forall n r p, exists b, inside n r p = Ok b).
Let step : nat * table -> iroom RA -> res (nat * table) := fun '(n, t) r => prepare r ;;; foldM (probe inside r) (ir_innen r ++ ir_aussen r) (n, t).
Lemma step_total : forall r n t, map fst t = keys -> (forall y, In y (walls_in r) -> In (p_name y) keys) -> exists st, step (n, t) r = Ok st /\ map fst (snd st) = keys /\ foldM (probe inside r) (walls_in r) (n, t) = Ok st.
Proof.
  intros r n t K H. unfold step. rewrite PR. cbn [bind]. destruct (fold_total inside r (walls_in r) n t T) as (st & E & KE); [intros y Y; rewrite K; auto|].
  exists st. split; [exact E|]. split; [congruence|exact E].
Qed.
Lemma skip_rooms : forall k rs n t x, map fst t = keys -> (forall r y, In r rs -> In y (walls_in r) -> In (p_name y) keys /\ p_name y <> k) -> lookup String.eqb k t = Ok x ->
  exists n' t', foldM step rs (n, t) = Ok (n', t') /\ map fst t' = keys /\ lookup String.eqb k t' = Ok x.
Proof.
  intros k rs. induction rs as [|r rs IH]; intros n t x K H L; [exists n, t; auto|]. cbn [foldM].
  destruct (step_total r n t K) as ([n' t'] & E & K' & F); [intros y Y; apply (H r y (or_introl eq_refl) Y)|]. rewrite E. cbn [bind].
  apply (IH n' t' x); auto; [intros r' y R Y; apply (H r' y (or_intror R) Y)|]. apply (fold_other _ _ k _ _ _ _ _ F); auto. intros y Y. apply (H r y (or_introl eq_refl) Y).
Qed.
End Rooms.

(*@ C102_head *)
(** C102: a standing vessel (as in C98) which a torispherical head at one of its levels divides into two rooms: r1 is the room
    on the hollow side of the head, r2 the one into which it bulges.  The head is at least 1e-4 wide, and the shell into which
    it bulges is longer than the head is high and does not narrow.  Then raum_intex reports r1, and only r1, inside
    of the head, r2, and only r2, outside of it, and nothing as indifferent; whatever the order of the rooms and of
    their walls, whatever the other parts (k is the name of the head only), and for all answers about inner points
    that are right off the walls of r1 and r2. *)
Lemma head_divides : forall x0 bot top (up : bool) a l1 l2 inside_m, let m := last l1 a in
  measured x0 (a :: l1 ++ l2) -> rising a (l1 ++ l2) -> l1 <> [] -> l2 <> [] -> 1 / 10^4 <= snd m -> bulge_space up a l1 l2 ->
  exists g, graph_of x0 inside_m (End Dome up m) = Ok g /\
  forall (prepare : iroom RA -> res unit) (inside : nat -> iroom RA -> pt RA -> res bool) k names turn1 turn2 r1 r2 front mid back rooms vs1 vs2,
  once_in (seen_as turn1 k g) r1 -> once_in (seen_as turn2 k g) r2 ->
  rooms = front ++ r1 :: mid ++ r2 :: back \/ rooms = front ++ r2 :: mid ++ r1 :: back ->
  (forall r y, In r (front ++ mid ++ back) -> In y (walls_in r) -> p_name y <> k) ->
  NoDup names -> (forall r y, In r rooms -> In y (walls_in r) -> In (p_name y) names) ->
  (forall r, prepare r = Ok tt) -> (forall n r p, exists b, inside n r p = Ok b) ->
  (let W := hollow_side x0 bot top up a l1 l2 in polygon_of vs1 W /\ forall n p, off_walls W p -> inside n r1 p = Ok (even_odd vs1 p)) ->
  (let W := bulge_side x0 bot top up a l1 l2 in polygon_of vs2 W /\ forall n p, off_walls W p -> inside n r2 p = Ok (even_odd vs2 p)) ->
  exists t, raum_intex prepare inside names rooms = Ok t /\ lookup String.eqb k t = Ok (mkintex [ir_name r1] [ir_name r2] []).
Proof.
  intros x0 bot top up a l1 l2 inside_m m M RI N1 N2 D BS.
  assert (Im : In m (a :: l1 ++ l2)) by (assert (X : In m (a :: l1)) by apply last_in; cbn [In] in *; rewrite in_app_iff; tauto).
  destruct (proj2 M m Im) as (B1 & B2 & B3).
  destruct (head_points x0 inside_m up m (proj1 M) B1 B2 D) as (g & EG & G1 & G2 & G3 & G4 & G5 & G6 & G7). exists g. split; [exact EG|].
  intros prepare inside k names turn1 turn2 r1 r2 front mid back rooms vs1 vs2 O1 O2 RO OT ND NM PR T [P1 A1] [P2 A2].
  assert (ANS : forall (W : list (seg RA)) vs r, polygon_of vs W -> (forall n p, off_walls W p -> inside n r p = Ok (even_odd vs p)) ->
    forall n p, exists c, inside n r p = Ok c /\ forall d, PSides.says W p d -> c = d).
  { intros W vs r PO H n p. destruct (T n r p) as (c & E). exists c. split; auto. intros d [O Q]. rewrite (H n p O) in E. injection E as <-. rewrite (PSides.hits_cycle vs W p PO). exact Q. }
  assert (S1 : forall n t st x, foldM (probe inside r1) (walls_in r1) (n, t) = Ok st -> lookup String.eqb k t = Ok x ->
    lookup String.eqb k (snd st) = Ok (mkintex (sadd true (ir_name r1) (innenraum x)) (aussenraum x) (indifferent x))).
  { intros n t st x E L. apply (fold_head (PSides.says (hollow_side x0 bot top up a l1 l2)) inside r1 turn1 true g k (ANS _ _ _ P1 A1) G1 G2 G3 G4) with (n := n) (t := t); auto.
    - intros p s I. apply (hollow_points x0 bot top up a l1 l2 p); auto. apply (G5 p s I).
    - intros p s I. apply (hollow_points x0 bot top up a l1 l2 p); auto. apply (G6 p s I). }
  assert (S2 : forall n t st x, foldM (probe inside r2) (walls_in r2) (n, t) = Ok st -> lookup String.eqb k t = Ok x ->
    lookup String.eqb k (snd st) = Ok (mkintex (innenraum x) (sadd true (ir_name r2) (aussenraum x)) (indifferent x))).
  { intros n t st x E L. apply (fold_head (PSides.says (bulge_side x0 bot top up a l1 l2)) inside r2 turn2 false g k (ANS _ _ _ P2 A2) G1 G2 G3 G4) with (n := n) (t := t); auto.
    - intros p s I. destruct (G5 p s I) as [U N]. apply (bulge_points x0 bot top up a l1 l2 p); auto. destruct U; auto.
    - intros p s I. destruct (G6 p s I) as [U N]. apply (bulge_points x0 bot top up a l1 l2 p); auto. destruct U; auto. }
  clear ANS G1 G2 G3 G4 G5 G6 G7 P1 P2 A1 A2.
  set (t0 := map (fun j => (j, mkintex [] [] [])) names : table).
  set (F := (fun '(n, t) r => prepare r ;;; foldM (probe inside r) (ir_innen r ++ ir_aussen r) (n, t)) : nat * table -> iroom RA -> res (nat * table)).
  assert (UF : raum_intex prepare inside names rooms = bind (foldM F rooms (0%nat, t0)) (fun '(_, t) => Ok t)) by (unfold raum_intex; rewrite PSides.dedup_all by auto; reflexivity).
  rewrite UF. clear UF.
  assert (K0 : map fst t0 = names) by (unfold t0; rewrite map_map; cbn [fst]; apply map_id).
  assert (KN : In k names).
  { destruct O1 as (pre & post & E & _). apply (NM r1 (seen_as turn1 k g)); [destruct RO as [-> | ->]; rewrite ?in_app_iff; cbn [In]; rewrite ?in_app_iff; cbn [In]; tauto|]. rewrite E. apply in_app_iff. right. left. auto. }
  assert (L0 : lookup String.eqb k t0 = Ok (mkintex [] [] [])).
  { unfold t0. clear - KN. induction names as [|j l IH]; [destruct KN|]. cbn [map lookup]. destruct (String.eqb_spec j k); auto. destruct KN; [congruence|auto]. }
  assert (SK : forall rs n (t : table) x, incl rs (front ++ mid ++ back) -> map fst t = names -> lookup String.eqb k t = Ok x ->
    exists n' (t' : table), foldM F rs (n, t) = Ok (n', t') /\ map fst t' = names /\ lookup String.eqb k t' = Ok x).
  { intros rs n t x I K L. apply (skip_rooms prepare inside names PR T k rs n t x K); auto. intros r y R Y. apply I in R. split; [|eapply OT; eauto]. apply (NM r y); auto.
    destruct RO as [-> | ->]; rewrite !in_app_iff in R; rewrite ?in_app_iff; cbn [In]; rewrite ?in_app_iff; cbn [In]; tauto. }
  assert (ONE : forall r n (t : table), In r rooms -> map fst t = names -> exists st : nat * table, F (n, t) r = Ok st /\ map fst (snd st) = names /\ foldM (probe inside r) (walls_in r) (n, t) = Ok st).
  { intros r n t I K. destruct (fold_total inside r (walls_in r) n t T) as (st & E & KE); [intros y Y; rewrite K; eapply NM; eauto|]. exists st. split; [|split; [congruence|exact E]]. unfold F. rewrite PR. exact E. }
  assert (SUB : incl front (front ++ mid ++ back) /\ incl mid (front ++ mid ++ back) /\ incl back (front ++ mid ++ back)) by (repeat split; intros r R; rewrite !in_app_iff; tauto).
  destruct SUB as (I1 & I2 & I3). destruct (SK front 0%nat t0 _ I1 K0 L0) as (n1 & t1 & E1 & K1 & L1).
  assert (IR : In r1 rooms /\ In r2 rooms) by (destruct RO as [-> | ->]; rewrite ?in_app_iff; cbn [In]; rewrite ?in_app_iff; cbn [In]; tauto). destruct IR as [IR1 IR2].
  clearbody F. destruct RO as [RO|RO]; rewrite RO, fold_app, E1; cbn [bind foldM].
  - destruct (ONE r1 n1 t1 IR1 K1) as ([n2 t2] & E2 & K2 & F2). rewrite E2. cbn [bind]. pose proof (S1 _ _ _ _ F2 L1) as L2. cbn [snd] in L2, K2.
    destruct (SK mid n2 t2 _ I2 K2 L2) as (n3 & t3 & E3 & K3 & L3). rewrite fold_app, E3. cbn [bind foldM].
    destruct (ONE r2 n3 t3 IR2 K3) as ([n4 t4] & E4 & K4 & F4). rewrite E4. cbn [bind]. pose proof (S2 _ _ _ _ F4 L3) as L4. cbn [snd] in L4, K4.
    destruct (SK back n4 t4 _ I3 K4 L4) as (n5 & t5 & E5 & K5 & L5). rewrite E5. cbn [bind]. exists t5. split; [reflexivity|exact L5].
  - destruct (ONE r2 n1 t1 IR2 K1) as ([n2 t2] & E2 & K2 & F2). rewrite E2. cbn [bind]. pose proof (S2 _ _ _ _ F2 L1) as L2. cbn [snd] in L2, K2.
    destruct (SK mid n2 t2 _ I2 K2 L2) as (n3 & t3 & E3 & K3 & L3). rewrite fold_app, E3. cbn [bind foldM].
    destruct (ONE r1 n3 t3 IR1 K3) as ([n4 t4] & E4 & K4 & F4). rewrite E4. cbn [bind]. pose proof (S1 _ _ _ _ F4 L3) as L4. cbn [snd] in L4, K4.
    destruct (SK back n4 t4 _ I3 K4 L4) as (n5 & t5 & E5 & K5 & L5). rewrite E5. cbn [bind]. exists t5. split; [reflexivity|exact L5].
Qed.

(*@ex C102_head_example *)
(** C102: a cylinder of diameter 2 with flat ends A and D at 0 m and 6 m, made of two shells B and C, and a head H at 3 m
    that bulges upwards, with the rooms R1 below and R2 above it: all the hypotheses can be met. *)
Lemma head_example : let a := (0, 2) in let m := (3, 2) in let z := (6, 2) in
  exists gr inside t, let wall k c := seen_as (fun s => s) k (gr c) in
  (exists ans, forall c, In c [End Flat false a; Shell a m; End Dome true m; Shell m z; End Flat true z] -> graph_of 1 ans c = Ok (gr c)) /\
  raum_intex (A := RA) (fun _ => Ok tt) inside ["A"; "B"; "C"; "D"; "H"]%string
    [mkiroom "R2" [] [wall "D" (End Flat true z); wall "H" (End Dome true m); wall "C" (Shell m z)]; mkiroom "R1" [] [wall "H" (End Dome true m); wall "A" (End Flat false a); wall "B" (Shell a m)]]%string = Ok t /\
  lookup String.eqb "H"%string t = Ok (mkintex ["R1"] ["R2"] [])%string.
Proof.
  intros a m z. assert (M : measured 1 (a :: [m] ++ [z])).
  { split; [exists 100000000%Z; lra|]. unfold a, m, z. intros u [<-|[<-|[<-|[]]]]; cbn [fst snd]; (split; [|split]); try lra.
    - exists 0%Z. lra.
    - exists 100000000%Z. lra.
    - exists 300000000%Z. lra.
    - exists 100000000%Z. lra.
    - exists 600000000%Z. lra.
    - exists 100000000%Z. lra. }
  assert (RI : rising a ([m] ++ [z])) by (cbn; lra).
  set (ans := fun (c : vpart) (_ _ _ _ : nat) p => match c with Shell u v => PIntex.answer_for (outline_of 1 u v) p | _ => Ok true end).
  assert (M1 : measured 1 [a; m]) by (destruct M as [X Y]; split; auto; intros u [<-|[<-|[]]]; apply Y; simpl; auto).
  assert (M2 : measured 1 [m; z]) by (destruct M as [X Y]; split; auto; intros u [<-|[<-|[]]]; apply Y; simpl; auto).
  assert (RI1 : rising a [m]) by (cbn; lra). assert (RI2 : rising m [z]) by (cbn; lra).
  assert (AM : forall u v k, right_answers (ans (Shell u v) k) (outline_of 1 u v)) by (intros; apply PIntex.answer_right).
  assert (AB : Rabs (2 - 2) = 0) by (replace (2 - 2) with 0 by ring; apply Rabs_R0).
  pose proof (PStories.story_fits 1 ans (SpecStories.mkstory Flat Dome a [m]) _ M1 RI1 ltac:(discriminate) ltac:(cbn; rewrite AB; lra) ltac:(intros u [<-|[<-|[]]]; cbn; lra) AM (Permutation_refl _)) as G1.
  pose proof (PStories.story_fits 1 ans (SpecStories.mkstory Flat Flat m [z]) _ M2 RI2 ltac:(discriminate) ltac:(cbn; rewrite AB; lra) ltac:(intros u [<-|[<-|[]]]; cbn; lra) AM (Permutation_refl _)) as G2.
  set (gr := fun c => match graph_of 1 ans c with Ok g => g | Err _ => MContain.mkip [] [] [] [] end).
  assert (GR : forall c, In c [End Flat false a; Shell a m; End Dome true m; Shell m z; End Flat true z] -> graph_of 1 ans c = Ok (gr c)).
  { intros c I. assert (X : exists g, graph_of 1 ans c = Ok g).
    { destruct I as [<-|[<-|[<-|[<-|[<-|[]]]]]].
      - destruct (G1 (End Flat false a)) as (g & E & _); [left; auto|eauto].
      - destruct (G1 (Shell a m)) as (g & E & _); [right; right; left; auto|eauto].
      - destruct (G1 (End Dome true m)) as (g & E & _); [right; left; auto|eauto].
      - destruct (G2 (Shell m z)) as (g & E & _); [right; right; left; auto|eauto].
      - destruct (G2 (End Flat true z)) as (g & E & _); [right; left; auto|eauto]. }
    destruct X as (g & E). unfold gr. rewrite E. reflexivity. }
  clear G1 G2.
  assert (P1 : exists vs, polygon_of vs (hollow_side 1 Flat Flat true a [m] [z])).
  { destruct (PSides.standing_polygon 1 Flat Dome a [m] (vessel_parts Flat Dome a [m]) M1 RI1) as (_ & vs & _ & P); [discriminate|simpl; lia|apply Permutation_refl|]. exists vs. rewrite PSides.walls_parts in P. exact P. }
  assert (P2 : exists vs, polygon_of vs (bulge_side 1 Flat Flat true a [m] [z])).
  { pose proof M as [D0 MM]. destruct (MM m ltac:(simpl; auto)) as (B1 & B2 & _). destruct (MM z ltac:(simpl; auto)) as (Z1 & Z2 & _).
    unfold bulge_side. cbn [last concat shells]. rewrite flat_eq, shell_eq by auto. destruct (PSides.dome_apex 1 true m D0 B1 B2) as (H & -> & _).
    set (T := @mkpt RA 1 (fst m + sg true * H)). exists [corner 1 false m; T; corner 1 true m; corner 1 true z; corner 1 false z]. unfold side_wall. cbn [app].
    eexists [_; _; _; _; _]. split; [apply perm_skip, perm_skip, perm_swap|]. cbn. repeat (apply Forall2_cons; [solve [left; auto | right; auto]|]). constructor. }
  destruct P1 as (vs1 & P1). destruct P2 as (vs2 & P2).
  set (inside := fun (_ : nat) (ro : iroom RA) p => Ok (even_odd (if String.eqb (ir_name ro) "R1" then vs1 else vs2) p)).
  destruct (head_divides 1 Flat Flat true a [m] [z] ans M RI) as (g & EG & HD); [discriminate|discriminate|cbn; lra| |].
  { exists z, []. split; auto. unfold has_space, m, z. cbn [last fst snd]. rewrite Rabs_pos_eq by lra. split; [apply Rmax_lub_lt; lra|lra]. }
  change (last [m] a) with m in EG. assert (GE : gr (End Dome true m) = g) by (unfold gr; rewrite EG; reflexivity).
  set (wall := fun k c => seen_as (fun s => s) k (gr c)).
  set (r1 := mkiroom "R1" [] [wall "H" (End Dome true m); wall "A" (End Flat false a); wall "B" (Shell a m)]%string).
  set (r2 := mkiroom "R2" [] [wall "D" (End Flat true z); wall "H" (End Dome true m); wall "C" (Shell m z)]%string).
  destruct (HD (fun _ => Ok tt) inside "H"%string ["A"; "B"; "C"; "D"; "H"]%string (fun s => s) (fun s => s) r1 r2 [] [] [] [r2; r1] vs1 vs2) as (t & ET & LT).
  - exists [], [wall "A" (End Flat false a); wall "B" (Shell a m)]%string. rewrite <- GE. split; [reflexivity|]. intros y [<-|[<-|[]]]; cbn; discriminate.
  - exists [wall "D" (End Flat true z)]%string, [wall "C" (Shell m z)]%string. rewrite <- GE. split; [reflexivity|]. intros y [<-|[<-|[]]]; cbn; discriminate.
  - right. reflexivity.
  - intros r y [].
  - repeat constructor; simpl; intuition discriminate.
  - intros r y [<-|[<-|[]]]; cbn [walls_in r1 r2 ir_innen ir_aussen app]; intros [<-|[<-|[<-|[]]]]; cbn; tauto.
  - reflexivity.
  - intros n r p. unfold inside. eauto.
  - split; [exact P1|]. intros n p _. reflexivity.
  - split; [exact P2|]. intros n p _. reflexivity.
  - exists gr, inside, t. split; [exists ans; exact GR|]. split; [exact ET|exact LT].
Qed.

(** ** The corners of the room into which the head bulges *)
Lemma pairs_cut : forall X (l : list X) E1 p q E2, pairs l = E1 ++ (p, q) :: E2 -> exists L Y, l = L ++ p :: q :: Y /\ pairs (L ++ [p]) = E1 /\ pairs (q :: Y) = E2.
Proof.
  intros X l. induction l as [|x l IH]; intros E1 p q E2 H; [destruct E1; discriminate H|]. destruct l as [|y l]; [destruct E1; discriminate H|].
  change (pairs (x :: y :: l)) with ((x, y) :: pairs (y :: l)) in H. destruct E1 as [|e E1].
  - injection H as -> -> H. exists [], l. auto.
  - injection H as <- H. destruct (IH E1 p q E2 H) as (L & Y & E & H1 & H2). exists (x :: L), Y. split; [rewrite E; reflexivity|]. split; auto.
    destruct L as [|w L]; [injection E as -> _; cbn in H1 |- *; rewrite <- H1; reflexivity|]. injection E as -> _. cbn [app] in H1 |- *. change (pairs (x :: w :: L ++ [p])) with ((x, w) :: pairs (w :: L ++ [p])). rewrite H1. reflexivity.
Qed.
Lemma pairs_join : forall X (L : list X) p q Y, pairs (L ++ p :: q :: Y) = pairs (L ++ [p]) ++ (p, q) :: pairs (q :: Y).
Proof.
  intros X L p q Y. induction L as [|x L IH]; [reflexivity|]. destruct L as [|w L]; [reflexivity|]. cbn [app] in IH |- *.
  change (pairs (x :: w :: L ++ p :: q :: Y)) with ((x, w) :: pairs (w :: L ++ p :: q :: Y)). rewrite IH. reflexivity.
Qed.
Lemma edge_insert : forall X (vs : list X) E1 p q E2 T, cycle_edges vs = E1 ++ (p, q) :: E2 -> exists vs', cycle_edges vs' = E1 ++ (p, T) :: (T, q) :: E2.
Proof.
  intros X vs E1 p q E2 T H. destruct vs as [|v r]; [destruct E1; discriminate H|]. rewrite cycle_edges_pairs in H.
  destruct (pairs_cut _ _ _ _ _ _ H) as (L & Y & E & H1 & H2). clear H.
  assert (K : exists r', v :: r' ++ [v] = L ++ p :: T :: q :: Y).
  { destruct L as [|w L].
    - injection E as <- E. exists (T :: r). cbn [app]. rewrite E. reflexivity.
    - injection E as <- E. destruct (@exists_last _ (q :: Y)) as (Y' & z & EZ); [discriminate|].
      assert (Z : z = v). { assert (Q : L ++ p :: Y' ++ [z] = r ++ [v]) by (rewrite E, EZ; reflexivity). rewrite app_comm_cons, app_assoc in Q. apply app_inj_tail in Q. apply Q. }
      exists (L ++ p :: T :: Y'). rewrite EZ, Z, <- app_assoc. reflexivity. }
  destruct K as (r' & K). exists (v :: r'). rewrite cycle_edges_pairs, K, pairs_join. rewrite H1. f_equal. f_equal.
  change (pairs (T :: q :: Y)) with ((T, q) :: pairs (q :: Y)). rewrite H2. reflexivity.
Qed.
Lemma polygon_insert : forall vs (s w1 w2 : seg RA) T rest g, polygon_of vs g -> Permutation g (s :: rest) -> si w1 = si s -> sj w1 = T -> si w2 = T -> sj w2 = sj s ->
  exists vs', polygon_of vs' (w1 :: w2 :: rest).
Proof.
  intros vs s w1 w2 T rest g (l' & P & F) PG A1 A2 A3 A4.
  assert (I : In s l') by (apply (Permutation_in _ P), (Permutation_in _ (Permutation_sym PG)); left; auto). apply in_split in I as (L1 & L2 & ->).
  assert (PR : Permutation rest (L1 ++ L2)).
  { apply (Permutation_cons_inv (a := s)). rewrite <- PG, P. symmetry. apply Permutation_middle. }
  apply Forall2_app_inv_r in F as (E1 & E2' & F1 & F2 & EE). inversion F2 as [|[p q] s' E2 L2' J F2' Q1 Q2]; subst. destruct (edge_insert _ _ _ _ _ _ (sj w1) EE) as (vs' & EV). exists vs'.
  destruct J as [[J1 J2]|[J1 J2]]; cbn [fst snd] in J1, J2.
  - exists (L1 ++ w1 :: w2 :: L2). split.
    + rewrite PR. transitivity (w1 :: L1 ++ w2 :: L2); [apply perm_skip, Permutation_middle|apply (Permutation_middle L1 (w2 :: L2) w1)].
    + rewrite EV. apply Forall2_app; auto. constructor; [left; cbn; split; congruence|]. constructor; [left; cbn; split; congruence|auto].
  - exists (L1 ++ w2 :: w1 :: L2). split.
    + rewrite PR. transitivity (w2 :: L1 ++ w1 :: L2); [|apply (Permutation_middle L1 (w1 :: L2) w2)]. transitivity (w2 :: w1 :: L1 ++ L2); [apply perm_swap|apply perm_skip, Permutation_middle].
    + rewrite EV. apply Forall2_app; auto. constructor; [right; cbn; split; congruence|]. constructor; [right; cbn; split; congruence|auto].
Qed.

(*@ C102_polygon *)
(** C102: the corners of both rooms exist: the walls of each of them are the edges of one polygon. *)
Lemma head_polygons : forall x0 bot top (up : bool) a l1 l2, measured x0 (a :: l1 ++ l2) -> rising a (l1 ++ l2) -> l1 <> [] -> l2 <> [] -> (length (l1 ++ l2) <= 60)%nat ->
  (exists vs, polygon_of vs (hollow_side x0 bot top up a l1 l2)) /\ exists vs, polygon_of vs (bulge_side x0 bot top up a l1 l2).
Proof.
  intros x0 bot top up a l1 l2 M RI N1 N2 LL. rewrite app_length in LL. set (m := last l1 a).
  destruct (PPlate.rising_app _ _ _ RI) as [RI1 RI2]. fold m in RI2. assert (Im : In m (a :: l1)) by apply last_in.
  destruct M as [D0 MM]. assert (M1 : measured x0 (a :: l1)) by (split; auto; intros u U; apply MM; cbn [In] in *; rewrite in_app_iff; tauto).
  assert (M2 : measured x0 (m :: l2)).
  { split; auto. intros u U. apply MM. cbn [In] in *. rewrite in_app_iff. destruct U as [<-|U]; tauto. }
  destruct (proj2 M1 m Im) as (B1 & B2 & B3).
  assert (PO : forall k1 k2 u l, measured x0 (u :: l) -> rising u l -> l <> [] -> (length l <= 60)%nat -> exists vs, polygon_of vs (concat (standing_parts x0 k1 k2 u l))).
  { intros k1 k2 u l Mu Ru Nu Lu. destruct (PSides.standing_polygon x0 k1 k2 u l (vessel_parts k1 k2 u l) Mu Ru Nu Lu (Permutation_refl _)) as (_ & vs & _ & P). exists vs. rewrite PSides.walls_parts in P. exact P. }
  split.
  - unfold hollow_side. fold m. destruct up; apply PO; auto; lia.
  - unfold bulge_side. fold m. destruct (PSides.dome_apex x0 up m D0 B1 B2) as (H & -> & _). cbn [app]. destruct up.
    + destruct (PO Flat top m l2) as (vs & P); auto; [lia|].
      apply (polygon_insert vs (Wall (corner x0 false m) (corner x0 true m)) _ _ (@mkpt RA x0 (fst m + sg true * H)) _ _ P); auto.
      unfold standing_parts. cbn [concat]. rewrite flat_eq by auto. apply Permutation_refl.
    + destruct (PO bot Flat a l1) as (vs & P); auto; [lia|].
      apply (polygon_insert vs (Wall (corner x0 false m) (corner x0 true m)) _ _ (@mkpt RA x0 (fst m + sg false * H)) _ _ P); auto.
      unfold standing_parts. cbn [concat]. fold m. rewrite flat_eq by auto. cbn [app]. symmetry. apply Permutation_middle.
Qed.
