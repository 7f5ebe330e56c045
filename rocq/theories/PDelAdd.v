(** Delaunay triangulation: adding a point. *)
From Coq Require Import Reals ZArith Lra Lia Bool List Psatz Permutation.
From Verif Require Import Base Arith ArithR MPoint MLine MPoly MDelaunay Spec SpecDelaunay PPoint PLine PTrig PDelaunay PDelGeo.
Import ListNotations.

Definition odef (m : emap) (e : edge) : list nat := match aget m e with Some w => w | None => [] end.

Lemma sort3_In : forall a b c v, In v (tri_list (sort3 a b c)) <-> v = a \/ v = b \/ v = c.
Proof.
  intros a b c v. unfold sort3, sort_by. cbn [fold_right insert_sorted].
  repeat (match goal with |- context [Nat.ltb ?x ?y] => destruct (Nat.ltb_spec x y) end; cbn [insert_sorted]); cbn [tri_list In]; intuition.
Qed.
Lemma sort3_NoDup : forall a b c, a <> b -> a <> c -> b <> c -> NoDup (tri_list (sort3 a b c)).
Proof.
  intros a b c H1 H2 H3. unfold sort3, sort_by. cbn [fold_right insert_sorted].
  repeat (match goal with |- context [Nat.ltb ?x ?y] => destruct (Nat.ltb_spec x y) end; cbn [insert_sorted]); cbn [tri_list];
  repeat constructor; cbn; intuition.
Qed.
Lemma ccw_In : forall (A : Arith) (ps : list (pt A)) t t', makeCounterClockwise ps t = Ok t' ->
  (forall v, In v (tri_list t') <-> In v (tri_list t)) /\ (NoDup (tri_list t) -> NoDup (tri_list t')).
Proof.
  intros A ps [[a b] c] t' H. unfold makeCounterClockwise in H. destruct (getArea ps a b c); [|discriminate]. cbn [bind] in H. injection H as <-.
  destruct (nltb _ _); [|split; auto; tauto]. cbn [tri_list]. split; [intros v; cbn; tauto|].
  intros N. apply (Permutation_NoDup (l := [a; b; c])); auto. apply perm_skip, perm_swap.
Qed.

Lemma getArea_ok : forall (A : Arith) (ps : list (pt A)) a b c, (a < length ps)%nat -> (b < length ps)%nat -> (c < length ps)%nat -> exists v, getArea ps a b c = Ok v.
Proof.
  intros A ps a b c La Lb Lc. unfold getArea, get.
  destruct (nth_error ps a) eqn:Ea; [|apply nth_error_None in Ea; lia]. destruct (nth_error ps b) eqn:Eb; [|apply nth_error_None in Eb; lia].
  destruct (nth_error ps c) eqn:Ec; [|apply nth_error_None in Ec; lia]. cbn [bind]. eauto.
Qed.
Lemma ccw_ok : forall (A : Arith) (ps : list (pt A)) t, (forall v, In v (tri_list t) -> (v < length ps)%nat) -> exists t', makeCounterClockwise ps t = Ok t'.
Proof.
  intros A ps [[a b] c] H. unfold makeCounterClockwise. cbn [tri_list] in H. destruct (getArea_ok A ps a b c) as [v ->]; [apply H; cbn; auto..|]. cbn [bind]. eauto.
Qed.

(** A new triangle with the vertices a, b, c in the dict. *)
Lemma aget_new : forall m a b c k x y, (x < y)%nat -> a <> b -> a <> c -> b <> c ->
  let m1 := aset m (makeKey a b) (odef m (makeKey a b) ++ [k]) in
  let m2 := aset m1 (makeKey c a) (odef m1 (makeKey c a) ++ [k]) in
  let m3 := aset m2 (makeKey b c) (odef m2 (makeKey b c) ++ [k]) in
  ((x = a \/ x = b \/ x = c) /\ (y = a \/ y = b \/ y = c) /\ aget m3 (x, y) = Some (odef m (x, y) ++ [k])) \/
  (~ ((x = a \/ x = b \/ x = c) /\ (y = a \/ y = b \/ y = c)) /\ aget m3 (x, y) = aget m (x, y)).
Proof.
  intros m a b c k x y XY AB AC BC m1 m2 m3. unfold m3. rewrite aget_aset.
  assert (K : forall i j, edge_eqb (makeKey i j) (x, y) = true <-> (x = i /\ y = j) \/ (x = j /\ y = i)) by (intros; rewrite edge_eqb_iff; apply key_iff; auto).
  pose proof (K a b) as Ka. pose proof (K c a) as Kb. pose proof (K b c) as Kc. clear K.
  assert (KN : forall i j i' j', i <> j -> i' <> j' -> ~ ((i = i' /\ j = j') \/ (i = j' /\ j = i')) -> edge_eqb (makeKey i j) (makeKey i' j') = false).
  { intros i j i' j' IJ IJ' N. apply edge_eqb_false. intros E. apply N. revert E. unfold makeKey. destruct (Nat.ltb_spec j i), (Nat.ltb_spec j' i'); intros [= -> ->]; lia. }
  destruct (edge_eqb (makeKey b c) (x, y)) eqn:B3.
  { left. pose proof (proj1 Kc eq_refl) as B3'. apply edge_eqb_iff in B3. rewrite <- B3. split; [tauto|]. split; [tauto|].
    unfold m2, odef. rewrite aget_aset. rewrite (KN c a b c) by (auto; lia). unfold m1. rewrite aget_aset. rewrite (KN a b b c) by (auto; lia). reflexivity. }
  unfold m2. rewrite aget_aset.
  destruct (edge_eqb (makeKey c a) (x, y)) eqn:B2.
  { left. pose proof (proj1 Kb eq_refl) as B2'. apply edge_eqb_iff in B2. rewrite <- B2. split; [tauto|]. split; [tauto|].
    unfold m1, odef. rewrite aget_aset. rewrite (KN a b c a) by (auto; lia). reflexivity. }
  unfold m1. rewrite aget_aset.
  destruct (edge_eqb (makeKey a b) (x, y)) eqn:B1.
  { left. pose proof (proj1 Ka eq_refl) as B1'. apply edge_eqb_iff in B1. rewrite <- B1. split; [tauto|]. split; [tauto|]. reflexivity. }
  right. split; [|reflexivity]. intros [H1 H2].
  assert (X : ~ ((x = a /\ y = b) \/ (x = b /\ y = a)) /\ ~ ((x = c /\ y = a) \/ (x = a /\ y = c)) /\ ~ ((x = b /\ y = c) \/ (x = c /\ y = b))).
  { repeat split; intros E; [apply Ka in E|apply Kb in E|apply Kc in E]; discriminate. }
  clear - X H1 H2 XY. intuition (subst; try lia; tauto).
Qed.

(** One more triangle keeps the state consistent. *)
Lemma add_consistent : forall (A : Arith) (st : dst A) a b c t bd, consistent st ->
  a <> b -> a <> c -> b <> c -> (a < length (dpts st))%nat -> (b < length (dpts st))%nat -> (c < length (dpts st))%nat ->
  NoDup (tri_list t) -> (forall v, In v (tri_list t) <-> v = a \/ v = b \/ v = c) ->
  let k := length (dtris st) in let m := de2t st in
  let m1 := aset m (makeKey a b) (odef m (makeKey a b) ++ [k]) in
  let m2 := aset m1 (makeKey c a) (odef m1 (makeKey c a) ++ [k]) in
  let m3 := aset m2 (makeKey b c) (odef m2 (makeKey b c) ++ [k]) in
  consistent (mkd (dpts st) (dtris st ++ [t]) m3 bd).
Proof.
  intros A st a b c t bd C AB AC BC La Lb Lc ND HT k m m1 m2 m3.
  pose proof (cs_keys st C) as NK. fold m in NK.
  assert (NK3 : NoDup (map fst m3)) by (unfold m3, m2, m1; apply keys_aset, keys_aset, keys_aset; exact NK).
  assert (L : forall x y, (x < y)%nat -> _) by (intros x y XY; exact (aget_new m a b c k x y XY AB AC BC)). cbn zeta in L. fold m1 in L. fold m2 in L. fold m3 in L.
  set (st' := mkd (dpts st) (dtris st ++ [t]) m3 bd).
  assert (HS : forall k' v, has st' k' v <-> has st k' v \/ (k' = k /\ (v = a \/ v = b \/ v = c))).
  { intros k' v. unfold has, st'. cbn [dtris]. split.
    - intros (t' & E & I). destruct (Nat.lt_ge_cases k' k) as [L'|L'].
      + rewrite nth_error_app1 in E by exact L'. eauto.
      + rewrite nth_error_app2 in E by exact L'. destruct (k' - length (dtris st))%nat eqn:D; cbn in E; [|destruct n; discriminate]. injection E as <-. right. split; [unfold k in *; lia|]. apply HT. exact I.
    - intros [(t' & E & I)|[-> I]].
      + exists t'. split; auto. rewrite nth_error_app1; auto. apply nth_error_Some. congruence.
      + exists t. split; [|apply HT; auto]. unfold k. rewrite nth_error_app2 by lia. rewrite Nat.sub_diag. reflexivity. }
  assert (FR : forall v, ~ has st k v).
  { intros v (t' & E & _). assert (k < length (dtris st))%nat by (apply nth_error_Some; congruence). unfold k in *; lia. }
  assert (OD : forall x y, (x < y)%nat -> forall k', In k' (odef m (x, y)) <-> has st k' x /\ has st k' y).
  { intros x y XY k'. unfold odef. destruct (aget m (x, y)) as [w|] eqn:G.
    - apply (cons_get st x y w C) in G. apply (cs_edge st C _ _ _ G).
    - split; [intros []|]. intros [H1 H2]. destruct (cs_all st C k' x y XY H1 H2) as [ts T]. apply (cons_get st x y ts C) in T. unfold m in G. congruence. }
  assert (ODN : forall x y, (x < y)%nat -> NoDup (odef m (x, y))).
  { intros x y XY. unfold odef. destruct (aget m (x, y)) as [w|] eqn:G; [|constructor]. apply (cons_get st x y w C) in G. apply (cs_val st C _ _ _ G). }
  assert (MI : forall x y ts, aget m3 (x, y) = Some ts <-> In ((x, y), ts) m3) by (intros; apply aget_In; auto).
  assert (KX : forall x y ts, In ((x, y), ts) m3 -> (x < y)%nat).
  { intros x y ts J. assert (J' : In (x, y) (map fst m3)) by (apply in_map_iff; exists ((x, y), ts); auto).
    assert (S : (x, y) = makeKey b c \/ (x, y) = makeKey c a \/ (x, y) = makeKey a b \/ In (x, y) (map fst m)).
    { revert J'. unfold m3. pose proof (keys_aset m (makeKey a b) (odef m (makeKey a b) ++ [k]) NK) as [Y1 Y2]. fold m1 in Y1, Y2.
      pose proof (keys_aset m1 (makeKey c a) (odef m1 (makeKey c a) ++ [k]) Y1) as [X1 X2]. fold m2 in X1, X2.
      pose proof (keys_aset m2 (makeKey b c) (odef m2 (makeKey b c) ++ [k]) X1) as [U1 U2]. rewrite U2, X2, Y2. intuition. }
    assert (KO : forall i j, i <> j -> (x, y) = makeKey i j -> (x < y)%nat) by (intros i j NE; unfold makeKey; destruct (Nat.ltb_spec j i); intros [= -> ->]; lia).
    destruct S as [E|[E|[E|E]]]; eauto. apply in_map_iff in E. destruct E as ([e0 w] & E & J0). cbn in E. subst e0. apply (cs_val st C _ _ _ J0). }
  constructor.
  - intros k' t' E. unfold st' in E. cbn [dtris dpts] in *. destruct (Nat.lt_ge_cases k' k) as [L'|L'].
    + rewrite nth_error_app1 in E by exact L'. apply (cs_tri st C _ _ E).
    + rewrite nth_error_app2 in E by exact L'. destruct (k' - length (dtris st))%nat eqn:D; cbn in E; [|destruct n; discriminate]. injection E as <-.
      split; [exact ND|]. intros v Hv. apply HT in Hv. destruct Hv as [->|[->| ->]]; auto.
  - exact NK3.
  - intros x y ts J. pose proof (KX _ _ _ J) as XY. split; [exact XY|]. apply MI in J. destruct (L x y XY) as [(_ & _ & Z)|(_ & Z)]; rewrite Z in J.
    + injection J as <-. split; [destruct (odef m (x, y)); discriminate|].
      apply (Permutation_NoDup (l := k :: odef m (x, y))); [apply Permutation_cons_append|]. constructor; [|apply ODN; auto]. rewrite OD by auto. intros [H _]. exact (FR _ H).
    + apply (cons_get st x y ts C) in J. destruct (cs_val st C _ _ _ J) as (_ & U & V). auto.
  - intros x y ts J k'. pose proof (KX _ _ _ J) as XY. apply MI in J. fold st'. rewrite !HS. destruct (L x y XY) as [(X1 & X2 & Z)|(X1 & Z)]; rewrite Z in J.
    + injection J as <-. rewrite in_app_iff, OD by auto. cbn [In]. split.
      * intros [[H1 H2]|[<-|[]]]; auto.
      * intros [[H1|[-> H1]] [H2|[E2 H2]]]; auto; subst; exfalso; eapply FR; eauto.
    + apply (cons_get st x y ts C) in J. rewrite (cs_edge st C _ _ _ J k'). split; [intros [H1 H2]; auto|].
      intros [[H1|[-> H1]] [H2|[E2 H2]]]; auto; subst; exfalso; try (eapply FR; eauto; fail). auto.
  - intros k' x y XY Hx Hy. fold st' in Hx, Hy. rewrite HS in Hx, Hy. destruct (L x y XY) as [(X1 & X2 & Z)|(X1 & Z)]; [eexists; apply MI; exact Z|].
    assert (H : has st k' x /\ has st k' y).
    { destruct Hx as [H1|[-> H1]], Hy as [H2|[E2 H2]]; auto; subst; exfalso; try (eapply FR; eauto; fail). auto. }
    destruct (cs_all st C k' x y XY (proj1 H) (proj2 H)) as [ts T]. exists ts. apply MI. rewrite Z. apply (cons_get st x y ts C). exact T.
Qed.

Definition visible_from {A : Arith} (ps : list (pt A)) (ip : nat) (e : edge) : bool :=
  match isEdgeVisible ps ip e with Ok b => b | Err _ => false end.
Definition new_edges (ip : nat) (e : edge) : list edge := [(fst e, ip); (ip, snd e)].

Lemma add_fold : forall (A : Arith) ip (L : list edge) (st : dst A) rm ad, consistent st -> (ip < length (dpts st))%nat ->
  (forall a b, In (a, b) L -> a <> b /\ a <> ip /\ b <> ip /\ exists k, has st k a /\ has st k b) ->
  exists st' ts, let vis := filter (visible_from (dpts st) ip) L in
    foldM (addPoint_step ip) L (st, rm, ad) = Ok (st', rm ++ vis, ad ++ flat_map (new_edges ip) vis) /\
    consistent st' /\ dpts st' = dpts st /\ dbnd st' = dbnd st /\ dtris st' = dtris st ++ ts /\
    Forall2 (fun e t => (forall v, In v (tri_list t) <-> v = fst e \/ v = snd e \/ v = ip) /\ makeCounterClockwise (dpts st) (sort3 (fst e) (snd e) ip) = Ok t) vis ts.
Proof.
  intros A ip L. induction L as [|[a b] L IH]; intros st rm ad C LI HL; cbn [foldM filter].
  { exists st, []. cbn. rewrite !app_nil_r. auto 10. }
  destruct (HL a b (or_introl eq_refl)) as (AB & AI & BI & k & Ha & Hb).
  assert (RG : (a < length (dpts st) /\ b < length (dpts st))%nat).
  { destruct Ha as (t & E & I). pose proof (proj2 (cs_tri st C _ _ E)) as R. split; [apply R; exact I|]. apply R. rewrite (has_nth st _ _ _ E) in Hb. exact Hb. }
  destruct RG as [La Lb].
  assert (VV : exists v, isEdgeVisible (dpts st) ip (a, b) = Ok v).
  { unfold isEdgeVisible. cbn [fst snd]. destruct (getArea_ok A (dpts st) ip a b LI La Lb) as [v ->]. cbn [bind]. eauto. }
  destruct VV as [v VV]. unfold addPoint_step at 1. rewrite VV. cbn [bind].
  assert (VF : visible_from (dpts st) ip (a, b) = v) by (unfold visible_from; rewrite VV; reflexivity). rewrite VF. destruct v.
  2:{ cbn [bind]. apply IH; auto. intros; apply HL; cbn; auto. }
  cbn [fst snd]. destruct (ccw_ok A (dpts st) (sort3 a b ip)) as [t T]. { intros v0 I. apply sort3_In in I. destruct I as [->|[->| ->]]; auto. }
  rewrite T. cbn [bind].
  assert (G : exists w, aget (de2t st) (makeKey a b) = Some w).
  { unfold makeKey. destruct (Nat.ltb_spec b a).
    - destruct (cs_all st C k b a) as [ts TT]; auto. exists ts. apply cons_get; auto.
    - destruct (cs_all st C k a b) as [ts TT]; auto; try lia. exists ts. apply cons_get; auto. }
  destruct G as [w G]. rewrite G. cbn [bind].
  destruct (ccw_In A (dpts st) _ _ T) as [T1 T2].
  assert (HT : forall v, In v (tri_list t) <-> v = a \/ v = b \/ v = ip) by (intros v; rewrite T1; apply sort3_In).
  pose proof (add_consistent A st a b ip t (dbnd st) C AB AI BI La Lb LI (T2 (sort3_NoDup a b ip AB AI BI)) HT) as C'. cbn zeta in C'.
  unfold odef in C'. rewrite G in C'. unfold odef in C'.
  set (st1 := mkd (dpts st) (dtris st ++ [t]) _ (dbnd st)) in *.
  match goal with |- context [foldM (addPoint_step ip) L (?s, ?r, ?x)] => change s with st1; destruct (IH st1 r x) as (st' & ts & F & C2 & D1 & D2 & D3 & D4) end.
  - exact C'.
  - exact LI.
  - intros a' b' I. destruct (HL a' b' (or_intror I)) as (X1 & X2 & X3 & k' & Y1 & Y2). do 3 (split; [auto|]). exists k'.
    assert (MN : forall v, has st k' v -> has st1 k' v).
    { intros v0 (t' & E & J). exists t'. split; [|exact J]. unfold st1. cbn [dtris]. rewrite nth_error_app1; auto. apply nth_error_Some. congruence. }
    auto.
  - exists st', (t :: ts). cbn zeta. change (dpts st1) with (dpts st) in *. change (dbnd st1) with (dbnd st) in *. split.
    + rewrite F. cbn [flat_map new_edges fst snd]. rewrite <- !app_assoc. cbn [app]. reflexivity.
    + split; [exact C2|]. split; [exact D1|]. split; [exact D2|]. split; [rewrite D3; unfold st1; cbn [dtris]; rewrite <- app_assoc; reflexivity|].
      constructor; [cbn [fst snd]; auto|exact D4].
Qed.

(*@ C45_insert *)
(** C45: adding the point number ip to a consistent triangulation, each of whose boundary edges belongs to
    a triangle and does not contain ip: it succeeds; for every boundary edge visible from the point, and
    no other, one triangle of this edge and the point is appended; the triangulation is consistent again;
    the new boundary edges are the invisible old ones and those new edges that have one triangle only; no
    visible edge gets two triangles and no boundary edge is listed twice, if none was. *)
Lemma insert_spec : forall (A : Arith) (st : dst A) ip, consistent st -> (ip < length (dpts st))%nat ->
  (forall a b, In (a, b) (dbnd st) -> a <> b /\ a <> ip /\ b <> ip /\ exists k, has st k a /\ has st k b) ->
  let vis e := In e (dbnd st) /\ isEdgeVisible (dpts st) ip e = Ok true in
  exists st' es ts, addPoint_insert st ip = Ok st' /\ consistent st' /\ dpts st' = dpts st /\ dtris st' = dtris st ++ ts /\
    (forall e, In e es <-> vis e) /\ Forall2 (fun e t => forall v, In v (tri_list t) <-> v = fst e \/ v = snd e \/ v = ip) es ts /\
    (forall a b, In (a, b) (dbnd st') <->
       (In (a, b) (dbnd st) /\ ~ vis (a, b)) \/
       ((exists e, vis e /\ ((a = fst e /\ b = ip) \/ (a = ip /\ b = snd e))) /\
        exists k, forall k', has st' k' a /\ has st' k' b <-> k' = k)) /\
    (NoDup (dbnd st) -> NoDup es /\ NoDup (dbnd st')).
Proof.
  intros A st ip C LI HB vis.
  destruct (add_fold A ip (dbnd st) st [] [] C LI HB) as (st' & ts & F & C' & D1 & D2 & D3 & D4). cbn [app] in F.
  set (es := filter (visible_from (dpts st) ip) (dbnd st)) in *.
  assert (HES : forall e, In e es <-> vis e).
  { intros e. unfold es, vis. rewrite filter_In. unfold visible_from. destruct (isEdgeVisible (dpts st) ip e) as [b|]; [destruct b|]; intuition congruence. }
  unfold addPoint_insert. rewrite F. cbn [bind].
  set (b1 := filter (fun e => negb (memb edge_eqb e es)) (dbnd st')).
  assert (MB : forall e l, memb edge_eqb e l = true <-> In e l).
  { intros e l. apply memb_In. exact edge_eqb_iff. }
  assert (HB1 : forall e, In e b1 <-> In e (dbnd st) /\ ~ vis e).
  { intros e. unfold b1. rewrite filter_In, D2, negb_true_iff. rewrite <- HES. pose proof (MB e es) as M. destruct (memb edge_eqb e es); intuition congruence. }
  set (ad := flat_map (new_edges ip) es) in *.
  assert (HAD : forall a b, In (a, b) ad <-> exists e, vis e /\ ((a = fst e /\ b = ip) \/ (a = ip /\ b = snd e))).
  { intros a b. unfold ad. rewrite in_flat_map. split.
    - intros (e & I & J). exists e. split; [apply HES; auto|]. cbn in J. destruct J as [[= <- <-]|[[= <- <-]|[]]]; auto.
    - intros (e & V & [[-> ->]|[-> ->]]); exists e; (split; [apply HES; auto|cbn; auto]). }
  assert (HK : forall a b, In (a, b) ad -> a <> b /\ exists k, has st' k a /\ has st' k b).
  { intros a b I. apply HAD in I. destruct I as (e & V & E). assert (Ie : In e es) by (apply HES; auto).
    destruct e as [x y]. cbn [fst snd] in E. destruct (HB x y (proj1 V)) as (XY & XI & YI & _). split; [intuition congruence|].
    apply In_nth_error in Ie. destruct Ie as [n N].
    assert (TT : exists t, nth_error ts n = Some t /\ forall v, In v (tri_list t) <-> v = x \/ v = y \/ v = ip).
    { clear - D4 N. revert n N. induction D4 as [|e t l l' H D IH]; intros n N; [destruct n; discriminate|]. destruct n as [|n]; cbn in N |- *; [injection N as ->; exists t; split; [auto|apply H]|apply IH; exact N]. }
    destruct TT as (t & N' & HT). exists (length (dtris st) + n)%nat.
    assert (N2 : nth_error (dtris st') (length (dtris st) + n) = Some t).
    { rewrite D3, nth_error_app2 by lia. replace (length (dtris st) + n - length (dtris st))%nat with n by lia. exact N'. }
    rewrite !(has_nth st' _ _ _ N2), !HT. intuition (subst; auto). }
  assert (FB : forall l b0, (forall a b, In (a, b) l -> a <> b /\ exists k, has st' k a /\ has st' k b) ->
    exists b2, foldM (fun b e => match aget (de2t st') (makeKey (fst e) (snd e)) with
                          | None => Err KeyError
                          | Some v => Ok (if Nat.eqb (length v) 1 && negb (memb edge_eqb e b) then b ++ [e] else b)
                          end) l b0 = Ok b2 /\
      (forall a b, In (a, b) b2 <-> In (a, b) b0 \/ (In (a, b) l /\ exists k, forall k', has st' k' a /\ has st' k' b <-> k' = k)) /\
      (NoDup b0 -> NoDup b2)).
  { induction l as [|[a b] l IH]; intros b0 H; cbn [foldM].
    - exists b0. split; [reflexivity|]. split; [|auto]. intros a b. cbn. tauto.
    - destruct (H a b (or_introl eq_refl)) as (AB & k & Ka & Kb). cbn [fst snd].
      assert (G : exists w, aget (de2t st') (makeKey a b) = Some w /\ NoDup w /\ w <> [] /\ forall k', In k' w <-> has st' k' a /\ has st' k' b).
      { unfold makeKey. destruct (Nat.ltb_spec b a).
        - destruct (cs_all st' C' k b a) as [w W]; auto. exists w. split; [apply cons_get; auto|]. destruct (cs_val st' C' _ _ _ W) as (_ & W1 & W2). split; [auto|]. split; [auto|]. intros k'. rewrite (cs_edge st' C' _ _ _ W). tauto.
        - destruct (cs_all st' C' k a b) as [w W]; auto; try lia. exists w. split; [apply cons_get; auto|]. destruct (cs_val st' C' _ _ _ W) as (_ & W1 & W2). split; [auto|]. split; [auto|]. intros k'. rewrite (cs_edge st' C' _ _ _ W). tauto. }
      destruct G as (w & G & W1 & W2 & W3). rewrite G. cbn [bind].
      assert (ONE : (length w = 1)%nat <-> exists k, forall k', has st' k' a /\ has st' k' b <-> k' = k).
      { split.
        - intros L1. destruct w as [|x [|]]; cbn in L1; try lia. exists x. intros k'. rewrite <- W3. cbn. intuition.
        - intros (x & X). destruct w as [|y [|z w]]; [congruence|reflexivity|]. exfalso.
          assert (y = x) by (apply X, W3; cbn; auto). assert (z = x) by (apply X, W3; cbn; auto). subst. inversion W1 as [|? ? Z _]; subst. apply Z. cbn; auto. }
      destruct (IH (if Nat.eqb (length w) 1 && negb (memb edge_eqb (a, b) b0) then b0 ++ [(a, b)] else b0)) as (b2 & F2 & H2 & N2); [intros; apply H; cbn; auto|].
      exists b2. split; [exact F2|]. split.
      2: { intros N0. apply N2. destruct (Nat.eqb (length w) 1); cbn [andb]; [|exact N0]. destruct (memb edge_eqb (a, b) b0) eqn:M; cbn [negb]; [exact N0|].
           apply (Permutation_NoDup (l := (a, b) :: b0)); [apply Permutation_cons_append|]. constructor; [|exact N0]. intros I. apply MB in I. congruence. }
      intros x y. rewrite H2.
      assert (E : In (x, y) (if Nat.eqb (length w) 1 && negb (memb edge_eqb (a, b) b0) then b0 ++ [(a, b)] else b0) <-> In (x, y) b0 \/ ((x, y) = (a, b) /\ exists k, forall k', has st' k' a /\ has st' k' b <-> k' = k)).
      { rewrite <- ONE. destruct (Nat.eqb_spec (length w) 1) as [E|E]; cbn [andb]; [|tauto]. destruct (memb edge_eqb (a, b) b0) eqn:M; cbn [negb].
        - apply MB in M. split; [auto|]. intros [I|[-> _]]; auto.
        - rewrite in_app_iff. cbn. intuition. }
      rewrite E. cbn [In]. split.
      + intros [[I|[[= -> ->] U]]|[I U]]; auto.
      + intros [I|[[[= -> ->]|I] U]]; auto. }
  assert (DD : forall l e, In e (dedup edge_eqb l) <-> In e l).
  { intros l e. apply dedup_In. exact edge_eqb_iff. }
  destruct (FB (dedup edge_eqb ad) b1) as (b2 & FB1 & FB2 & FB3). { intros a b I. apply HK. exact (proj1 (DD _ _) I). }
  change edge with (nat * nat)%type in *. rewrite FB1. cbn [bind].
  exists (mkd (dpts st') (dtris st') (de2t st') b2), es, ts. split; [reflexivity|].
  split; [destruct C' as [c1 c2 c3 c4 c5]; constructor; auto|]. split; [exact D1|]. split; [exact D3|]. split; [exact HES|].
  split. { clear - D4. induction D4 as [|e t l l' [H _] _ IH]; constructor; auto. }
  split. 2: { intros N. split; [apply NoDup_filter; auto|]. cbn [dbnd]. apply FB3. unfold b1. apply NoDup_filter. rewrite D2. exact N. }
  intros a b. cbn [dbnd]. rewrite FB2, HB1, DD, HAD. split; (intros [H|H]; [left; exact H|right; exact H]).
Qed.

Lemma empty_consistent : forall (A : Arith) (ps : list (pt A)), consistent (mkd ps [] [] []).
Proof.
  intros A ps. constructor; cbn [dtris de2t dpts].
  - intros [|k] t E; discriminate.
  - constructor.
  - intros a b ts [].
  - intros a b ts [].
  - intros k a b _ (t & E & _). destruct k; discriminate.
Qed.

(*@ C45_first_triangle *)
(** C45: the triangulation starts with one triangle of the first three points, and is consistent then; its
    edges are the boundary.  With fewer than three points nothing is triangulated. *)
Lemma first_triangle_spec : forall (A : Arith) (ps : list (pt A)),
  ((length ps < 3)%nat -> first_triangle ps = Ok None) /\
  ((3 <= length ps)%nat -> exists st t, first_triangle ps = Ok (Some st) /\ consistent st /\ dpts st = ps /\ dtris st = [t] /\
     (forall v, In v (tri_list t) <-> (v < 3)%nat) /\
     (forall a b, In (a, b) (dbnd st) -> a <> b /\ (a < 3)%nat /\ (b < 3)%nat /\ ~ In (b, a) (dbnd st)) /\
     (forall a b, a <> b -> (a < 3)%nat -> (b < 3)%nat -> In (a, b) (dbnd st) \/ In (b, a) (dbnd st))).
Proof.
  intros A ps. unfold first_triangle. split; intros L.
  { destruct (Nat.leb_spec 3 (length ps)); [lia|reflexivity]. }
  destruct (Nat.leb_spec 3 (length ps)); [|lia].
  destruct (ccw_ok A ps (0, 1, 2)%nat) as [t T]. { cbn. intros v [<-|[<-|[<-|[]]]]; lia. }
  rewrite T. cbn [bind].
  assert (TT : t = (0, 1, 2)%nat \/ t = (0, 2, 1)%nat).
  { unfold makeCounterClockwise in T. destruct (getArea ps 0 1 2); [|discriminate]. cbn [bind] in T. injection T as <-. destruct (nltb _ _); auto. }
  assert (N3 : NoDup [0; 1; 2]%nat /\ NoDup [0; 2; 1]%nat) by (split; repeat constructor; cbn; lia).
  assert (E2 : forall a b c d : nat, (a, b) = (c, d) <-> a = c /\ b = d) by (intros; split; [intros [= -> ->]; auto|intros [-> ->]; auto]).
  destruct TT as [-> | ->].
  - eexists. exists (0, 1, 2)%nat. split; [reflexivity|]. split.
    + pose proof (add_consistent A (mkd ps [] [] []) 1 0 2 (0, 1, 2)%nat [(0, 1); (1, 2); (2, 0)]%nat (empty_consistent A ps)) as C. cbn in C. apply C; try lia; try apply N3.
    + do 2 (split; [reflexivity|]). cbn [dbnd tri_list In]. split; [intros v; lia|]. split; intros a b; rewrite !E2; lia.
  - eexists. exists (0, 2, 1)%nat. split; [reflexivity|]. split.
    + pose proof (add_consistent A (mkd ps [] [] []) 2 0 1 (0, 2, 1)%nat [(0, 2); (2, 1); (1, 0)]%nat (empty_consistent A ps)) as C. cbn in C. apply C; try lia; try apply N3.
    + do 2 (split; [reflexivity|]). cbn [dbnd tri_list In]. split; [intros v; lia|]. split; intros a b; rewrite !E2; lia.
Qed.

Definition ex_pts : list (pt RA) := [@mkpt RA 0%R 0%R; @mkpt RA 5%R 0%R; @mkpt RA 2%R 1%R; @mkpt RA 2%R (-1)%R].
Definition ex_st : dst RA := @mkd RA ex_pts [(0, 1, 2)%nat; (0, 3, 1)%nat]
  [((0, 1)%nat, [0%nat; 1%nat]); ((1, 2)%nat, [0%nat]); ((0, 2)%nat, [0%nat]); ((0, 3)%nat, [1%nat]); ((1, 3)%nat, [1%nat])] [].

(*@ex C45_example *)
(** The hypotheses of the theorems about a flip hold for the quadrilateral (0,0), (2,-1), (5,0), (2,1) with
    the edge (0,0)-(5,0), which is flipped. *)
Lemma flip_example :
  consistent ex_st /\ Forall stored (dpts ex_st) /\ In ((0, 1)%nat, [0%nat; 1%nat]) (de2t ex_st) /\
  has ex_st 0 2 /\ has ex_st 1 3 /\
  (orient (@mkpt RA 0%R 0%R) (@mkpt RA 5%R 0%R) (@mkpt RA 2%R 1%R) * orient (@mkpt RA 0%R 0%R) (@mkpt RA 5%R 0%R) (@mkpt RA 2%R (-1)%R) < 0)%R /\
  exists st' r, flipOneEdge ex_st (0, 1)%nat = Ok (st', r) /\ r <> [] /\ dtris st' = [(2, 0, 3)%nat; (2, 3, 1)%nat].
Proof.
  assert (N3 : NoDup [0; 1; 2]%nat /\ NoDup [0; 3; 1]%nat) by (split; repeat constructor; cbn; lia).
  assert (C1 : consistent (@mkd RA ex_pts [(0, 1, 2)%nat] [((0, 1)%nat, [0%nat]); ((1, 2)%nat, [0%nat]); ((0, 2)%nat, [0%nat])] [])).
  { pose proof (add_consistent RA (mkd ex_pts [] [] []) 1 0 2 (0, 1, 2)%nat [] (empty_consistent RA ex_pts)) as C. cbn in C. apply C; try lia; apply N3. }
  assert (C : consistent ex_st).
  { pose proof (add_consistent RA _ 0 1 3 (0, 3, 1)%nat [] C1) as C. cbn in C. apply C; try lia; apply N3. }
  assert (SS : Forall stored (dpts ex_st)).
  { assert (Z : forall n : Z, exists k, IZR n = (IZR k / 10 ^ 8)%R).
    { intros n. exists (n * 100000000)%Z. rewrite mult_IZR. field. }
    repeat constructor; cbn [px py]; apply Z. }
  split; [exact C|]. split; [exact SS|]. split; [cbn; auto|].
  assert (H0 : has ex_st 0 2) by (exists (0, 1, 2)%nat; cbn; auto). assert (H1 : has ex_st 1 3) by (exists (0, 3, 1)%nat; cbn; auto).
  split; [exact H0|]. split; [exact H1|]. split; [unfold orient; cbn [px py]; lra|].
  assert (T : delaunay_test ex_pts 2 3 (0, 1)%nat = Ok true).
  { assert (ST : forall k p, nth_error ex_pts k = Some p -> stored p) by (intros k p E; apply nth_error_In in E; rewrite Forall_forall in SS; auto).
    rewrite (test_true ex_pts 2 3 0 1 (@mkpt RA 0%R 0%R) (@mkpt RA 5%R 0%R) (@mkpt RA 2%R 1%R) (@mkpt RA 2%R (-1)%R)) by first [reflexivity | apply (ST 0%nat); reflexivity | apply (ST 1%nat); reflexivity | apply (ST 2%nat); reflexivity | apply (ST 3%nat); reflexivity].
    f_equal. unfold orient, dot. cbn [px py].
    replace ((5 - 0) * (1 - 0) - (0 - 0) * (2 - 0))%R with 5%R by ring. replace (- ((5 - 0) * (-1 - 0) - (0 - 0) * (2 - 0)))%R with 5%R by ring.
    replace ((0 - 2) * (5 - 2) + (0 - 1) * (0 - 1))%R with (-5)%R by ring. replace ((0 - 2) * (5 - 2) + (0 - -1) * (0 - -1))%R with (-5)%R by ring.
    unfold Ratan2. destruct (Rlt_dec 0 (-5)) as [X|_]; [lra|]. destruct (Rlt_dec (-5) 0) as [_|X]; [|lra]. destruct (Rle_dec 0 5) as [_|X]; [|lra].
    replace (5 / -5)%R with (- (1))%R by field. rewrite atan_opp, atan_1. pose proof PI_RGT_0 as PP. rewrite Rabs_right by lra.
    unfold Rltb. destruct (Rlt_dec _ _) as [_|X]; [reflexivity|]. exfalso. apply X. lra. }
  eexists. eexists. split; [|split; [|]].
  - unfold flipOneEdge. cbn [de2t ex_st aget edge_eqb fst snd Nat.eqb andb dtris get nth_error bind opposite tri_list filter negb orb last_opt last dpts].
    rewrite T. cbn. reflexivity.
  - discriminate.
  - reflexivity.
Qed.

Lemma flip_keeps : forall (A : Arith) (st st' : dst A) e r, flipOneEdge st e = Ok (st', r) ->
  dpts st' = dpts st /\ dbnd st' = dbnd st /\ length (dtris st') = length (dtris st).
Proof.
  intros A st st' e r H. apply flip_inv in H. destruct H as [[-> _]|H]; [auto|].
  destruct H as (t1 & t2 & tri1 & tri2 & o1 & o2 & v1 & v2 & _ & _ & _ & _ & _ & _ & _ & _ & -> & _). cbn [dpts dbnd dtris]. rewrite !tset_length. auto.
Qed.

(*@ C45_flips_keep *)
(** C45: whatever the order in which edges are looked at and however many rounds it takes, flipping
    changes neither the points nor the boundary nor the number of triangles; adding a point keeps the
    points and loses no triangle. *)
Lemma flips_keep : forall (A : Arith) fuel ord (st st' : dst A),
  (flipEdges fuel ord st = Ok (Some st') -> dpts st' = dpts st /\ dbnd st' = dbnd st /\ length (dtris st') = length (dtris st)) /\
  (forall ip, consistent st -> (ip < length (dpts st))%nat ->
     (forall a b, In (a, b) (dbnd st) -> a <> b /\ a <> ip /\ b <> ip /\ exists k, has st k a /\ has st k b) ->
     addPoint fuel ord st ip = Ok (Some st') -> dpts st' = dpts st /\
       exists es, (forall e, In e es <-> In e (dbnd st) /\ isEdgeVisible (dpts st) ip e = Ok true) /\
         length (dtris st') = (length (dtris st) + length es)%nat).
Proof.
  intros A fuel ord.
  assert (R : forall L (st st' : dst A) acc acc', foldM (fun '(st, acc) e => '(st', r) <- flipOneEdge st e ;; Ok (st', dedup edge_eqb (acc ++ r))) L (st, acc) = Ok (st', acc') ->
            dpts st' = dpts st /\ dbnd st' = dbnd st /\ length (dtris st') = length (dtris st)).
  { induction L as [|e L IH]; intros st st' acc acc' H; cbn [foldM] in H.
    - injection H as -> _. auto.
    - destruct (flipOneEdge st e) as [[st1 r]|] eqn:E; [|discriminate]. cbn [bind] in H. apply flip_keeps in E. apply IH in H. intuition congruence. }
  assert (K : forall f es (st st' : dst A), flip_loop f ord st es = Ok (Some st') -> dpts st' = dpts st /\ dbnd st' = dbnd st /\ length (dtris st') = length (dtris st)).
  { induction f as [|f IH]; intros es st st' H; cbn [flip_loop] in H; [discriminate|].
    destruct (flip_round ord st es) as [[st1 es1]|] eqn:E; [|discriminate]. cbn [bind] in H. apply R in E.
    destruct es1 as [|e1 es1]; [injection H as ->; exact E|]. apply IH in H. intuition congruence. }
  intros st st'. split; [apply K|]. intros ip C LI HB H. unfold addPoint in H.
  destruct (insert_spec A st ip C LI HB) as (st1 & es & ts & E & _ & D1 & D3 & HE & F2 & _). rewrite E in H. cbn [bind] in H.
  apply K in H. destruct H as (X1 & X2 & X3). split; [congruence|]. exists es. split; [exact HE|].
  rewrite X3, D3, app_length. f_equal. clear - F2. induction F2; cbn; auto.
Qed.
