(** A standing vessel that a plate divides into two rooms. *)
From Coq Require Import String Reals ZArith Lra Lia Bool List Psatz Permutation Arith Classical.
From Verif Require Import Base Arith ArithR ArithF MPoint MLine MPoly MHeap MVessel MTri MGroup MCycles MBase MContain MRaum MRooms
  Spec SpecGroup SpecLoops SpecBase SpecRooms SpecRing SpecHeap SpecStack SpecPlate PPoint PLine PConvex POrder PGroup PComponent PLoops POneRoom PPlainLoop PStack.
From Verif Require PWalk PEndless PBase.
Import ListNotations.
Local Open Scope list_scope.
Local Open Scope R_scope.
#[local] Existing Instance RA.

(** * The loops of a cycle with one more segment across it *)
Lemma seg_dec : forall s t : seg RA, {s = t} + {s <> t}.
Proof.
  intros [c a b] [c' a' b']. destruct (pt_dec a a') as [->|N]; [|right; congruence]. destruct (pt_dec b b') as [->|N]; [|right; congruence].
  destruct c, c'; try (left; reflexivity); right; congruence.
Qed.
Definition inb (l : list (seg RA)) (x : seg RA) : bool := if in_dec seg_dec x l then true else false.
Lemma inb_iff : forall l x, inb l x = true <-> In x l.
Proof. intros l x. unfold inb. destruct (in_dec seg_dec x l); split; auto; discriminate. Qed.

Lemma incident_app : forall l m p, incident (l ++ m) p = (incident l p + incident m p)%nat.
Proof. intros l m p. unfold incident. rewrite filter_app, app_length. reflexivity. Qed.
Lemma incident_perm : forall l m p, Permutation l m -> incident l p = incident m p.
Proof. intros l m p P. unfold incident. apply Permutation_length, PWalk.perm_filter, P. Qed.
Lemma incident_filter : forall f l p, (incident (filter f l) p <= incident l p)%nat.
Proof.
  intros f l p. unfold incident. induction l as [|x l IH]; [simpl; lia|]. cbn [filter].
  destruct (f x); cbn [filter]; destruct (if pt_dec (si x) p then true else if pt_dec (sj x) p then true else false); cbn [length]; lia.
Qed.
Lemma incident_xor : forall f h l p, Nat.Even (incident (filter f l) p) -> Nat.Even (incident (filter h l) p) ->
  Nat.Even (incident (filter (fun x => xorb (f x) (h x)) l) p).
Proof.
  intros f h l p. rewrite <- !Nat.even_spec. 
  assert (Q : Nat.even (incident (filter (fun x => xorb (f x) (h x)) l) p) = negb (xorb (Nat.even (incident (filter f l) p)) (Nat.even (incident (filter h l) p)))).
  { unfold incident. induction l as [|x l IH]; [reflexivity|]. cbn [filter].
    destruct (f x), (h x); cbn [xorb filter]; destruct (if pt_dec (si x) p then true else if pt_dec (sj x) p then true else false); cbn [length]; rewrite ?Nat.even_succ, <- ?Nat.negb_even, IH;
      destruct (Nat.even (length (filter _ (filter f l)))), (Nat.even (length (filter _ (filter h l)))); reflexivity. }
  rewrite Q. intros -> ->. reflexivity.
Qed.
Lemma incident_in : forall l p, (forall s, In s l -> si s <> sj s) -> In p (flat_map ij l) <-> incident l p <> 0%nat.
Proof.
  intros l p NZ. unfold incident. split.
  - intros I E. apply in_flat_map in I as (s & Is & Ip). apply length_zero_iff_nil in E.
    assert (X : In s (filter (fun s => if pt_dec (si s) p then true else if pt_dec (sj s) p then true else false) l)).
    { apply filter_In. split; auto. destruct (pt_dec (si s) p); auto. destruct (pt_dec (sj s) p); auto. destruct Ip as [E1|[E1|[]]]; contradiction. }
    rewrite E in X. destruct X.
  - intros N. destruct (filter _ l) as [|s r] eqn:E; [exfalso; apply N; reflexivity|]. assert (X : In s (s :: r)) by (left; auto). rewrite <- E in X.
    apply filter_In in X as [Is F]. apply in_flat_map. exists s. split; auto. destruct (pt_dec (si s) p) as [<-|]; [left; auto|]. destruct (pt_dec (sj s) p) as [<-|]; [right; left; auto|discriminate].
Qed.
(** at every point of a ring two segments meet, elsewhere none *)
Lemma ring_two : forall g p, ring g -> (length g < 250)%nat -> incident g p = 0%nat \/ incident g p = 2%nat.
Proof.
  intros g p RG LB. pose proof (ring_simple g RG LB) as (_ & NZ & _). destruct (Nat.eq_dec (incident g p) 0) as [E|N]; auto. right.
  apply (incident_in g p NZ) in N. rewrite filter_two by auto. apply (proj1 (twice_iff g) (ring_twice g RG LB) p N).
Qed.
Lemma simple_nodup : forall g, simple_graph g -> NoDup g.
Proof.
  intros g (_ & _ & SI). apply NoDup_nth_error. intros i j Li E. destruct (nth_error g i) as [s|] eqn:Ei; [|apply nth_error_None in Ei; lia].
  apply (SI i j s s); auto.
Qed.
Lemma loop_even : forall g w p, simple_graph g -> loop_in g w -> incident w p = 0%nat \/ incident w p = 2%nat.
Proof.
  intros g w p (_ & NZ & _) L. destruct (loop_ids g w L) as (c & us & _ & C & <-).
  assert (NZ' : forall s, In s (value g c) -> si s <> sj s) by (intros s I; apply NZ; eapply in_value; eauto).
  destruct (Nat.eq_dec (incident (value g c) p) 0) as [E|N]; auto. right. apply (incident_in _ p NZ') in N. rewrite filter_two by auto.
  apply (proj1 (twice_iff _) (cyc_twice g us c C NZ') p N).
Qed.
Lemma loop_nodup : forall g w, simple_graph g -> loop_in g w -> NoDup w.
Proof.
  intros g w SG L. destruct (loop_ids g w L) as (c & us & IC & (_ & _ & ND & R & _) & <-).
  apply NoDup_nth_error. intros i j Li E. rewrite value_length in Li by auto.
  destruct (nth_error c i) as [k|] eqn:Ei; [|apply nth_error_None in Ei; lia]. rewrite (value_nth _ g c R i k Ei) in E.
  assert (KG : (k < length g)%nat) by (apply R; eapply nth_error_In; eauto).
  destruct (nth_error g k) as [s|] eqn:Ek; [|apply nth_error_None in Ek; lia]. symmetry in E.
  assert (Lj : (j < length c)%nat) by (rewrite <- (value_length _ g c R); apply nth_error_Some; congruence).
  destruct (nth_error c j) as [m|] eqn:Ej; [|apply nth_error_None in Ej; lia]. rewrite (value_nth _ g c R j m Ej) in E.
  assert (k = m) by (destruct SG as (_ & _ & SI); apply (SI k m s s); auto). subst m.
  apply (proj1 (NoDup_nth_error c) ND); [lia|congruence].
Qed.
Lemma loop_incl : forall g w, loop_in g w -> incl w g.
Proof. intros g w (vs & _ & _ & _ & I). exact I. Qed.
Lemma same_rearranged : forall w g : list (seg RA), NoDup w -> NoDup g -> (forall x, In x w <-> In x g) -> rearranged w g.
Proof.
  intros w g NW NG E. exists w. split; [apply NoDup_Permutation; auto|]. clear. induction w; constructor; auto.
Qed.

(** a part of a ring in which the segments meet in pairs is nothing or everything *)
Lemma even_part : forall g f, ring g -> (length g < 250)%nat -> (forall p, Nat.Even (incident (filter f g) p)) ->
  (forall x, In x g -> f x = false) \/ (forall x, In x g -> f x = true).
Proof.
  intros g f RG LB EV. pose proof (ring_simple g RG LB) as SG. pose proof (simple_nodup g SG) as ND.
  destruct (filter f g) as [|d D] eqn:ED.
  { left. intros x I. destruct (f x) eqn:F; auto. assert (X : In x (filter f g)) by (apply filter_In; auto). rewrite ED in X. destruct X. }
  right. rewrite <- ED in EV. set (ids := filter (fun k => match nth_error g k with Some x => f x | None => false end) (seq 0 (length g))).
  assert (VI : value g ids = filter f g).
  { unfold ids. assert (G : forall pre post, g = pre ++ post -> value g (filter (fun k => match nth_error g k with Some x => f x | None => false end) (seq (length pre) (length post))) = filter f post).
    { intros pre post. revert pre. induction post as [|x post IH]; intros pre E; [reflexivity|]. cbn [length seq filter].
      assert (EN : nth_error g (length pre) = Some x) by (rewrite E, nth_error_app2, Nat.sub_diag by lia; reflexivity). rewrite EN.
      specialize (IH (pre ++ [x])). rewrite app_length in IH. cbn [length] in IH. rewrite Nat.add_1_r in IH.
      assert (E' : g = (pre ++ [x]) ++ post) by (rewrite <- app_assoc; exact E). specialize (IH E').
      destruct (f x); [|exact IH]. unfold value in *. cbn [flat_map]. unfold obj at 1. rewrite EN. cbn [app]. f_equal. exact IH. }
    apply (G [] g eq_refl). }
  assert (II : incl ids (seq 0 (length g))) by (intros k K; apply filter_In in K; apply K).
  assert (NI : NoDup ids) by (apply NoDup_filter, seq_NoDup).
  assert (NZ : forall s, In s (filter f g) -> si s <> sj s) by (intros s I; apply filter_In in I; apply SG; apply I).
  destruct (twice_loop g SG LB ids NI II) as (us & ids' & IS & C).
  { intros E. rewrite E in VI. rewrite ED in VI. discriminate. }
  { rewrite VI. apply twice_iff. intros p I. rewrite <- filter_two by auto. apply (incident_in _ p NZ) in I.
    pose proof (incident_filter f g p). destruct (ring_two g p RG LB) as [Z|Z]; [lia|]. destruct (EV p) as (m & M). lia. }
  pose proof (ring_only g _ RG LB (cyc_loop g us ids' C)) as R.
  pose proof (loop_incl _ _ (cyc_loop g us ids' C)) as IN. pose proof (loop_nodup g _ SG (cyc_loop g us ids' C)) as NV.
  assert (LE : length (value g ids') = length g).
  { destruct R as (g' & P & F). rewrite (Forall2_len _ _ _ _ _ F). apply Permutation_length, P. }
  intros x I. assert (X : In x (value g ids')) by (exact (NoDup_length_incl NV (Nat.eq_le_incl _ _ (eq_sym LE)) IN x I)).
  apply in_value_iff in X as (k & K & Ek). apply IS in K. assert (Y : In x (value g ids)) by (apply in_value_iff; exists k; auto).
  rewrite VI in Y. apply filter_In in Y. apply Y.
Qed.

(** the segment s across a ring: the loops are the ring and its two parts closed by s *)
Section Across.
Variables (s : seg RA) (p r g : list (seg RA)).
Hypotheses (R1 : ring (s :: p)) (R2 : ring (s :: r)) (R3 : ring (p ++ r)) (LB : (length p + length r < 249)%nat) (PG : Permutation g (s :: p ++ r)).

Lemma across_simple : simple_graph g.
Proof.
  pose proof (ring_simple _ R1 ltac:(simpl; lia)) as (S1 & N1 & I1). pose proof (ring_simple _ R2 ltac:(simpl; lia)) as (S2 & N2 & I2).
  pose proof (ring_simple (p ++ r) R3 ltac:(rewrite app_length; lia)) as (S3 & N3 & I3).
  assert (IN : forall x, In x g -> x = s \/ In x (p ++ r)) by (intros x X; apply (Permutation_in _ PG) in X; destruct X as [<-|X]; auto).
  assert (SE : forall q, In q (ij s) -> In q (flat_map ij (p ++ r))).
  { intros q Q. assert (Z := ring_two (s :: p) q R1 ltac:(simpl; lia)). 
    assert (X : incident (s :: p) q <> 0%nat) by (apply incident_in; auto; cbn [flat_map]; apply in_or_app; auto).
    change (s :: p) with ([s] ++ p) in X, Z. rewrite incident_app in X, Z.
    assert (O : (incident [s] q <= 1)%nat) by (unfold incident; cbn [filter]; destruct (if pt_dec (si s) q then true else _); simpl; lia).
    rewrite flat_map_app. apply in_or_app. left. apply incident_in; [intros t T; apply N1; right; auto|lia]. }
  assert (FL : forall q, In q (flat_map ij g) -> In q (flat_map ij (p ++ r))).
  { intros q Q. apply in_flat_map in Q as (x & X & Q). destruct (IN x X) as [->|Y]; [apply SE; auto|]. apply in_flat_map. exists x. auto. }
  split; [|split].
  - intros a b A B. apply S3; auto.
  - intros x X. destruct (IN x X) as [->|Y]; [apply N1; left; auto|apply N3; auto].
  - assert (ND : forall x y, In x (s :: p ++ r) -> In y (s :: p ++ r) -> same_ends x y -> x = y).
    { assert (AP : forall l x y, simple_graph l -> In x l -> In y l -> same_ends x y -> x = y).
      { intros l x y (_ & _ & SI) X Y E. apply In_nth_error in X as [i Ei]. apply In_nth_error in Y as [j Ej]. assert (i = j) by (apply (SI i j x y); auto). congruence. }
      assert (SP : forall x y, In x (s :: p) -> In y (s :: p) -> same_ends x y -> x = y) by (intros x y; apply AP; split; auto).
      assert (SR : forall x y, In x (s :: r) -> In y (s :: r) -> same_ends x y -> x = y) by (intros x y; apply AP; split; auto).
      assert (SA : forall x y, In x (p ++ r) -> In y (p ++ r) -> same_ends x y -> x = y) by (intros x y; apply AP; split; auto).
      intros x y [<-|X] [<-|Y] E; auto.
      - apply in_app_iff in Y as [Y|Y]; [apply SP|apply SR]; auto; simpl; auto.
      - apply in_app_iff in X as [X|X]; [apply SP|apply SR]; auto; simpl; auto. }
    assert (NG : NoDup g).
    { apply (Permutation_NoDup (Permutation_sym PG)). constructor; [|apply simple_nodup; split; auto].
      intros X. apply in_app_iff in X as [X|X].
      - pose proof (simple_nodup (s :: p) (conj S1 (conj N1 I1))) as Q. inversion Q; auto.
      - pose proof (simple_nodup (s :: r) (conj S2 (conj N2 I2))) as Q. inversion Q; auto. }
    intros i j x y Ei Ej E. assert (x = y) by (apply ND; auto; apply (Permutation_in _ PG); eapply nth_error_In; eauto). subst y.
    apply (proj1 (NoDup_nth_error g) NG); [apply nth_error_Some; congruence|congruence].
Qed.

Lemma across_loops : forall w, loop_in g w -> rearranged w (s :: p) \/ rearranged w (s :: r) \/ rearranged w (p ++ r).
Proof.
  intros w L. pose proof across_simple as SG. pose proof (simple_nodup g SG) as NG. pose proof (loop_nodup g w SG L) as NW. pose proof (loop_incl g w L) as IW.
  assert (NSG : NoDup (s :: p ++ r)) by (apply (Permutation_NoDup PG); auto).
  assert (NPR : NoDup (p ++ r)) by (inversion NSG; auto). assert (SPR : ~ In s (p ++ r)) by (inversion NSG; auto).
  assert (IG : forall x, In x g <-> x = s \/ In x p \/ In x r).
  { intros x. split; intros X; [apply (Permutation_in _ PG) in X|apply (Permutation_in _ (Permutation_sym PG))]; simpl in *; rewrite ?in_app_iff in *; intuition. }
  assert (DIS : forall x, In x p -> In x r -> False).
  { intros x X Y. clear - NPR X Y. induction p as [|y q IH]; [destruct X|]. cbn [app] in NPR. inversion NPR; subst. destruct X as [->|X]; [apply H1, in_or_app; auto|auto]. }
  assert (FW : forall q, incident (filter (inb w) (s :: p ++ r)) q = incident w q).
  { intros q. apply incident_perm. apply NoDup_Permutation; auto; [apply NoDup_filter; auto|]. intros x. rewrite filter_In, inb_iff. split; [tauto|]. intros X. split; auto. apply (Permutation_in _ PG). auto. }
  assert (EW : forall q, Nat.Even (incident w q)) by (intros q; destruct (loop_even g w q SG L) as [-> | ->]; [exists 0%nat|exists 1%nat]; lia).
  destruct (in_dec seg_dec s w) as [Is|Ns].
  - (* with s: compare with s :: p *)
    assert (FP : forall q, incident (filter (inb (s :: p)) (s :: p ++ r)) q = incident (s :: p) q).
    { intros q. apply incident_perm. apply NoDup_Permutation; [apply NoDup_filter; auto|apply simple_nodup, ring_simple; auto; simpl; lia|].
      intros x. rewrite filter_In, inb_iff. split; [tauto|]. intros X. split; auto. destruct X as [->|X]; [left; auto|right; apply in_or_app; auto]. }
    assert (EP : forall q, Nat.Even (incident (s :: p) q)) by (intros q; destruct (ring_two (s :: p) q R1) as [-> | ->]; [simpl; lia|exists 0%nat; lia|exists 1%nat; lia]).
    set (f := fun x => xorb (inb w x) (inb (s :: p) x)).
    assert (FS : f s = false) by (unfold f; rewrite (proj2 (inb_iff w s) Is), (proj2 (inb_iff (s :: p) s) (or_introl eq_refl)); reflexivity).
    assert (EV : forall q, Nat.Even (incident (filter f (p ++ r)) q)).
    { intros q. replace (filter f (p ++ r)) with (filter f (s :: p ++ r)) by (cbn [filter]; rewrite FS; reflexivity). apply incident_xor; [rewrite FW|rewrite FP]; auto. }
    destruct (even_part (p ++ r) f R3 ltac:(rewrite app_length; lia) EV) as [H|H].
    + left. apply same_rearranged; auto; [apply simple_nodup, ring_simple; auto; simpl; lia|]. intros x. rewrite <- (inb_iff w x), <- (inb_iff (s :: p) x).
      destruct (seg_dec x s) as [->|N]; [rewrite !inb_iff; simpl; tauto|].
      destruct (in_dec seg_dec x (p ++ r)) as [X|X]; [specialize (H x X); unfold f in H; destruct (inb w x), (inb (s :: p) x); simpl in H; try discriminate; tauto|].
      rewrite !inb_iff. split; intros Y; exfalso; apply X, in_or_app; [apply IW, IG in Y; tauto|destruct Y; [congruence|tauto]].
    + right. left. apply same_rearranged; auto; [apply simple_nodup, ring_simple; auto; simpl; lia|]. intros x. destruct (seg_dec x s) as [->|N]; [simpl; tauto|].
      split; intros X.
      * destruct (proj1 (IG x) (IW x X)) as [E|[E|E]]; [congruence| |right; auto]. specialize (H x (in_or_app _ _ _ (or_introl E))). unfold f in H.
        rewrite (proj2 (inb_iff w x) X), (proj2 (inb_iff (s :: p) x) (or_intror E)) in H. discriminate.
      * destruct X as [E|E]; [congruence|]. specialize (H x (in_or_app _ _ _ (or_intror E))). unfold f in H.
        destruct (inb (s :: p) x) eqn:B; [apply inb_iff in B; destruct B as [B|B]; [congruence|exfalso; eapply DIS; eauto]|]. apply inb_iff. destruct (inb w x); auto.
  - right. right. destruct L as (vs & V1 & V2 & V3 & V4). apply ring_only; auto; [rewrite app_length; lia|]. exists vs. repeat (split; auto).
    intros x X. destruct (proj1 (IG x) (IW x X)) as [E|E]; [congruence|]. apply in_or_app. auto.
Qed.
End Across.

(** * The vessel *)
Lemma shells_app : forall x0 l1 l2 a, shells x0 a (l1 ++ l2) = shells x0 a l1 ++ shells x0 (last l1 a) l2.
Proof. intros x0 l1 l2. induction l1 as [|b l1 IH]; intros a; [reflexivity|]. cbn [app shells]. rewrite IH, last_cons. reflexivity. Qed.
Lemma last_app2 : forall X (l1 l2 : list X) a, last (l1 ++ l2) a = last l2 (last l1 a).
Proof. intros X l1 l2. induction l1 as [|b l1 IH]; intros a; [reflexivity|]. cbn [app]. rewrite !last_cons. apply IH. Qed.
Lemma rising_app : forall l1 l2 a, rising a (l1 ++ l2) -> rising a l1 /\ rising (last l1 a) l2.
Proof. intros l1 l2. induction l1 as [|b l1 IH]; intros a H; [split; simpl; auto|]. destruct H as [H1 H2]. destruct (IH b H2). rewrite last_cons. split; [split|]; auto. Qed.
Lemma ring_perm : forall g g', Permutation g g' -> ring g -> ring g'.
Proof. intros g g' P (vs & cy & H1 & H2 & H3 & H4 & H5). exists vs, cy. repeat (split; auto). rewrite <- P. exact H5. Qed.
Lemma uncrossed_perm : forall g g', Permutation g g' -> uncrossed g -> uncrossed g'.
Proof. intros g g' P U s t Is It. apply U; apply (Permutation_in _ (Permutation_sym P)); auto. Qed.
Lemma rearranged_perm2 : forall w W V : list (seg RA), rearranged w W -> Permutation W V -> rearranged w V.
Proof. intros w W V (g' & P & F) Q. exists g'. split; auto. rewrite P. exact Q. Qed.

Lemma plate_split_at : forall x0 bot top a l1 l2, measured x0 (a :: l1 ++ l2) -> rising a (l1 ++ l2) -> l1 <> [] -> l2 <> [] -> (length (l1 ++ l2) <= 60)%nat ->
  let m := last l1 a in let s := Wall (corner x0 false m) (corner x0 true m) in
  let p := closed_by x0 bot false a ++ concat (shells x0 a l1) in let r := closed_by x0 top true (last l2 m) ++ concat (shells x0 m l2) in
    (forall up, closed_by x0 Flat up m = [s]) /\ Permutation (below_plate x0 bot a l1) (s :: p) /\ Permutation (above_plate x0 top a l1 l2) (s :: r) /\ Permutation (around_both x0 bot top a l1 l2) (p ++ r) /\ Permutation (concat (plated_parts x0 bot top a l1 l2)) (s :: p ++ r) /\ ring (s :: p) /\ ring (s :: r) /\ ring (p ++ r) /\ uncrossed (s :: p) /\ uncrossed (s :: r) /\ uncrossed (p ++ r) /\ (length p + length r < 124 + 1)%nat.
Proof.
  intros x0 bot top a l1 l2 M RI N1 N2 LL m s p r. rewrite app_length in LL. destruct (rising_app _ _ _ RI) as [RI1 RI2]. fold m in RI2.
  assert (Im : In m (a :: l1)) by apply last_in.
  assert (M1 : measured x0 (a :: l1)) by (destruct M as [D M]; split; auto; intros u U; apply M; cbn [In] in *; rewrite in_app_iff; tauto).
  assert (M2 : measured x0 (m :: l2)).
  { destruct M as [D M]. split; auto. intros u U. apply M. cbn [In] in *. rewrite in_app_iff. destruct U as [<-|U]; tauto. }
  assert (M3 : measured x0 (a :: (l1 ++ l2))) by exact M.
  assert (Dm : decimal8 (fst m) /\ decimal8 (snd m / 2)) by (destruct M1 as [_ M1]; destruct (M1 m Im) as (X & Y & _); auto).
  assert (D0 : decimal8 x0) by apply M. destruct Dm as [Dm1 Dm2].
  assert (FL : forall up, closed_by x0 Flat up m = [s]) by (intros up; apply flat_eq; auto).
  assert (P1 : Permutation (below_plate x0 bot a l1) (s :: p)).
  { unfold below_plate, standing_parts. fold m. rewrite FL. cbn [concat app]. symmetry. apply (Permutation_middle (closed_by x0 bot false a) (concat (shells x0 a l1)) s). }
  assert (P2 : Permutation (above_plate x0 top a l1 l2) (s :: r)).
  { unfold above_plate, standing_parts. fold m. rewrite FL. cbn [concat]. reflexivity. }
  assert (P3 : Permutation (around_both x0 bot top a l1 l2) (p ++ r)).
  { unfold around_both, standing_parts, p, r. cbn [concat]. rewrite last_app2. fold m. rewrite shells_app, concat_app. fold m. rewrite <- !app_assoc. apply Permutation_app_head.
    rewrite !app_assoc. apply Permutation_app_tail, Permutation_app_comm. }
  assert (NE : l1 ++ l2 <> []) by (intros E; apply app_eq_nil in E; tauto).
  destruct (standing_ring x0 bot Flat a l1 _ M1 RI1 N1 ltac:(lia) (Permutation_refl _)) as (G1 & U1 & _ & _ & L1).
  destruct (standing_ring x0 Flat top m l2 _ M2 RI2 N2 ltac:(lia) (Permutation_refl _)) as (G2 & U2 & _ & _ & L2).
  destruct (standing_ring x0 bot top a (l1 ++ l2) _ M3 RI NE ltac:(rewrite app_length; lia) (Permutation_refl _)) as (G3 & U3 & _ & _ & L3).
  split; [exact FL|]. do 3 (split; [assumption|]). split.
  { unfold plated_parts. fold m. rewrite FL. cbn [concat app]. constructor. exact P3. }
  split; [exact (ring_perm _ _ P1 G1)|]. split; [exact (ring_perm _ _ P2 G2)|]. split; [exact (ring_perm _ _ P3 G3)|].
  split; [exact (uncrossed_perm _ _ P1 U1)|]. split; [exact (uncrossed_perm _ _ P2 U2)|]. split; [exact (uncrossed_perm _ _ P3 U3)|].
  assert (E : length (around_both x0 bot top a l1 l2) = length (p ++ r)) by (apply Permutation_length, P3). rewrite app_length in E. unfold around_both in E. rewrite app_length in L3. lia.
Qed.
Lemma plate_split : forall x0 bot top a l1 l2, measured x0 (a :: l1 ++ l2) -> rising a (l1 ++ l2) -> l1 <> [] -> l2 <> [] -> (length (l1 ++ l2) <= 60)%nat ->
  exists s p r, Permutation (below_plate x0 bot a l1) (s :: p) /\ Permutation (above_plate x0 top a l1 l2) (s :: r) /\ Permutation (around_both x0 bot top a l1 l2) (p ++ r) /\
    Permutation (concat (plated_parts x0 bot top a l1 l2)) (s :: p ++ r) /\ ring (s :: p) /\ ring (s :: r) /\ ring (p ++ r) /\
    uncrossed (s :: p) /\ uncrossed (s :: r) /\ uncrossed (p ++ r) /\ (length p + length r < 124 + 1)%nat.
Proof. intros x0 bot top a l1 l2 M RI N1 N2 LL. destruct (plate_split_at x0 bot top a l1 l2 M RI N1 N2 LL) as [_ Q]. eexists _, _, _. exact Q. Qed.
Lemma ring_loop : forall g W V, ring W -> Permutation V W -> incl W g -> exists w, loop_in g w /\ rearranged w V.
Proof.
  intros g W V (vs & cy & H1 & H2 & H3 & H4 & H5) PV I. exists cy. split.
  - exists vs. repeat (split; auto). intros x X. apply I, (Permutation_in _ (Permutation_sym H5)). auto.
  - exists cy. split; [rewrite PV; symmetry; exact H5|]. clear. induction cy; constructor; auto.
Qed.
Lemma uncrossed_rearranged : forall w W : list (seg RA), rearranged w W -> uncrossed W -> uncrossed w.
Proof.
  intros w W (g' & P & F) U s t Is It. assert (Q : forall x, In x w -> exists y, In y W /\ turned x y).
  { intros x X. apply In_nth_error in X as [k K]. destruct (Forall2_nth_l _ _ _ _ _ F k x K) as (y & Y & T). exists y. split; [|exact T]. apply (Permutation_in _ P). eapply nth_error_In; eauto. }
  destruct (Q s Is) as (s' & Is' & Ts). destruct (Q t It) as (t' & It' & Tt). rewrite (ios_turned s' s t' t Ts Tt). apply U; auto.
Qed.

(*@ C99_loops *)
(** C99: a standing vessel (up to 60 shells, flat ends or heads) with a flat plate between two of its levels
    has exactly three loops: the walls of the room below the plate, those of the room above it, and those
    around both; none of them crosses itself. *)
Lemma plate_loops : forall x0 bot top a l1 l2 (g : list (seg RA)),
  measured x0 (a :: l1 ++ l2) -> rising a (l1 ++ l2) -> l1 <> [] -> l2 <> [] -> (length (l1 ++ l2) <= 60)%nat ->
  Permutation g (concat (plated_parts x0 bot top a l1 l2)) ->
  let one_of w := rearranged w (below_plate x0 bot a l1) \/ rearranged w (above_plate x0 top a l1 l2) \/ rearranged w (around_both x0 bot top a l1 l2) in
  (forall w, loop_in g w -> one_of w) /\
  (forall W, In W [below_plate x0 bot a l1; above_plate x0 top a l1 l2; around_both x0 bot top a l1 l2] -> exists w, loop_in g w /\ uncrossed w /\ rearranged w W).
Proof.
  intros x0 bot top a l1 l2 g M RI N1 N2 LL PG one_of.
  destruct (plate_split x0 bot top a l1 l2 M RI N1 N2 LL) as (s & p & r & P1 & P2 & P3 & P4 & R1 & R2 & R3 & U1 & U2 & U3 & LE).
  assert (PG' : Permutation g (s :: p ++ r)) by (rewrite PG; exact P4). split.
  - intros w L. unfold one_of. destruct (across_loops s p r g R1 R2 R3 ltac:(lia) PG' w L) as [H|[H|H]];
      [left; apply (rearranged_perm2 _ _ _ H); symmetry; exact P1|right; left; apply (rearranged_perm2 _ _ _ H); symmetry; exact P2|right; right; apply (rearranged_perm2 _ _ _ H); symmetry; exact P3].
  - assert (IN : forall x, In x (s :: p ++ r) -> In x g) by (intros x; apply Permutation_in; symmetry; exact PG').
    assert (GO : forall W V, ring W -> uncrossed W -> Permutation V W -> incl W g -> exists w, loop_in g w /\ uncrossed w /\ rearranged w V).
    { intros W V RW UW PV I. destruct (ring_loop g W V RW PV I) as (w & L & RR). exists w. split; auto. split; auto.
      apply (uncrossed_rearranged w V RR). apply (uncrossed_perm W V); auto. symmetry. exact PV. }
    intros W [<-|[<-|[<-|[]]]]; [apply (GO (s :: p))|apply (GO (s :: r))|apply (GO (p ++ r))]; auto; intros x X; apply IN; simpl in *; rewrite ?in_app_iff in *; tauto.
Qed.

(*@ C99_all_found *)
(** C99: when walking along the walls finds no loop first, find_loops reports both rooms and the outline of
    the vessel, and nothing else, for every order of the walls and every order in which Python visits a set. *)
Lemma plate_found : forall x0 bot top a l1 l2 (g : list (seg RA)) (schs : nat -> sched RA) wf fuel,
  measured x0 (a :: l1 ++ l2) -> rising a (l1 ++ l2) -> l1 <> [] -> l2 <> [] -> (length (l1 ++ l2) <= 60)%nat ->
  Permutation g (concat (plated_parts x0 bot top a l1 l2)) ->
  walk_segments (schs fuel) wf g None = Ok NoLoop ->
  let loops := [below_plate x0 bot a l1; above_plate x0 top a l1 l2; around_both x0 bot top a l1 l2] in
  exists cs h, find_loops schs wf fuel g = Ok (Some (cs, h)) /\
    (forall W, In W loops -> exists c, In c cs /\ rearranged (value h c) W) /\
    (forall c, In c cs -> exists W, In W loops /\ rearranged (value h c) W).
Proof.
  intros x0 bot top a l1 l2 g schs wf fuel M RI N1 N2 LL PG EW loops.
  destruct (plate_split x0 bot top a l1 l2 M RI N1 N2 LL) as (s & p & r & _ & _ & _ & P4 & R1 & R2 & R3 & _ & _ & _ & LE).
  assert (PG' : Permutation g (s :: p ++ r)) by (rewrite PG; exact P4).
  assert (SG : simple_graph g) by (apply (across_simple s p r g); auto; lia).
  assert (BIG : (length g < 250)%nat) by (rewrite (Permutation_length PG'); simpl; rewrite app_length; lia).
  destruct (plate_loops x0 bot top a l1 l2 g M RI N1 N2 LL PG) as [LO1 LO2].
  destruct (no_loop_missed schs wf fuel g SG BIG EW) as (cs & h & E & F1 & F2). exists cs, h. split; auto. split.
  - intros W IW. destruct (LO2 W IW) as (w & L & U & RR). destruct (F1 w L U) as (c & Ic & Rc). exists c. split; auto. eapply PBase.rearranged_trans; eauto.
  - intros c Ic. destruct (F2 c Ic) as (l & L & _ & Rc). destruct (LO1 l L) as [H|[H|H]]; eexists; (split; [|eapply PBase.rearranged_trans; eauto]); unfold loops; simpl; auto.
Qed.

(*@ C99_in_general *)
(** C99: in general, when find_loops ends, it reports at least one loop; every result is one of the two rooms
    or the outline, unless it was found by walking (then it consists of copies of walls), and a room is only
    missing if a result that was found by walking uses one of its walls. *)
Lemma plate_general : forall x0 bot top a l1 l2 (g : list (seg RA)) (schs : nat -> sched RA) wf fuel cs h,
  measured x0 (a :: l1 ++ l2) -> rising a (l1 ++ l2) -> l1 <> [] -> l2 <> [] -> (length (l1 ++ l2) <= 60)%nat ->
  Permutation g (concat (plated_parts x0 bot top a l1 l2)) -> (forall k, fair (schs k)) ->
  find_loops schs wf fuel g = Ok (Some (cs, h)) ->
  let loops := [below_plate x0 bot a l1; above_plate x0 top a l1 l2; around_both x0 bot top a l1 l2] in
  let walked c := forall k, In k c -> (length g <= k)%nat in
  cs <> [] /\
  (forall c, In c cs -> walked c \/ exists W, In W loops /\ rearranged (value h c) W) /\
  (forall W, In W loops -> (exists c, In c cs /\ rearranged (value h c) W) \/
     (exists c s t, In c cs /\ walked c /\ In s (value h c) /\ In t W /\ ((si s = si t /\ sj s = sj t) \/ (si s = sj t /\ sj s = si t)))).
Proof.
  intros x0 bot top a l1 l2 g schs wf fuel cs h M RI N1 N2 LL PG FS E loops walked.
  destruct (plate_split x0 bot top a l1 l2 M RI N1 N2 LL) as (s & p & r & _ & _ & _ & P4 & R1 & R2 & R3 & _ & _ & _ & LE).
  assert (PG' : Permutation g (s :: p ++ r)) by (rewrite PG; exact P4).
  assert (SG : simple_graph g) by (apply (across_simple s p r g); auto; lia).
  assert (BIG : (length g < 250)%nat) by (rewrite (Permutation_length PG'); simpl; rewrite app_length; lia).
  destruct (plate_loops x0 bot top a l1 l2 g M RI N1 N2 LL PG) as [LO1 LO2].
  assert (THIRD : forall W, In W loops -> (exists c, In c cs /\ rearranged (value h c) W) \/
     (exists c s t, In c cs /\ walked c /\ In s (value h c) /\ In t W /\ ((si s = si t /\ sj s = sj t) \/ (si s = sj t /\ sj s = si t)))).
  { intros W IW. destruct (LO2 W IW) as (w & L & U & RR).
    destruct (missed_only_shared schs wf fuel g cs h FS SG BIG E w L U) as [(c & Ic & Rc)|(c & s1 & t & Ic & Wc & Is & It & EQ)].
    - left. exists c. split; auto. eapply PBase.rearranged_trans; eauto.
    - right. destruct RR as (w' & Pw & Fw). apply In_nth_error in It as [k K]. destruct (Forall2_nth_l _ _ _ _ _ Fw k t K) as (t' & T' & TT).
      exists c, s1, t'. do 3 (split; auto). split; [apply (Permutation_in _ Pw); eapply nth_error_In; eauto|].
      destruct TT as [-> | ->]; destruct t' as [q u v]; simpl in *; tauto. }
  split; [|split; [|exact THIRD]].
  { intros Z. rewrite Z in THIRD. destruct (THIRD _ (or_introl eq_refl)) as [(c & [] & _)|(c & s1 & t & [] & _)]. }
  intros c Ic. unfold find_loops in E.
  destruct (walk_rounds schs wf fuel (mkl g (seq 0 (length g)) [])) as [[st|]|] eqn:EW; try discriminate. cbn [bind] in E.
  pose proof (walk_state g schs wf SG FS fuel _ st (start_state g) EW) as WS.
  destruct (combs_after g st SG BIG WS) as (st' & E' & T & IC & OR & FO).
  rewrite E' in E. cbn [bind] in E. injection E as <- <-. apply (proj1 (sort_In c _)) in Ic.
  destruct (OR c Ic) as [I0|(us & I & C & UN & R')].
  - left. destruct WS as (_ & _ & _ & CI & _). exact (proj2 (CI c I0)).
  - right. destruct (LO1 _ (cyc_loop g us c C)) as [H|[H|H]]; eexists; (split; [|eapply PBase.rearranged_trans; eauto]); unfold loops; simpl; auto.
Qed.

(*@ex C99_example *)
(** C99: a cylinder with a cone on it, a plate between them, a head at the bottom and a flat end at the top. *)
Lemma plate_example : measured 1 ((0, 2) :: [(5, 2)] ++ [(7, 1)]) /\ rising (0, 2) ([(5, 2)] ++ [(7, 1)]) /\
  map (@length (seg RA)) (plated_parts 1 Dome Flat (0, 2) [(5, 2)] [(7, 1)]) = [1; 2; 1; 2; 2]%nat.
Proof. destruct standing_example as (X1 & X2 & _). split; [exact X1|]. split; [exact X2|reflexivity]. Qed.

(** * Findings *)
Definition by_tables {A : Arith} (ids : list nat) (t : nat -> list nat) : sched A :=
  mksched (fun _ => PEndless.first_ids ids) (fun _ l => PEndless.picked (t (length l)) l).
Lemma by_tables_fair : forall (A : Arith) ids t, (forall n, Permutation (t n) (seq 0 n)) -> fair (by_tables (A := A) ids t).
Proof. intros A ids t T. split; intros k l; simpl; [apply PEndless.first_ids_perm|apply PEndless.picked_perm, T]. Qed.
(** Orders in which CPython 3.11 visits the set of the segments passed, by its size. *)
Definition visits (n : nat) : list nat := (match n with 4 => [0; 3; 1; 2] | 5 => [1; 3; 2; 4; 0] | _ => seq 0 n end)%nat.
Lemma visits_perm : forall n, Permutation (visits n) (seq 0 n).
Proof. intros n. do 6 (destruct n as [|n]; [first [reflexivity|apply NoDup_Permutation_bis; [repeat constructor; simpl; lia|simpl; lia|intros k; simpl; lia]]|]). reflexivity. Qed.
Definition visits2 (n : nat) : list nat := (match n with 2 => [1; 0] | 3 => [1; 0; 2] | 4 => [3; 1; 0; 2] | _ => seq 0 n end)%nat.
Lemma visits2_perm : forall n, Permutation (visits2 n) (seq 0 n).
Proof. intros n. do 5 (destruct n as [|n]; [first [reflexivity|apply NoDup_Permutation_bis; [repeat constructor; simpl; lia|simpl; lia|intros k; simpl; lia]]|]). reflexivity. Qed.
Lemma ends_at : forall (L : Libm) (v : list (seg (FA L))) (y : num), neqb y y = true ->
  existsb (fun t => neqb (py (si t)) y || neqb (py (sj t)) y) v = false -> ~ exists t, In t v /\ (py (si t) = y \/ py (sj t) = y).
Proof.
  intros L v y Y E (t & I & H). rewrite <- not_true_iff_false in E. apply E, existsb_exists. exists t. split; auto. apply orb_true_iff.
  destruct H as [-> | ->]; auto.
Qed.

(*@ C99_room_lost_refuted *)
(** C99, finding (binary64): a cylinder from 1 m to 5 m with a plate at 3 m.  There is an order of its walls
    and an order in which Python can visit the sets (it is the one of CPython 3.11) with which find_loops
    reports one room only, the upper one: none of the walls reported reaches down to 1 m. *)
Lemma plate_room_lost : forall L : Libm,
  let z k : @num (FA L) := nofZ k in
  let end_at h := flachboden_segments (A := FA L) (z h) (z 2%Z) (z 4%Z) in
  let shell_at h := wall_segments (mantel_segments (A := FA L) (z h) (z 2%Z) (z 4%Z) (z 4%Z) (z 2%Z)) in
  exists g sch c h, Permutation g (concat [end_at 1; end_at 5; end_at 3; shell_at 1; shell_at 3]%Z) /\ fair sch /\
    find_loops (fun _ => sch) 20 5 g = Ok (Some ([c], h)) /\ ~ exists t, In t (value h c) /\ (py (si t) = z 1%Z \/ py (sj t) = z 1%Z).
Proof.
  intros L z end_at shell_at. set (v := concat [end_at 1; end_at 5; end_at 3; shell_at 1; shell_at 3]%Z).
  set (g := PEndless.picked [2; 1; 3; 5; 6; 0; 4]%nat v). set (sch := by_tables (A := FA L) [1; 2; 3; 4; 5; 6; 0]%nat visits).
  assert (H : match find_loops (fun _ => sch) 20 5 g with
    | Ok (Some ([c], h)) => negb (existsb (fun t => neqb (py (si t)) (z 1%Z) || neqb (py (sj t)) (z 1%Z)) (value h c)) | _ => false end = true) by (vm_compute; reflexivity).
  destruct (find_loops (fun _ => sch) 20 5 g) as [[[[|c [|c' cs]] h]|]|] eqn:E; try discriminate H.
  exists g, sch, c, h. split; [apply PEndless.picked_perm; apply NoDup_Permutation_bis; [repeat constructor; simpl; lia|simpl; lia|intros k; simpl; lia]|].
  split; [apply by_tables_fair, visits_perm|]. split; [exact E|]. apply ends_at; [vm_compute; reflexivity|]. apply negb_true_iff in H. exact H.
Qed.

(*@ C99_overlap_refuted *)
(** C99, finding (binary64): a cylinder from 0 m to 6 m with a plate at 4 m.  There is an order of its walls
    with which find_loops reports two loops, but not the two rooms: both of them reach down to 0 m (they are
    the lower room and the outline of the vessel). *)
Lemma plate_overlap : forall L : Libm,
  let z k : @num (FA L) := nofZ k in
  let end_at h := flachboden_segments (A := FA L) (z h) (z 0%Z) (z 2%Z) in
  let shell_at h k := wall_segments (mantel_segments (A := FA L) (z h) (z 0%Z) (z 2%Z) (z 2%Z) (z k)) in
  exists g sch c d h, Permutation g (concat [end_at 0; end_at 6; end_at 4; shell_at 0 4; shell_at 4 2]%Z) /\ fair sch /\
    find_loops (fun _ => sch) 20 5 g = Ok (Some ([c; d], h)) /\
    (exists t, In t (value h c) /\ neqb (py (si t)) (z 0%Z) = true) /\ (exists t, In t (value h d) /\ neqb (py (si t)) (z 0%Z) = true).
Proof.
  intros L z end_at shell_at. set (v := concat [end_at 0; end_at 6; end_at 4; shell_at 0 4; shell_at 4 2]%Z).
  set (g := PEndless.picked [2; 6; 0; 5; 3; 4; 1]%nat v). set (sch := PWalk.plain_sched (FA L)).
  assert (H : match find_loops (fun _ => sch) 20 5 g with
    | Ok (Some ([c; d], h)) => existsb (fun t => neqb (py (si t)) (z 0%Z)) (value h c) && existsb (fun t => neqb (py (si t)) (z 0%Z)) (value h d) | _ => false end = true) by (vm_compute; reflexivity).
  destruct (find_loops (fun _ => sch) 20 5 g) as [[[[|c [|d [|c' cs]]] h]|]|] eqn:E; try discriminate H.
  exists g, sch, c, d, h. split; [apply PEndless.picked_perm; apply NoDup_Permutation_bis; [repeat constructor; simpl; lia|simpl; lia|intros k; simpl; lia]|].
  split; [apply PWalk.plain_fair|]. split; [exact E|]. apply andb_true_iff in H as [H1 H2]. split; apply existsb_exists; assumption.
Qed.

(*@ex C99_three_example *)
(** C99: with the walls in the order of the parts, walking finds no loop first and all three are reported. *)
Lemma plate_three : forall L : Libm,
  let z k : @num (FA L) := nofZ k in
  let end_at h := flachboden_segments (A := FA L) (z h) (z 0%Z) (z 2%Z) in
  let shell_at h k := wall_segments (mantel_segments (A := FA L) (z h) (z 0%Z) (z 2%Z) (z 2%Z) (z k)) in
  let g := concat [end_at 0; end_at 6; end_at 4; shell_at 0 4; shell_at 4 2]%Z in
  walk_segments (PWalk.plain_sched (FA L)) 20 g None = Ok NoLoop /\
  exists c d e h, find_loops (fun _ => PWalk.plain_sched (FA L)) 20 5 g = Ok (Some ([c; d; e], h)) /\ length c = 4%nat /\ length d = 4%nat /\ length e = 6%nat.
Proof.
  intros L z end_at shell_at g. split.
  { assert (H : match walk_segments (PWalk.plain_sched (FA L)) 20 g None with Ok NoLoop => true | _ => false end = true) by (vm_compute; reflexivity).
    destruct (walk_segments (PWalk.plain_sched (FA L)) 20 g None) as [[]|]; try discriminate H. reflexivity. }
  assert (H : match find_loops (fun _ => PWalk.plain_sched (FA L)) 20 5 g with
    | Ok (Some ([c; d; e], h)) => Nat.eqb (length c) 4 && Nat.eqb (length d) 4 && Nat.eqb (length e) 6 | _ => false end = true) by (vm_compute; reflexivity).
  destruct (find_loops (fun _ => PWalk.plain_sched (FA L)) 20 5 g) as [[[[|c [|d [|e [|c' cs]]]] h]|]|] eqn:E; try discriminate H.
  apply andb_true_iff in H as [H H3]. apply andb_true_iff in H as [H1 H2]. apply Nat.eqb_eq in H1, H2, H3. exists c, d, e, h. auto.
Qed.

(*@ C46_false_loop_refuted *)
(** C46, finding (binary64): three segments in a row, with no loop at all.  There is an order in which Python
    can visit the sets (it is the one of CPython 3.11) with which find_loops reports a "loop": one of the
    segments, there and back. *)
Lemma false_loop : forall L : Libm,
  let g := map (fun '(a, b, c, d) => LineSegment (Point_new (nofZ a) (nofZ b)) (Point_new (nofZ c) (nofZ d)) : seg (FA L))
    [(2, 0, 4, 0); (1, 9, 4, 0); (2, 0, 6, 8)]%Z in
  exists sch c h s t, fair sch /\ find_loops (fun _ => sch) 20 5 g = Ok (Some ([c], h)) /\ value h c = [s; t] /\
    pt_eqb (si s) (sj t) = true /\ pt_eqb (sj s) (si t) = true.
Proof.
  intros L g. set (sch := by_tables (A := FA L) [2; 0; 1]%nat visits2).
  assert (H : match find_loops (fun _ => sch) 20 5 g with
    | Ok (Some ([c], h)) => match value h c with [s; t] => pt_eqb (si s) (sj t) && pt_eqb (sj s) (si t) | _ => false end | _ => false end = true) by (vm_compute; reflexivity).
  destruct (find_loops (fun _ => sch) 20 5 g) as [[[[|c [|c' cs]] h]|]|] eqn:E; try discriminate H.
  destruct (value h c) as [|s [|t [|? ?]]] eqn:V; try discriminate H. apply andb_true_iff in H as [H1 H2].
  exists sch, c, h, s, t. split; [apply by_tables_fair, visits2_perm|]. repeat (split; auto).
Qed.
