(** Relations between triangles: congruent, enclosed, overlap, touch, disjunct. *)
From Coq Require Import Reals ZArith Lra Lia Bool List Psatz Permutation Sorted.
From Verif Require Import Base Arith ArithR ArithF MPoint MLine MPoly MTri Spec SpecInside SpecTri
  PPoint PLine PShape PPoly PCommon PConvex POrder PMore PInside PTri PSplit PCorner PCollinear PEar PEar2 PArea.
Import ListNotations.
Local Open Scope R_scope.
#[local] Existing Instance RA.

(** * The sides of a triangle *)
Lemma sides_of : forall (s : list (seg RA)) a b c, polygon_of [a; b; c] s ->
  exists s1 s2 s3, Permutation s [s1; s2; s3] /\ joins (a, b) s1 /\ joins (b, c) s2 /\ joins (c, a) s3.
Proof.
  intros s a b c (l & P & F). cbn in F. inversion F as [|? s1 ? l1 J1 F1]; subst. inversion F1 as [|? s2 ? l2 J2 F2]; subst.
  inversion F2 as [|? s3 ? l3 J3 F3]; subst. inversion F3; subst. exists s1, s2, s3. auto.
Qed.
Lemma on_joins : forall (a b : pt RA) s q, joins (a, b) s -> on_segment (si s) (sj s) q -> on_segment a b q.
Proof.
  intros a b s q [[E1 E2]|[E1 E2]]; cbn in E1, E2; rewrite E1, E2; auto.
  intros (l & L & ->). exists (1 - l). split; [lra|]. unfold along. f_equal; ring.
Qed.
Lemma two_sides : forall (a b c q q' : pt RA), on_segment a b q -> on_segment a b q' -> on_segment b c q -> on_segment b c q' -> q <> q' -> orient a b c = 0.
Proof.
  intros a b c q q' (l & _ & E1) (l' & _ & E2) (m & _ & E3) (m' & _ & E4) N.
  assert (NL : l - l' <> 0) by (intros K; apply N; subst; f_equal; replace l with l' by lra; reflexivity).
  assert (NM : m - m' <> 0) by (intros K; apply N; rewrite E3, E4; replace m with m' by lra; reflexivity).
  assert (X : (l - l') * (px b - px a) = (m - m') * (px c - px b)).
  { pose proof (f_equal px E1) as A1. pose proof (f_equal px E2) as A2. rewrite E3 in A1. rewrite E4 in A2. unfold along in A1, A2. cbn [px] in A1, A2. lra. }
  assert (Y : (l - l') * (py b - py a) = (m - m') * (py c - py b)).
  { pose proof (f_equal py E1) as A1. pose proof (f_equal py E2) as A2. rewrite E3 in A1. rewrite E4 in A2. unfold along in A1, A2. cbn [py] in A1, A2. lra. }
  assert (K : (l - l') * (m - m') * orient a b c = 0).
  { unfold orient. replace ((l - l') * (m - m') * _) with (((l - l') * (px b - px a)) * ((m - m') * (py c - py b)) - ((l - l') * (py b - py a)) * ((m - m') * (px c - px b))) by ring.
    rewrite X, Y. ring. }
  apply Rmult_integral in K as [K|K]; auto. exfalso. apply Rmult_integral in K as [K|K]; auto.
Qed.
Lemma sides_share : forall (s : list (seg RA)) a b c x x', polygon_of [a; b; c] s -> orient a b c <> 0 -> In x s -> In x' s ->
  share_length x x' -> x = x'.
Proof.
  intros s a b c x x' PO O I I' (q & q' & N & [A1 A2] & [B1 B2]). destruct (sides_of s a b c PO) as (s1 & s2 & s3 & P & J1 & J2 & J3).
  apply (Permutation_in _ P) in I. apply (Permutation_in _ P) in I'.
  assert (O2 : orient b c a <> 0) by (intros K; apply O; unfold orient in *; lra).
  assert (O3 : orient c a b <> 0) by (intros K; apply O; unfold orient in *; lra).
  destruct I as [<-|[<-|[<-|[]]]]; destruct I' as [<-|[<-|[<-|[]]]]; auto; exfalso.
  - apply O. apply (two_sides a b c q q'); auto; eapply on_joins; eauto.
  - apply O3. apply (two_sides c a b q q'); auto; eapply on_joins; eauto.
  - apply O. apply (two_sides a b c q q'); auto; eapply on_joins; eauto.
  - apply O2. apply (two_sides b c a q q'); auto; eapply on_joins; eauto.
  - apply O3. apply (two_sides c a b q q'); auto; eapply on_joins; eauto.
  - apply O2. apply (two_sides b c a q q'); auto; eapply on_joins; eauto.
Qed.
Lemma on_ends : forall a b : pt RA, on_segment a b a /\ on_segment a b b.
Proof.
  intros [ax ay] [bx by_]. split; [exists 0|exists 1]; (split; [lra|]); unfold along; cbn [px py]; f_equal; rring.
Qed.
Lemma corners_differ : forall a b c : pt RA, orient a b c <> 0 -> NoDup [a; b; c].
Proof.
  intros a b c O. assert (a <> b /\ b <> c /\ a <> c) as (D1 & D2 & D3).
  { split; [|split]; intros ->; apply O; unfold orient; ring. }
  repeat constructor; cbn; intuition congruence.
Qed.
Lemma side_ok : forall (s : list (seg RA)) a b c x, grid_triangle s a b c -> In x s ->
  lattice 2000 (si x) /\ lattice 2000 (sj x) /\ si x <> sj x /\ sc x = CLineSegment.
Proof.
  intros s a b c x (PO & SC & LA & O) I. rewrite Forall_forall in *. pose proof (corners_differ _ _ _ O) as ND.
  destruct (sides_of s a b c PO) as (s1 & s2 & s3 & P & J1 & J2 & J3). specialize (SC _ I). apply (Permutation_in _ P) in I.
  assert (a <> b /\ b <> c /\ c <> a) as (D1 & D2 & D3).
  { inversion ND as [|? ? N1 ND1]; subst. inversion ND1 as [|? ? N2 _]; subst. cbn in *. intuition congruence. }
  assert (LL : lattice 2000 a /\ lattice 2000 b /\ lattice 2000 c) by (repeat split; apply LA; cbn; auto). destruct LL as (LA1 & LB1 & LC1).
  destruct I as [<-|[<-|[<-|[]]]].
  - destruct J1 as [[E1 E2]|[E1 E2]]; cbn in E1, E2; rewrite E1, E2; auto.
  - destruct J2 as [[E1 E2]|[E1 E2]]; cbn in E1, E2; rewrite E1, E2; auto.
  - destruct J3 as [[E1 E2]|[E1 E2]]; cbn in E1, E2; rewrite E1, E2; auto.
Qed.
Lemma sides_NoDup : forall (s : list (seg RA)) a b c, polygon_of [a; b; c] s -> orient a b c <> 0 -> NoDup s.
Proof.
  intros s a b c PO O. pose proof (corners_differ _ _ _ O) as ND. destruct (sides_of s a b c PO) as (s1 & s2 & s3 & P & J1 & J2 & J3).
  apply (Permutation_NoDup (Permutation_sym P)).
  assert (a <> b /\ b <> c /\ c <> a) as (D1 & D2 & D3).
  { inversion ND as [|? ? N1 ND1]; subst. inversion ND1 as [|? ? N2 _]; subst. cbn in *. intuition congruence. }
  assert (s1 <> s2 /\ s2 <> s3 /\ s1 <> s3) as (K1 & K2 & K3).
  { split; [|split]; intros ->; unfold joins in *; cbn in *; intuition congruence. }
  repeat constructor; cbn; intuition congruence.
Qed.

(** * Pairs of sides *)
Lemma seg_pair_iff : forall p q : seg RA * seg RA, seg_pair_eqb p q = true <-> p = q.
Proof.
  intros [a b] [c d]. unfold seg_pair_eqb. cbn. rewrite andb_true_iff, !seg_sameb_iff. split; [intros [-> ->]; auto|intros H; injection H as -> ->; auto].
Qed.
Lemma pairs_fold : forall (l : list (seg RA * seg RA)) acc, NoDup acc ->
  let r := fold_left (fun ps p => if memb seg_pair_eqb p ps || memb seg_pair_eqb (snd p, fst p) ps then ps else ps ++ [p]) l acc in
  NoDup r /\ (forall p, In p r -> In p acc \/ In p l) /\ (forall p, In p acc -> In p r) /\ (forall p, In p l -> In p r \/ In (snd p, fst p) r).
Proof.
  induction l as [|p l IH]; intros acc ND; [cbn; intuition|]. cbn [fold_left].
  destruct (memb seg_pair_eqb p acc || memb seg_pair_eqb (snd p, fst p) acc) eqn:E.
  - destruct (IH acc ND) as (H1 & H2 & H3 & H4). split; auto. split; [|split; auto].
    + intros q I. destruct (H2 q I); cbn; auto.
    + intros q [<-|I]; auto. apply orb_prop in E as [E|E]; apply (memb_In _ _ seg_pair_iff) in E; auto.
  - apply orb_false_iff in E as [E1 E2]. assert (NI : ~ In p acc) by (intros K; apply (memb_In _ _ seg_pair_iff) in K; congruence).
    destruct (IH (acc ++ [p])) as (H1 & H2 & H3 & H4).
    { apply Permutation_NoDup with (p :: acc); [apply Permutation_cons_append|constructor; auto]. }
    split; auto. split; [|split].
    + intros q I. destruct (H2 q I) as [K|K]; cbn; auto. apply in_app_iff in K as [K|[<-|[]]]; auto.
    + intros q I. apply H3, in_or_app. auto.
    + intros q [<-|I]; auto. left. apply H3, in_or_app. cbn. auto.
Qed.
Lemma tri_pairs_spec : forall s t : list (seg RA), NoDup (tri_pairs s t) /\
  (forall x y, In (x, y) (tri_pairs s t) -> In x s /\ In y t) /\
  (forall x y, In x s -> In y t -> In (x, y) (tri_pairs s t) \/ In (y, x) (tri_pairs s t)).
Proof.
  intros s t. unfold tri_pairs. set (l := flat_map _ s).
  assert (LI : forall x y, In (x, y) l <-> In x s /\ In y t).
  { intros x y. unfold l. rewrite in_flat_map. split.
    - intros (z & I & J). apply in_map_iff in J as (w & E & J). injection E as -> ->. auto.
    - intros [I J]. exists x. split; auto. apply in_map_iff. eauto. }
  destruct (pairs_fold l [] (NoDup_nil _)) as (H1 & H2 & _ & H4). split; auto. split.
  - intros x y I. destruct (H2 _ I) as [[]|K]. apply LI; auto.
  - intros x y I J. apply (H4 (x, y)), LI. auto.
Qed.

(** * The class of the common part *)
Lemma common_class : forall (x y : seg RA) u, sc x = CLineSegment -> sc y = CLineSegment -> common_part x y = Ok (Some (CSeg u)) -> sc u = CLineSegment.
Proof.
  intros x y u X Y. unfold common_part. destruct (is_parallel x y).
  2:{ destruct (intersection_point x y) as [ip|]; cbn [bind]; [|discriminate]. destruct (intersection_on_segment x y); cbn [bind]; [|discriminate].
      destruct (_ || _); [|discriminate]. destruct ip; cbn; discriminate. }
  destruct (is_collinear x y) as [col|]; cbn [bind]; [|discriminate]. destruct col; [|discriminate].
  destruct (seg_loose_equal x y) eqn:LE; [intros H; injection H as <-; auto|].
  destruct (MLine.overlap x y) as [[b r]|] eqn:OV; cbn [bind snd]; [|discriminate]. intros H. injection H as ->.
  revert OV. unfold MLine.overlap. destruct (negb (is_parallel x y)); [discriminate|]. destruct (is_collinear x y) as [c2|]; cbn [bind]; [|discriminate].
  destruct (negb c2); [discriminate|]. destruct (_ && negb (touch x y)); [discriminate|]. rewrite LE. destruct (touch x y).
  - destruct (set_inter _ _ _) as [|cp [|? ?]]; try discriminate. destruct (get _ 0); cbn [bind]; [|discriminate]. destruct (get _ 1); cbn [bind]; [|discriminate].
    destruct (_ =? _)%num; [|discriminate]. destruct (_ <? _)%num; intros H; injection H as _ <-; reflexivity.
  - destruct (forallb _ _); [intros H; injection H as _ <-; auto|]. destruct (forallb _ _); [intros H; injection H as _ <-; auto|].
    destruct (by_origin _) as [|p [|q [|? ?]]]; try discriminate. intros H; injection H as _ <-; reflexivity.
Qed.
Lemma common_share : forall (x y : seg RA) r, is_common_part x y r -> ((exists u, r = Some (CSeg u)) <-> share_length x y).
Proof.
  intros x y r H. split.
  - intros (u & ->). destruct H as [N E]. exists (si u), (sj u). destruct (on_ends (si u) (sj u)). split; auto. split; apply E; auto.
  - intros (q & q' & N & S1 & S2). destruct r as [[p|u|l]|]; cbn in H; [|eauto|contradiction|exfalso; eapply H; eauto].
    destruct H as (z & _ & E). exfalso. apply N. apply E in S1. apply E in S2. congruence.
Qed.

Lemma meet_sym : forall x y q, meet_at x y q -> meet_at y x q.
Proof. intros x y q H q'. specialize (H q'). unfold shared in *. tauto. Qed.
Lemma share_sym : forall x y, share_length x y -> share_length y x.
Proof. intros x y (q & q' & N & [A B] & [C D]). exists q, q'. split; auto. split; split; auto. Qed.
Lemma mapM_map : forall X Y (f : X -> res Y) (g : X -> Y) l, (forall x, In x l -> f x = Ok (g x)) -> mapM f l = Ok (map g l).
Proof.
  intros X Y f g l. induction l as [|x l IH]; intros H; [reflexivity|]. cbn. rewrite H by (cbn; auto). cbn.
  rewrite IH by (intros; apply H; cbn; auto). reflexivity.
Qed.
Lemma filterM_filter : forall X (f : X -> res bool) (g : X -> bool) l, (forall x, In x l -> f x = Ok (g x)) -> filterM f l = Ok (filter g l).
Proof.
  intros X f g l. induction l as [|x l IH]; intros H; [reflexivity|]. cbn. rewrite H by (cbn; auto). cbn.
  rewrite IH by (intros; apply H; cbn; auto). cbn. destruct (g x); reflexivity.
Qed.
Lemma pair_common : forall s a b c t d e f x y, grid_triangle s a b c -> grid_triangle t d e f -> In x s -> In y t ->
  exists r, common_part x y = Ok r /\ is_common_part x y r.
Proof.
  intros s a b c t d e f x y S1 T1 I J. destruct (side_ok _ _ _ _ _ S1 I) as (A1 & A2 & A3 & A4). destruct (side_ok _ _ _ _ _ T1 J) as (B1 & B2 & B3 & B4).
  apply common_part_spec; auto. congruence.
Qed.
Lemma tri_points : forall s a b c, grid_triangle s a b c -> Permutation (point_set s) [a; b; c].
Proof. intros s a b c (PO & _ & _ & O). apply point_set_polygon; auto. apply corners_differ; auto. Qed.
Lemma not_near : forall (p : pt RA) l, existsb (pt_eqb p) l = false <-> forall v, In v l -> / 10^5 <= Rabs (px p - px v) \/ / 10^5 <= Rabs (py p - py v).
Proof.
  intros p l. split.
  - intros H v I. destruct (Rle_dec (/ 10^5) (Rabs (px p - px v))); auto. destruct (Rle_dec (/ 10^5) (Rabs (py p - py v))); auto. exfalso.
    assert (existsb (pt_eqb p) l = true); [|congruence]. apply existsb_exists. exists v. split; auto. apply pt_eqb_iff.
    replace (1/100000) with (/ 10^5) by lra. split; lra.
  - intros H. destruct (existsb (pt_eqb p) l) eqn:E; auto. exfalso. apply existsb_exists in E as (v & I & E). apply pt_eqb_iff in E as [X Y].
    destruct (H v I); lra.
Qed.
Lemma overlap_points_spec : forall s a b c t d e f, grid_triangle s a b c -> grid_triangle t d e f ->
  exists r, overlap_points s t = Ok r /\ (r = true <-> cross_away s t [a; b; c; d; e; f]).
Proof.
  intros s a b c t d e f S1 T1. unfold overlap_points. destruct (tri_pairs_spec s t) as (_ & TP1 & TP2).
  set (g := fun '(x, y) => match common_part x y with Ok (Some (CPoint p)) => negb (existsb (pt_eqb p) (point_set s ++ point_set t)) | _ => false end).
  rewrite (filterM_filter _ _ g).
  2:{ intros [x y] I. apply TP1 in I as [I J]. destruct (pair_common _ _ _ _ _ _ _ _ _ _ S1 T1 I J) as (r & E & _). unfold g. rewrite E. cbn [bind].
      destruct r as [[]|]; reflexivity. }
  cbn [bind]. eexists. split; [reflexivity|].
  assert (CS : forall v, In v (point_set s ++ point_set t) <-> In v [a; b; c; d; e; f]).
  { intros v. change [a; b; c; d; e; f] with ([a; b; c] ++ [d; e; f]). rewrite !in_app_iff. rewrite (Permutation_in' eq_refl (tri_points _ _ _ _ S1)), (Permutation_in' eq_refl (tri_points _ _ _ _ T1)). tauto. }
  assert (G : (exists p, In p (tri_pairs s t) /\ g p = true) <-> cross_away s t [a; b; c; d; e; f]).
  { split.
    - intros ([x y] & I & G). apply TP1 in I as [I J]. destruct (pair_common _ _ _ _ _ _ _ _ _ _ S1 T1 I J) as (r & E & IC). unfold g in G. rewrite E in G.
      destruct r as [[p|u|l]|]; try discriminate. destruct IC as (q & -> & M). exists x, y, q. split; [auto|split; [auto|split; [exact M|]]].
      apply negb_true_iff in G. rewrite not_near in G. intros v V. apply (G v), CS, V.
    - intros (x & y & q & I & J & M & FAR). destruct (TP2 x y I J) as [K|K].
      + exists (x, y). split; auto. destruct (pair_common _ _ _ _ _ _ _ _ _ _ S1 T1 I J) as (r & E & IC). unfold g. rewrite E.
        assert (Q : shared x y q) by (apply M; auto).
        destruct r as [[p|u|l]|]; cbn in IC; [|destruct IC as [N IC]|contradiction|exfalso; eapply IC; eauto].
        * destruct IC as (q2 & -> & M2). assert (q = q2) as -> by (apply M2; auto). apply negb_true_iff, not_near. intros v V. apply (FAR v), CS, V.
        * exfalso. apply N. destruct (on_ends (si u) (sj u)) as [O1 O2]. apply IC, M in O1. apply IC, M in O2. congruence.
      + exists (y, x). split; auto. destruct (TP1 _ _ K) as [I' J']. destruct (pair_common _ _ _ _ _ _ _ _ _ _ S1 T1 I' J') as (r & E & IC). unfold g. rewrite E.
        apply meet_sym in M. assert (Q : shared y x q) by (apply M; auto).
        destruct r as [[p|u|l]|]; cbn in IC; [|destruct IC as [N IC]|contradiction|exfalso; eapply IC; eauto].
        * destruct IC as (q2 & -> & M2). assert (q = q2) as -> by (apply M2; auto). apply negb_true_iff, not_near. intros v V. apply (FAR v), CS, V.
        * exfalso. apply N. destruct (on_ends (si u) (sj u)) as [O1 O2]. apply IC, M in O1. apply IC, M in O2. congruence. }
  rewrite <- G. destruct (filter g (tri_pairs s t)) as [|p l] eqn:EF.
  - split; [discriminate|]. intros (p & I & K). assert (In p []) as []. rewrite <- EF. apply filter_In. auto.
  - split; auto. intros _. exists p. apply filter_In. rewrite EF. cbn. auto.
Qed.

Lemma flat_map_one : forall X Y (g : X -> list Y) (ov : X -> Prop) l, NoDup l -> (forall x, In x l -> (ov x /\ exists u, g x = [u]) \/ (~ ov x /\ g x = [])) ->
  (length (flat_map g l) = 1%nat <-> exists x, In x l /\ ov x /\ forall x', In x' l -> ov x' -> x' = x).
Proof.
  intros X Y g ov l. induction l as [|x l IH]; intros ND H; [cbn; split; [discriminate|intros (x & [] & _)]|].
  inversion ND as [|? ? NI ND']; subst. destruct IH as [IH1 IH2]; auto. { intros z Hz. apply H. cbn. auto. }
  assert (Z : length (flat_map g l) = 0%nat <-> forall x', In x' l -> ~ ov x').
  { assert (HH : forall x, In x l -> (ov x /\ exists u, g x = [u]) \/ (~ ov x /\ g x = [])) by (intros; apply H; cbn; auto). clear - HH.
    induction l as [|x l IH]; [cbn; split; auto|]. cbn [flat_map]. rewrite app_length. destruct IH as [I1 I2]; [intros; apply HH; cbn; auto|].
    destruct (HH x (or_introl eq_refl)) as [[O (u & ->)]|[O ->]]; cbn [length Nat.add].
    - split; [discriminate|]. intros K. exfalso. apply (K x); cbn; auto.
    - split; [intros K x' [<-|I]; auto|]. intros K. apply I2. intros x' I. apply K. cbn; auto. }
  cbn [flat_map]. rewrite app_length. destruct (H x (or_introl eq_refl)) as [[O (u & ->)]|[O ->]]; cbn [length Nat.add].
  - split.
    + intros K. assert (K0 : length (flat_map g l) = 0%nat) by lia. exists x. split; [cbn; auto|]. split; auto. intros x' [<-|I] O'; auto.
      exfalso. apply (proj1 Z K0 x'); auto.
    + intros (x0 & I & O0 & U). assert (x = x0) as <- by (apply U; cbn; auto). f_equal. apply Z. intros x' I' O'. apply NI. rewrite <- (U x'); cbn; auto.
  - split.
    + intros K. destruct (IH1 K) as (x0 & I & O0 & U). exists x0. split; [cbn; auto|]. split; auto. intros x' [<-|I'] O'; auto. contradiction.
    + intros (x0 & [<-|I] & O0 & U); [contradiction|]. apply IH2. exists x0. split; auto. split; auto. intros; apply U; cbn; auto.
Qed.
Lemma NoDup_flat : forall X Y (g : X -> list Y) l, NoDup l -> (forall x, In x l -> NoDup (g x)) ->
  (forall x x' u, In x l -> In x' l -> In u (g x) -> In u (g x') -> x = x') -> NoDup (flat_map g l).
Proof.
  intros X Y g l. induction l as [|x l IH]; intros ND H1 H2; [constructor|]. inversion ND as [|? ? NI ND']; subst. cbn [flat_map].
  assert (N2 : NoDup (flat_map g l)) by (apply IH; auto; intros; [apply H1; cbn; auto|eapply H2; cbn; eauto]).
  assert (D : forall u, In u (g x) -> ~ In u (flat_map g l)).
  { intros u I J. apply in_flat_map in J as (x' & I' & J'). apply NI. rewrite (H2 x x' u); cbn; auto. }
  specialize (H1 x (or_introl eq_refl)). clear - H1 N2 D. induction (g x) as [|u r IH]; auto. inversion H1; subst. cbn. constructor.
  - rewrite in_app_iff. intros [K|K]; auto. apply (D u); cbn; auto.
  - apply IH; auto. intros; apply D; cbn; auto.
Qed.

(*@ C71_touch *)
(** C71: touch of two triangles with integer corners holds exactly when there is exactly one pair of sides
    with more than one point in common. *)
Lemma touch_spec : forall s a b c t d e f, grid_triangle s a b c -> grid_triangle t d e f ->
  exists r, tri_touch s t = Ok r /\ (r = true <-> share_once s t).
Proof.
  intros s a b c t d e f S1 T1. unfold tri_touch. destruct (tri_pairs_spec s t) as (NDP & TP1 & TP2).
  set (g := fun p : seg RA * seg RA => match common_part (fst p) (snd p) with Ok (Some (CSeg u)) => [u] | _ => [] end).
  rewrite (mapM_map _ _ _ g).
  2:{ intros [x y] I. apply TP1 in I as [I J]. destruct (pair_common _ _ _ _ _ _ _ _ _ _ S1 T1 I J) as (r & E & _). unfold g. cbn [fst snd].
      destruct (side_ok _ _ _ _ _ S1 I) as (_ & _ & _ & A4). destruct (side_ok _ _ _ _ _ T1 J) as (_ & _ & _ & B4).
      rewrite E. cbn [bind]. destruct r as [[p|u|l]|]; try reflexivity. rewrite (common_class x y u A4 B4 E). reflexivity. }
  cbn [bind]. eexists. split; [reflexivity|]. rewrite <- flat_map_concat_map.
  assert (GS : forall x y, In (x, y) (tri_pairs s t) -> (share_length x y /\ exists u, g (x, y) = [u]) \/ (~ share_length x y /\ g (x, y) = [])).
  { intros x y I. apply TP1 in I as [I J]. destruct (pair_common _ _ _ _ _ _ _ _ _ _ S1 T1 I J) as (r & E & IC). pose proof (common_share x y r IC) as CS.
    unfold g. cbn [fst snd]. rewrite E. destruct r as [[p|u|l]|].
    - right. split; auto. intros K. apply CS in K as (u & K). discriminate.
    - left. split; [apply CS; eauto|eauto].
    - destruct IC.
    - right. split; auto. intros K. apply CS in K as (u & K). discriminate. }
  assert (GU : forall x y u, In (x, y) (tri_pairs s t) -> In u (g (x, y)) -> si u <> sj u /\ forall q, shared x y q <-> on_segment (si u) (sj u) q).
  { intros x y u I G. apply TP1 in I as [I J]. destruct (pair_common _ _ _ _ _ _ _ _ _ _ S1 T1 I J) as (r & E & IC). unfold g in G. cbn [fst snd] in G. rewrite E in G.
    destruct r as [[p|w|l]|]; try destruct G as []. subst. exact IC. contradiction. }
  destruct S1 as (PO & _ & _ & O). destruct T1 as (PO' & _ & _ & O').
  assert (NDF : NoDup (flat_map g (tri_pairs s t))).
  { apply NoDup_flat; auto.
    - intros [x y] I. destruct (GS x y I) as [[_ (u & ->)]|[_ ->]]; repeat constructor. intros [].
    - intros [x y] [x' y'] u I I' G G'. destruct (GU _ _ _ I G) as [N U]. destruct (GU _ _ _ I' G') as [_ U'].
      destruct (on_ends (si u) (sj u)) as [E1 E2]. apply TP1 in I as [I J]. apply TP1 in I' as [I' J'].
      pose proof (proj2 (U _) E1) as [X1 Y1]. pose proof (proj2 (U _) E2) as [X2 Y2]. pose proof (proj2 (U' _) E1) as [X3 Y3]. pose proof (proj2 (U' _) E2) as [X4 Y4].
      f_equal; [apply (sides_share s a b c)|apply (sides_share t d e f)]; auto; exists (si u), (sj u); split; auto; split; split; auto. }
  assert (LEN : length (dedup seg_sameb (flat_map g (tri_pairs s t))) = length (flat_map g (tri_pairs s t))).
  { apply Permutation_length, NoDup_Permutation; auto; [apply (dedup_NoDup _ _ seg_sameb_iff)|]. intros u. apply (dedup_In _ _ seg_sameb_iff). }
  rewrite LEN, Nat.eqb_eq, (flat_map_one _ _ g (fun p => share_length (fst p) (snd p)) (tri_pairs s t) NDP).
  2:{ intros [x y] I. apply GS. auto. }
  split.
  - intros ([x y] & I & OV & U). cbn in OV. destruct (TP1 _ _ I) as [Ix Iy]. exists x, y. repeat (split; [assumption|]). intros x' y' I' J' OV'.
    destruct (TP2 x' y' I' J') as [K|K].
    + specialize (U _ K OV'). injection U as -> ->. auto.
    + destruct (TP1 _ _ K) as [K1 K2]. assert (x' = y') as <- by (apply (sides_share s a b c); auto). specialize (U _ K OV'). injection U as -> ->. auto.
  - intros (x & y & I & J & OV & U).
    assert (K : In (x, y) (tri_pairs s t)).
    { destruct (TP2 x y I J) as [K|K]; auto. destruct (TP1 _ _ K) as [K1 K2]. assert (x = y) as -> by (apply (sides_share s a b c); auto). auto. }
    exists (x, y). split; auto. split; auto. intros [x' y'] I' OV'. destruct (TP1 _ _ I') as [I1 I2]. destruct (U x' y' I1 I2 OV') as [-> ->]. auto.
Qed.

(** * Sorting *)
Definition lexle (a b : pt RA) : Prop := px a < px b \/ (px a = px b /\ py a <= py b).
Lemma lex_false : forall a b : pt RA, lex_ltb b a = false <-> lexle a b.
Proof.
  intros a b. unfold lex_ltb, lexle. ra. destruct (Reqb (px b) (px a)) eqn:E.
  - apply Reqb_true in E. rewrite Rltb_false. split; intros H; [right; split; lra|]. destruct H as [H|[_ H]]; lra.
  - apply Reqb_false in E. rewrite Rltb_false. split; intros H; [left; lra|]. destruct H as [H|[H _]]; lra.
Qed.
Lemma lex_true : forall a b : pt RA, lex_ltb b a = true -> lexle b a.
Proof.
  intros a b. unfold lex_ltb, lexle. ra. destruct (Reqb (px b) (px a)) eqn:E.
  - apply Reqb_true in E. rewrite Rltb_true. intros; right; split; lra.
  - rewrite Rltb_true. auto.
Qed.
Lemma lexle_trans : forall a b c, lexle a b -> lexle b c -> lexle a c.
Proof. unfold lexle. intros a b c [H|[H H']] [K|[K K']]; (left; lra) || (right; lra). Qed.
Lemma lexle_anti : forall a b, lexle a b -> lexle b a -> a = b.
Proof. intros [ax ay] [bx by_]. unfold lexle. cbn. intros [H|[H H']] [K|[K K']]; try lra. f_equal; lra. Qed.
Lemma insert_lex : forall x l, StronglySorted lexle l -> StronglySorted lexle (insert_sorted lex_ltb x l).
Proof.
  intros x l. induction l as [|y l IH]; intros S1; [repeat constructor|]. inversion S1 as [|? ? S2 F]; subst. cbn [insert_sorted].
  destruct (lex_ltb y x) eqn:E.
  - constructor; auto. rewrite Forall_forall in *. intros z I. apply (Permutation_in _ (insert_sorted_perm _ _ _ _)) in I as [<-|I]; auto.
    apply lex_true. auto.
  - apply lex_false in E. constructor; auto. constructor; auto. rewrite Forall_forall in *. intros z I. apply (lexle_trans _ y); auto.
Qed.
Lemma sort_lex : forall l, StronglySorted lexle (sort_by lex_ltb l).
Proof. induction l; cbn; [constructor|apply insert_lex; auto]. Qed.
Lemma sorted_unique : forall l l', Permutation l l' -> StronglySorted lexle l -> StronglySorted lexle l' -> l = l'.
Proof.
  induction l as [|x l IH]; intros l' P S1 S2; [apply Permutation_nil in P; auto|]. destruct l' as [|y l']; [apply Permutation_sym, Permutation_nil in P; discriminate|].
  inversion S1 as [|? ? S3 F]; subst. inversion S2 as [|? ? S4 F']; subst. rewrite Forall_forall in *.
  assert (x = y) as <-.
  { pose proof (Permutation_in x P (or_introl eq_refl)) as [K|K]; [auto|]. pose proof (Permutation_in y (Permutation_sym P) (or_introl eq_refl)) as [K'|K']; [auto|].
    apply lexle_anti; auto. }
  f_equal. apply IH; auto. apply Permutation_cons_inv with x. auto.
Qed.
Lemma lattice_eqb : forall p q, lattice 2000 p -> lattice 2000 q -> pt_eqb p q = true -> p = q.
Proof.
  intros [x y] [x' y'] (a & b & A & B & _) (c & d & C & D & _) E. cbn in A, B, C, D. subst. apply pt_eqb_iff in E as [X Y]. cbn in X, Y.
  rewrite <- minus_IZR in X, Y. apply Rabs_def2 in X. apply Rabs_def2 in Y.
  assert ((a - c < 1)%Z) by (apply lt_IZR; lra). assert ((-1 < a - c)%Z) by (apply lt_IZR; lra).
  assert ((b - d < 1)%Z) by (apply lt_IZR; lra). assert ((-1 < b - d)%Z) by (apply lt_IZR; lra).
  f_equal; f_equal; lia.
Qed.

(*@ C71_congruent *)
(** C71: two triangles with integer corners are congruent exactly when they have the same corners. *)
Lemma congruent_spec : forall s a b c t d e f, grid_triangle s a b c -> grid_triangle t d e f ->
  (congruent s t = true <-> Permutation [a; b; c] [d; e; f]).
Proof.
  intros s a b c t d e f S1 T1. pose proof (tri_points _ _ _ _ S1) as P1. pose proof (tri_points _ _ _ _ T1) as P2. unfold congruent.
  rewrite (Permutation_length P1), (Permutation_length P2). cbn [length Nat.eqb andb]. split.
  - intros H. assert (E : point_set s = point_set t).
    { destruct S1 as (_ & _ & LA & _). destruct T1 as (_ & _ & LB & _).
      assert (LA' : Forall (lattice 2000) (point_set s)) by (rewrite Forall_forall in *; intros x I; apply LA, (Permutation_in _ P1), I).
      assert (LB' : Forall (lattice 2000) (point_set t)) by (rewrite Forall_forall in *; intros x I; apply LB, (Permutation_in _ P2), I).
      assert (LEN : length (point_set s) = length (point_set t)) by (rewrite (Permutation_length P1), (Permutation_length P2); reflexivity).
      clear - H LA' LB' LEN. revert H LEN LB'. generalize (point_set t). induction LA' as [|p l LP LA IH]; intros [|q r] H LEN LB; try discriminate; auto.
      inversion LB; subst. cbn in H, LEN. apply andb_prop in H as [HA HB]. rewrite (lattice_eqb p q); auto. f_equal. apply IH; auto. }
    apply (Permutation_trans (Permutation_sym P1)). rewrite E. auto.
  - intros P. assert (E : point_set s = point_set t).
    { apply sorted_unique; [|apply sort_lex|apply sort_lex]. apply (Permutation_trans P1). apply (Permutation_trans P). apply Permutation_sym; auto. }
    rewrite E. clear. induction (point_set t) as [|p l IH]; cbn; auto. rewrite pt_eqb_refl, IH. reflexivity.
Qed.

(** * enclosed, overlap, disjunct *)
Lemma existsM_true : forall X (f : X -> res bool) l, existsM f l = Ok true -> exists x, In x l /\ f x = Ok true.
Proof.
  intros X f l. induction l as [|y l IH]; cbn; [discriminate|]. destruct (f y) as [b|e] eqn:E; cbn; [|discriminate].
  destruct b; [intros _; exists y; auto|]. intros H. destruct (IH H) as (x & ? & ?). eauto.
Qed.
Lemma calls : forall s a b c, grid_triangle s a b c -> forall k, (forall n q, In (n, q) (combine (seq k 3) (point_set s)) -> In q [a; b; c]) /\
  (forall q, In q [a; b; c] -> exists n, In (n, q) (combine (seq k 3) (point_set s))).
Proof.
  intros s a b c S1 k. pose proof (tri_points _ _ _ _ S1) as P. split.
  - intros n q I. apply in_combine_r in I. apply (Permutation_in _ P), I.
  - intros q I. apply (Permutation_in _ (Permutation_sym P)) in I. pose proof (Permutation_length P) as L. cbn in L. rewrite <- L. apply combine_seq_In. auto.
Qed.

(*@ C71_enclosed *)
(** C71: enclosed reports whether every corner of the other triangle was reported inside. *)
Lemma enclosed_spec : forall inside s a b c t d e f, grid_triangle s a b c -> grid_triangle t d e f ->
  (enclosed inside s t = Ok true -> forall q, In q [d; e; f] -> exists n, inside n s q = Ok true) /\
  (enclosed inside s t = Ok false -> exists n q, In q [d; e; f] /\ inside n s q = Ok false) /\
  ((forall n q, In q [d; e; f] -> exists r, inside n s q = Ok r) -> exists r, enclosed inside s t = Ok r).
Proof.
  intros inside s a b c t d e f S1 T1. destruct (calls _ _ _ _ T1 0%nat) as [C1 C2]. unfold enclosed. split; [|split].
  - destruct (existsM _ _) as [[]|] eqn:E; cbn; try discriminate. intros _ q I. destruct (C2 q I) as (n & K). apply (existsM_false _ _ _ E) in K.
    exists n. destruct (inside n s q) as [[]|]; cbn in K; congruence.
  - destruct (existsM _ _) as [[]|] eqn:E; cbn; try discriminate. intros _. apply existsM_true in E as ([n q] & I & K). exists n, q. split; [apply (C1 n), I|].
    destruct (inside n s q) as [[]|]; cbn in K; congruence.
  - intros H. match goal with |- context [existsM ?g ?l] => destruct (existsM_total _ g l) as (r & ->) end.
    + intros [n q] I. destruct (H n q (C1 _ _ I)) as (r & ->). cbn. eauto.
    + cbn. eauto.
Qed.

(*@ C71_overlap *)
(** C71: overlap reports true exactly when a corner of one was reported inside the other or sides meet in
    one point away from all corners. *)
Lemma overlap_spec : forall inside s a b c t d e f, grid_triangle s a b c -> grid_triangle t d e f ->
  (MTri.overlap inside s t = Ok true ->
     (exists n q, (In q [d; e; f] /\ inside n s q = Ok true) \/ (In q [a; b; c] /\ inside n t q = Ok true)) \/ cross_away s t [a; b; c; d; e; f]) /\
  (MTri.overlap inside s t = Ok false ->
     (forall q, In q [d; e; f] -> exists n, inside n s q = Ok false) /\ (forall q, In q [a; b; c] -> exists n, inside n t q = Ok false) /\
     ~ cross_away s t [a; b; c; d; e; f]) /\
  ((forall n q, In q [d; e; f] -> exists r, inside n s q = Ok r) -> (forall n q, In q [a; b; c] -> exists r, inside n t q = Ok r) ->
     exists r, MTri.overlap inside s t = Ok r).
Proof.
  intros inside s a b c t d e f S1 T1. destruct (calls _ _ _ _ T1 0%nat) as [C1 C2]. destruct (calls _ _ _ _ S1 0%nat) as [D1 D2]. unfold MTri.overlap.
  destruct (overlap_points_spec _ _ _ _ _ _ _ _ S1 T1) as (r & EO & R). rewrite EO. split; [|split].
  - destruct (existsM _ (combine _ (point_set t))) as [[]|] eqn:E; cbn [bind]; try discriminate.
    + intros _. apply existsM_true in E as ([n q] & I & K). left. exists n, q. left. split; auto. apply (C1 n), I.
    + destruct (existsM _ (combine _ (point_set s))) as [[]|] eqn:E2; cbn [bind]; try discriminate.
      * intros _. apply existsM_true in E2 as ([n q] & I & K). left. exists (3 + n)%nat, q. right. split; auto. apply (D1 n), I.
      * intros H. injection H as ->. right. apply R. auto.
  - destruct (existsM _ (combine _ (point_set t))) as [[]|] eqn:E; cbn [bind]; try discriminate.
    destruct (existsM _ (combine _ (point_set s))) as [[]|] eqn:E2; cbn [bind]; try discriminate.
    intros H. injection H as ->. split; [|split].
    + intros q I. destruct (C2 q I) as (n & K). exists n. apply (existsM_false _ _ _ E _ K).
    + intros q I. destruct (D2 q I) as (n & K). exists (3 + n)%nat. apply (existsM_false _ _ _ E2 _ K).
    + intros K. apply R in K. discriminate.
  - intros H1 H2. destruct (existsM_total _ (fun '(n, x) => inside n s x) (combine (seq 0 3) (point_set t))) as (b1 & ->).
    { intros [n q] I. apply H1, (C1 n), I. }
    cbn [bind]. destruct b1; [eauto|]. destruct (existsM_total _ (fun '(n, x) => inside (3 + n)%nat t x) (combine (seq 0 3) (point_set s))) as (b2 & ->).
    { intros [n q] I. apply H2, (D1 n), I. }
    cbn [bind]. destruct b2; eauto.
Qed.

(*@ C71_disjunct *)
(** C71: two triangles reported disjunct have different corners, every corner of either was reported not
    inside the other, no sides meet in one point away from all corners, and the number of pairs of sides
    with more than one common point is not one.  And that is all there is to it: if the corners are reported not
    inside, these conditions suffice. *)
Lemma disjunct_spec : forall io1 io2 io3 s a b c t d e f, grid_triangle s a b c -> grid_triangle t d e f ->
  (tri_disjunct io1 io2 io3 s t = Ok true ->
     ~ Permutation [a; b; c] [d; e; f] /\
     (forall q, In q [d; e; f] -> exists n, io1 n s q = Ok false) /\ (forall q, In q [a; b; c] -> exists n, io1 n t q = Ok false) /\
     ~ cross_away s t [a; b; c; d; e; f] /\ ~ share_once s t) /\
  ((forall n q, In q [d; e; f] -> io1 n s q = Ok false /\ io2 n s q = Ok false /\ io3 n s q = Ok false) ->
   (forall n q, In q [a; b; c] -> io1 n t q = Ok false /\ io2 n t q = Ok false /\ io3 n t q = Ok false) ->
   ~ Permutation [a; b; c] [d; e; f] -> ~ cross_away s t [a; b; c; d; e; f] -> ~ share_once s t ->
   tri_disjunct io1 io2 io3 s t = Ok true).
Proof.
  intros io1 io2 io3 s a b c t d e f S1 T1. unfold tri_disjunct. pose proof (congruent_spec _ _ _ _ _ _ _ _ S1 T1) as CO.
  destruct (overlap_spec io1 _ _ _ _ _ _ _ _ S1 T1) as (O1 & O2 & O3). destruct (overlap_spec io2 _ _ _ _ _ _ _ _ T1 S1) as (P1 & P2 & P3).
  destruct (enclosed_spec io3 _ _ _ _ _ _ _ _ S1 T1) as (E1 & E2 & E3). destruct (touch_spec _ _ _ _ _ _ _ _ S1 T1) as (r & ET & RT).
  split.
  - destruct (congruent s t); [discriminate|]. destruct (MTri.overlap io1 s t) as [[]|]; cbn [bind]; try discriminate. intros H.
    destruct (O2 eq_refl) as (A1 & A2 & A3). split; [intros K; apply CO in K; discriminate|]. split; auto. split; auto. split; auto.
    destruct (MTri.overlap io2 t s) as [[]|]; cbn [bind] in H; try discriminate. destruct (enclosed io3 s t) as [cc|]; cbn [bind] in H; [|discriminate].
    match type of H with (bind ?x _) = _ => destruct x as [[]|]; cbn [bind] in H; try discriminate end. rewrite ET in H. cbn [bind] in H.
    intros K. apply RT in K. subst. discriminate.
  - intros H1 H2 NP NC NS. destruct (congruent s t); [exfalso; apply NP, CO; auto|].
    destruct (MTri.overlap io1 s t) as [[]|] eqn:EO; cbn [bind].
    + exfalso. destruct (O1 eq_refl) as [(n & q & [[I K]|[I K]])|K]; [destruct (H1 n q I) as (? & _); congruence|destruct (H2 n q I) as (? & _); congruence|auto].
    + destruct (MTri.overlap io2 t s) as [[]|] eqn:EP; cbn [bind].
      * exfalso. destruct (P1 eq_refl) as [(n & q & [[I K]|[I K]])|K]; [destruct (H2 n q I) as (? & ? & _); congruence|destruct (H1 n q I) as (? & ? & _); congruence|].
        apply NC. destruct K as (x & y & q & I & J & M & F). exists y, x, q. split; auto. split; auto. split; [apply meet_sym; auto|].
        intros v V. apply F. cbn in *. tauto.
      * destruct (enclosed io3 s t) as [[]|] eqn:EE; cbn [bind].
        -- exfalso. destruct (E1 eq_refl d (or_introl eq_refl)) as (n & K). destruct (H1 n d (or_introl eq_refl)) as (_ & _ & ?). congruence.
        -- rewrite ET. cbn [bind]. destruct r; auto. exfalso. apply NS, RT. auto.
        -- exfalso. destruct E3 as (r' & K); [|discriminate]. intros n q I. destruct (H1 n q I) as (_ & _ & ?). eauto.
      * exfalso. destruct P3 as (r' & K); [| |discriminate]; intros n q I; [destruct (H2 n q I) as (_ & ? & _)|destruct (H1 n q I) as (_ & ? & _)]; eauto.
    + exfalso. destruct O3 as (r' & K); [| |discriminate]; intros n q I; [destruct (H1 n q I) as (? & _ & _)|destruct (H2 n q I) as (? & _ & _)]; eauto.
Qed.
