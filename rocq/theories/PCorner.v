(** Corners of polygons: neighbours, collinear corners, cutting a corner off. *)
From Coq Require Import Reals ZArith Lra Lia Bool List Psatz Permutation.
From Verif Require Import Base Arith ArithR ArithF MPoint MLine MPoly MTri Spec SpecInside SpecGroup SpecTri
  PPoint PLine PShape PPoly PCommon PConvex POrder PMore PInside PTri PSplit.
Import ListNotations.
Local Open Scope R_scope.
#[local] Existing Instance RA.

(** * Cycles *)
Lemma rotation_refl : forall X (l : list X), rotation l l.
Proof. intros X l. exists [], l. rewrite app_nil_r. auto. Qed.
Lemma rotation_sym : forall X (l l' : list X), rotation l l' -> rotation l' l.
Proof. intros X l l' (u & w & -> & ->). exists w, u. auto. Qed.
Lemma rotation_perm : forall X (l l' : list X), rotation l l' -> Permutation l l'.
Proof. intros X l l' (u & w & -> & ->). apply Permutation_app_comm. Qed.
Lemma rotation_edges : forall X (l l' : list X), rotation l l' -> Permutation (cycle_edges l) (cycle_edges l').
Proof.
  intros X l l' (u & w & -> & ->). revert w. induction u as [|v u IH]; intros w.
  - rewrite app_nil_r. apply Permutation_refl.
  - cbn [app]. rewrite <- cycle_edges_rotate, <- app_assoc, IH, <- app_assoc. apply Permutation_refl.
Qed.
Lemma app_split : forall X (u w u' w' : list X), u ++ w = u' ++ w' ->
  (exists m, u' = u ++ m /\ w = m ++ w') \/ (exists m, u = u' ++ m /\ w' = m ++ w).
Proof.
  intros X u. induction u as [|x u IH]; intros w u' w' E.
  - left. exists u'. auto.
  - destruct u' as [|y u']; cbn in E.
    + right. exists (x :: u). auto.
    + injection E as -> E. destruct (IH _ _ _ E) as [(m & -> & ->)|(m & -> & ->)]; [left|right]; exists m; auto.
Qed.
Lemma rotation_trans : forall X (l l' l'' : list X), rotation l l' -> rotation l' l'' -> rotation l l''.
Proof.
  intros X l l' l'' (u & w & -> & ->) (u' & w' & E & ->). destruct (app_split _ _ _ _ _ E) as [(m & -> & ->)|(m & -> & ->)].
  - exists m, (w' ++ w). rewrite <- !app_assoc. auto.
  - exists (u ++ u'), m. rewrite <- !app_assoc. auto.
Qed.

(** Every element of a list of at least three is a corner with a predecessor and a successor. *)
Lemma corner_of : forall X (vs : list X) p, In p vs -> (3 <= length vs)%nat ->
  exists a b r, rotation vs (a :: p :: b :: r).
Proof.
  intros X vs p I L. apply in_split in I as (u & w & ->).
  assert (rotation (u ++ p :: w) (p :: w ++ u)) as R1 by (exists u, (p :: w); auto).
  assert (2 <= length (w ++ u))%nat as L' by (rewrite app_length in *; cbn in L; lia).
  destruct (w ++ u) as [|b m] eqn:E; [cbn in L'; lia|].
  destruct (exists_last (l := m)) as (m' & a & ->); [destruct m; cbn in L'; [lia|congruence]|].
  exists a, b, m'. eapply rotation_trans; [exact R1|]. exists (p :: b :: m'), [a]. auto.
Qed.
Lemma corner_edges : forall X (a p b : X) r,
  cycle_edges (a :: p :: b :: r) = (a, p) :: (p, b) :: pairs (b :: r ++ [a]) /\ cycle_edges (a :: b :: r) = (a, b) :: pairs (b :: r ++ [a]).
Proof. intros. rewrite !cycle_edges_pairs. auto. Qed.
Lemma pairs_In : forall X (l : list X) x y, In (x, y) (pairs l) -> In x l /\ In y l.
Proof.
  intros X l. induction l as [|x [|y r] IH]; cbn; try tauto. intros u v [E|E].
  - injection E as -> ->. auto.
  - apply IH in E. cbn in E. tauto.
Qed.

Lemma polygon_rotate : forall (vs vs' : list (pt RA)) l, rotation vs vs' -> polygon_of vs l -> polygon_of vs' l.
Proof.
  intros vs vs' l R (l' & P & F). destruct (Permutation_Forall2 (rotation_edges _ _ _ R) F) as (l2 & P2 & F2).
  exists l2. split; auto. eapply Permutation_trans; eauto.
Qed.
Lemma polygon_perm : forall (vs : list (pt RA)) l l', Permutation l l' -> polygon_of vs l -> polygon_of vs l'.
Proof. intros vs l l' P (l2 & P2 & F). exists l2. split; auto. rewrite <- P. auto. Qed.
Lemma joins_turn : forall e (s t : seg RA), s = t \/ s = mkseg (sc t) (sj t) (si t) -> joins e t -> joins e s.
Proof. intros e s t [->| ->] [[E1 E2]|[E1 E2]]; unfold joins; cbn; auto. Qed.
Lemma Forall2_swap : forall X Y (R : X -> Y -> Prop) a b, Forall2 R a b -> Forall2 (fun y x => R x y) b a.
Proof. induction 1; constructor; auto. Qed.
Lemma Forall2_comp : forall X Y Z (R : X -> Y -> Prop) (S' : Y -> Z -> Prop) (T : X -> Z -> Prop) a b c,
  (forall x y z, R x y -> S' y z -> T x z) -> Forall2 R a b -> Forall2 S' b c -> Forall2 T a c.
Proof. intros X Y Z R S' T a b c H F. revert c. induction F; intros c G; inversion G; subst; constructor; eauto. Qed.
Lemma polygon_rearranged : forall (vs : list (pt RA)) l l', rearranged l' l -> polygon_of vs l -> polygon_of vs l'.
Proof.
  intros vs l l' (g & P & F) (l2 & P2 & F2).
  assert (Permutation g l2) as P3 by (rewrite P; auto). clear P P2.
  destruct (Permutation_Forall2 P3 (Forall2_swap _ _ _ _ _ F)) as (l3 & P4 & F3).
  exists l3. split; auto. eapply Forall2_comp; [|exact F2|exact F3]. intros e s t J K. exact (joins_turn e t s K J).
Qed.

Lemma Forall2_In_r : forall X Y (R : X -> Y -> Prop) a b y, Forall2 R a b -> In y b -> exists x, In x a /\ R x y.
Proof.
  intros X Y R a b y F. induction F as [|x' y' a b J F IH]; intros I'; [destruct I'|].
  destruct I' as [->|I']; [exists x'; cbn; auto|]. destruct (IH I') as (e & ? & ?). exists e. cbn; auto.
Qed.
Lemma Permutation_filter' : forall X (f : X -> bool) l l', Permutation l l' -> Permutation (filter f l) (filter f l').
Proof.
  induction 1; cbn [filter]; auto.
  - destruct (f x); auto.
  - destruct (f x), (f y); auto. constructor.
  - eapply Permutation_trans; eauto.
Qed.

(** * The two segments at a corner *)
Record corner_parts (a p b : pt RA) (r : list (pt RA)) (l : list (seg RA)) (s t : seg RA) (mid : list (seg RA)) : Prop := {
  cp_s : joins (a, p) s;
  cp_t : joins (p, b) t;
  cp_mid : Forall2 joins (pairs (b :: r ++ [a])) mid;
  cp_perm : Permutation l (s :: t :: mid);
  cp_find : find_segment_by_point l p WBoth = [s; t] \/ find_segment_by_point l p WBoth = [t; s];
  cp_nb : neighbour l p = [a; b] \/ neighbour l p = [b; a];
  cp_rest : Permutation (filter (fun x => negb (existsb (seg_eqb x) (find_segment_by_point l p WBoth))) l) mid }.

Lemma sep_eqb : forall vs (p q : pt RA), separated vs -> In p vs -> In q vs -> pt_eqb p q = true <-> p = q.
Proof. intros vs p q S P Q. split; [apply (separated_eqb vs); auto | intros ->; apply pt_eqb_refl]. Qed.
Lemma sep_neqb : forall vs (p q : pt RA), separated vs -> In p vs -> In q vs -> p <> q -> pt_eqb p q = false.
Proof. intros vs p q S P Q N. destruct (pt_eqb p q) eqn:E; auto. exfalso. apply N, (separated_eqb vs); auto. Qed.

Lemma polygon_corner : forall (a p b : pt RA) (r : list (pt RA)) (l : list (seg RA)),
  NoDup (a :: p :: b :: r) -> separated (a :: p :: b :: r) -> polygon_of (a :: p :: b :: r) l ->
  exists s t mid, corner_parts a p b r l s t mid.
Proof.
  intros a p b r l ND SEP PO. pose proof PO as (l' & PM & F).
  destruct (corner_edges _ a p b r) as [E _]. rewrite E in F.
  inversion F as [|e s E1 l1 J1 F1 X1 X2]; subst. inversion F1 as [|e' t E2 mid J2 F2 X1 X2]; subst.
  exists s, t, mid. set (vs := a :: p :: b :: r) in *.
  assert (Ia : In a vs) by (cbn; auto). assert (Ip : In p vs) by (cbn; auto). assert (Ib : In b vs) by (cbn; auto).
  assert (DI : a <> p /\ p <> b /\ a <> b /\ ~ In p r).
  { pose proof ND as D. unfold vs in D. rewrite !NoDup_cons_iff in D. cbn [In] in D. intuition congruence. }
  destruct DI as (Dap & Dpb & Dab & Dpr).
  assert (pa : pt_eqb p a = false) by (apply (sep_neqb vs); auto).
  assert (pb : pt_eqb p b = false) by (apply (sep_neqb vs); auto).
  assert (ab : pt_eqb a b = false) by (apply (sep_neqb vs); auto).
  pose proof (pt_eqb_refl p) as pp.
  assert (MID : forall x, In x mid -> existsb (pt_eqb p) (ij x) = false).
  { intros x I. destruct (existsb (pt_eqb p) (ij x)) eqn:Ex; auto. exfalso.
    assert (exists e, In e (pairs (b :: r ++ [a])) /\ joins e x) as ([u v] & Iu & J).
    { apply (Forall2_In_r _ _ _ _ _ _ F2 I). }
    apply pairs_In in Iu as [Iu Iv].
    assert (forall q, In q (b :: r ++ [a]) -> In q vs /\ q <> p) as K.
    { intros q Iq. assert (In q (a :: b :: r)) as Iq' by (cbn in *; rewrite in_app_iff in Iq; cbn in Iq; tauto).
      split; [unfold vs; cbn in *; tauto|]. intros ->. cbn in Iq'. intuition congruence. }
    apply K in Iu as [Iu Nu]. apply K in Iv as [Iv Nv].
    apply not_true_iff_false in Ex; auto. cbn. rewrite orb_false_r.
    destruct J as [[-> ->]|[-> ->]]; cbn; rewrite (sep_neqb vs p u), (sep_neqb vs p v); auto; discriminate. }
  assert (AS : existsb (pt_eqb p) (ij s) = true) by (destruct J1 as [[E1 E2]|[E1 E2]]; cbn in *; rewrite E1, E2, pp; rewrite ?orb_true_r; auto).
  assert (AT : existsb (pt_eqb p) (ij t) = true) by (destruct J2 as [[E1 E2]|[E1 E2]]; cbn in *; rewrite E1, E2, pp; rewrite ?orb_true_r; auto).
  assert (FM : filter (fun x => existsb (pt_eqb p) (ij x)) mid = []).
  { clear - MID. induction mid as [|x m IH]; auto. cbn [filter]. rewrite (MID x) by (cbn; auto). apply IH. intros; apply MID; cbn; auto. }
  assert (FIND : find_segment_by_point l p WBoth = [s; t] \/ find_segment_by_point l p WBoth = [t; s]).
  { rewrite neighbour_perm_aux. apply Permutation_length_2_inv.
    rewrite (Permutation_filter' _ _ _ _ PM). cbn [filter]. rewrite AS, AT, FM. apply Permutation_refl. }
  constructor; auto.
  - unfold neighbour.
    assert (ND2 : forall x, In x [a; b] -> pt_neb x p = true) by
      (intros x [<-|[<-|[]]]; unfold pt_neb; rewrite pt_eqb_sym, ?pa, ?pb; reflexivity).
    assert (ND3 : pt_neb p p = false) by (unfold pt_neb; rewrite pp; reflexivity).
    pose proof (ND2 a (or_introl eq_refl)) as Na. pose proof (ND2 b (or_intror (or_introl eq_refl))) as Nb.
    destruct FIND as [-> | ->]; cbn [map]; destruct J1 as [[J1 J1']|[J1 J1']], J2 as [[J2 J2']|[J2 J2']]; rewrite J1, J1', J2, J2'; cbn [fst snd filter];
    repeat (rewrite ?Na, ?Nb, ?ND3; cbn [filter app]); auto.
  - assert (FE : filter (fun x => negb (existsb (seg_eqb x) (find_segment_by_point l p WBoth))) l = filter (fun x => negb (existsb (pt_eqb p) (ij x))) l).
    { apply filter_ext_in. intros x Ix. f_equal. rewrite neighbour_perm_aux. apply eq_true_iff_eq. rewrite existsb_exists. split.
      - intros (y & Iy & Ey). apply filter_In in Iy as [Iy Ay]. unfold seg_eqb in Ey. apply andb_true_iff in Ey as [Ey E2]. apply andb_true_iff in Ey as [_ E1].
        assert (forall z, In z l -> In (si z) vs /\ In (sj z) vs) as EN.
        { intros z Iz. split; apply (polygon_ends vs l PO), in_flat_map; exists z; cbn; auto. }
        destruct (EN x Ix) as [Ix1 Ix2]. destruct (EN y Iy) as [Iy1 Iy2].
        apply (sep_eqb vs) in E1; auto. apply (sep_eqb vs) in E2; auto. cbn. rewrite E1, E2. exact Ay.
      - intros Ax. exists x. split; [apply filter_In; auto|apply seg_eqb_refl]. }
    rewrite FE, (Permutation_filter' _ _ _ _ PM). cbn [filter]. rewrite AS, AT. cbn [negb].
    rewrite filter_all; [apply Permutation_refl|]. intros x Ix. rewrite MID; auto.
Qed.

(** * Cutting a corner off *)
Lemma chord_corner : forall a p b r l s t mid, NoDup (a :: p :: b :: r) -> separated (a :: p :: b :: r) ->
  corner_parts a p b r l s t mid ->
  exists (bo : bool) new, on_chord (neighbour l p) p = Ok bo /\ (bo = true <-> flat a p b) /\
    chord (neighbour l p) = Ok new /\ joins (a, b) new /\ sc new = CLineSegment.
Proof.
  intros a p b r l s t mid ND SEP C.
  assert (DI : a <> p /\ p <> b /\ a <> b) by (rewrite !NoDup_cons_iff in ND; cbn [In] in ND; intuition congruence).
  destruct DI as (Dap & Dpb & Dab).
  assert (pa : pt_eqb p a = false) by (apply (sep_neqb _ _ _ SEP); cbn; auto).
  assert (pb : pt_eqb p b = false) by (apply (sep_neqb _ _ _ SEP); cbn; auto).
  assert (G : forall x y, (x = a /\ y = b) \/ (x = b /\ y = a) ->
    exists bo, is_point_on_line (LineSegment x y) p = Ok bo /\ (bo = true <-> flat a p b)).
  { intros x y E. destruct (on_line_iff (LineSegment x y) p) as (H & _ & (bo & K)). exists bo. split; auto.
    rewrite K in H. cbn [LineSegment si sj] in H.
    assert (pt_eqb p x = false /\ pt_eqb p y = false) as [Px Py] by (destruct E as [[-> ->]|[-> ->]]; auto).
    assert (Rabs (orient x y p) = Rabs (orient a p b)) as EA.
    { destruct E as [[-> ->]|[-> ->]]; [rewrite <- Rabs_Ropp|]; f_equal; unfold orient; ring. }
    rewrite EA, Px, Py in H. unfold flat. split.
    - intros ->. destruct (proj1 H eq_refl) as [Q|[Q|Q]]; auto; discriminate.
    - intros Q. assert (Ok bo = Ok true) as Q' by (apply H; auto). congruence. }
  destruct (cp_nb _ _ _ _ _ _ _ _ C) as [-> | ->]; cbn [on_chord].
  - destruct (G a b (or_introl (conj eq_refl eq_refl))) as (bo & -> & Q). exists bo, (LineSegment a b).
    split; auto. split; auto. split; [reflexivity|]. split; [left; auto|reflexivity].
  - destruct (G b a (or_intror (conj eq_refl eq_refl))) as (bo & -> & Q). exists bo, (LineSegment b a).
    split; auto. split; auto. split; [reflexivity|]. split; [right; auto|reflexivity].
Qed.
Lemma cut_corner : forall a p b r l s t mid new, corner_parts a p b r l s t mid -> joins (a, b) new ->
  polygon_of (a :: b :: r) (filter (fun x => negb (existsb (seg_eqb x) (find_segment_by_point l p WBoth))) l ++ [new]).
Proof.
  intros a p b r l s t mid new C J. exists (new :: mid). split.
  - rewrite (cp_rest _ _ _ _ _ _ _ _ C). apply Permutation_sym, Permutation_cons_append.
  - destruct (corner_edges _ a p b r) as [_ ->]. constructor; auto. apply (cp_mid _ _ _ _ _ _ _ _ C).
Qed.
Lemma shoelace_rotation : forall vs vs', rotation vs vs' -> shoelace vs = shoelace vs'.
Proof. intros vs vs' R. unfold shoelace. apply sumR_perm, Permutation_map, rotation_edges, R. Qed.
Lemma shoelace_corner : forall a p b r, shoelace (a :: p :: b :: r) = orient a p b + shoelace (a :: b :: r).
Proof.
  intros. unfold shoelace. destruct (corner_edges _ a p b r) as [-> ->]. cbn [map fold_right fst snd].
  unfold orient. set (S' := fold_right _ _ _). ring.
Qed.
